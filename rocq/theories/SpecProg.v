(** Programs that build maps and sets out of each other with the public
    methods, and what they mean.  Nothing here refers to the model: only to the
    key order, the range types and the calls made.  [R] is the range type of
    either kind of collection. *)
From Coq Require Import List Bool ZArith.
From Verif Require Import Order Ranges History Spec SpecStep.
Import ListNotations.

Inductive mprog (R V : Type) : Type :=
| PNew                                          (* RangeMap::new() *)
| PCall (m : mprog R V) (o : op R V)            (* m.insert(r, v) and the other updates *)
| PExtend (m m' : mprog R V)                    (* m.extend(m') *)
| PMinus (m : mprog R V) (s : sprog R V)        (* for r in s { m.remove(r) } *)
| PFill (m : mprog R V) (outer : R) (v : V)     (* m.extend(m.gaps(&outer).map(|r| (r, v.clone())).collect::<Vec<_>>()) *)
| PPaint (s : sprog R V) (v : V)                (* s.into_iter().map(|r| (r, v.clone())).collect() *)
| PApply (g : V -> V) (m : mprog R V)           (* m.into_iter().map(|(r, v)| (r, g(v))).collect() *)
with sprog (R V : Type) : Type :=
| QNew                                          (* RangeSet::new() *)
| QCall (s : sprog R V) (o : sop R)             (* s.insert(r) and the other updates *)
| QOr (s s' : sprog R V)                        (* &s | &s' *)
| QAnd (s s' : sprog R V)                       (* &s & &s' *)
| QExtend (s s' : sprog R V)                    (* s.extend(s') *)
| QMinus (s s' : sprog R V)                     (* for r in s' { s.remove(r) } *)
| QGaps (s : sprog R V) (outer : R)             (* s.gaps(&outer).collect() *)
| QWhere (p : V -> bool) (m : mprog R V)        (* m.into_iter().filter(|(_, v)| p(v)).map(|(r, _)| r).collect() *)
| QFree (m : mprog R V) (outer : R).            (* m.gaps(&outer).collect() *)
Arguments PNew {R V}.
Arguments PCall {R V} m o.
Arguments PExtend {R V} m m'.
Arguments PMinus {R V} m s.
Arguments PFill {R V} m outer v.
Arguments PPaint {R V} s v.
Arguments PApply {R V} g m.
Arguments QNew {R V}.
Arguments QCall {R V} s o.
Arguments QOr {R V} s s'.
Arguments QAnd {R V} s s'.
Arguments QExtend {R V} s s'.
Arguments QMinus {R V} s s'.
Arguments QGaps {R V} s outer.
Arguments QWhere {R V} p m.
Arguments QFree {R V} m outer.
Scheme mprog_mut := Induction for mprog Sort Prop
with sprog_mut := Induction for sprog Sort Prop.
Combined Scheme prog_mut from mprog_mut, sprog_mut.

(** ** What a program means, key by key *)
Section Meaning.
  Context {K V R : Type} (valid : R -> bool) (covers : R -> K -> bool).

  Fixpoint mval (x : mprog R V) : K -> option V :=
    match x with
    | PNew => fun _ => None
    | PCall m o => spec_op valid covers (mval m) o
    | PExtend m m' => fun k => match mval m' k with Some v => Some v | None => mval m k end
    | PMinus m s => fun k => if sval s k then None else mval m k
    | PFill m outer v => fun k =>
        match mval m k with Some w => Some w | None => if covers outer k then Some v else None end
    | PPaint s v => fun k => if sval s k then Some v else None
    | PApply g m => fun k => option_map g (mval m k)
    end
  with sval (x : sprog R V) : K -> bool :=
    match x with
    | QNew => fun _ => false
    | QCall s o => mem_op valid covers (sval s) o
    | QOr s s' => fun k => sval s k || sval s' k
    | QAnd s s' => fun k => sval s k && sval s' k
    | QExtend s s' => fun k => sval s k || sval s' k
    | QMinus s s' => fun k => sval s k && negb (sval s' k)
    | QGaps s outer => fun k => covers outer k && negb (sval s k)
    | QWhere p m => fun k => match mval m k with Some v => p v | None => false end
    | QFree m outer => fun k => covers outer k && match mval m k with Some _ => false | None => true end
    end.
End Meaning.

(** ** Programs whose own closures respect [==] on values

    A map keeps only one of several equal values of touching ranges, so a
    closure that tells equal values apart would see which one. *)
Section Respect.
  Context {V R : Type} (veqb : V -> V -> bool).

  Fixpoint mrespects (x : mprog R V) : Prop :=
    match x with
    | PNew => True
    | PCall m _ => mrespects m
    | PExtend m m' => mrespects m /\ mrespects m'
    | PMinus m s => mrespects m /\ srespects s
    | PFill m _ _ => mrespects m
    | PPaint s _ => srespects s
    | PApply g m => (forall a b, veqb a b = true -> veqb (g a) (g b) = true) /\ mrespects m
    end
  with srespects (x : sprog R V) : Prop :=
    match x with
    | QNew => True
    | QCall s _ => srespects s
    | QOr s s' | QAnd s s' | QExtend s s' | QMinus s s' => srespects s /\ srespects s'
    | QGaps s _ => srespects s
    | QWhere p m => (forall a b, veqb a b = true -> p a = p b) /\ mrespects m
    | QFree m _ => mrespects m
    end.
End Respect.

(** Programs that insert no exhausted [RangeInclusive]. *)
Fixpoint mfresh {K V} (x : mprog (rangei K) V) : bool :=
  match x with
  | PNew => true
  | PCall m o => mfresh m && fresh_op o
  | PExtend m m' => mfresh m && mfresh m'
  | PMinus m s => mfresh m && sfresh s
  | PFill m _ _ => mfresh m
  | PPaint s _ => sfresh s
  | PApply _ m => mfresh m
  end
with sfresh {K V} (x : sprog (rangei K) V) : bool :=
  match x with
  | QNew => true
  | QCall s o => sfresh s && fresh_sop o
  | QOr s s' | QAnd s s' | QExtend s s' | QMinus s s' => sfresh s && sfresh s'
  | QGaps s _ => sfresh s
  | QWhere _ m => mfresh m
  | QFree m _ => mfresh m
  end.

(** ** The same program for the two kinds of collection

    Over keys that stand for integers ([f]): the same calls, with [s..e+1] and
    [s..=e] as in [same_keys].  The closures are the same functions of values. *)
Fixpoint same_mprog {K V} (f : K -> Z) (x : mprog (range K) V) (xi : mprog (rangei K) V) : Prop :=
  match x, xi with
  | PNew, PNew => True
  | PCall m o, PCall mi oi => same_mprog f m mi /\ same_call f o oi
  | PExtend m m', PExtend mi mi' => same_mprog f m mi /\ same_mprog f m' mi'
  | PMinus m s, PMinus mi si => same_mprog f m mi /\ same_sprog f s si
  | PFill m outer v, PFill mi outeri vi => same_mprog f m mi /\ same_keys f outer outeri /\ v = vi
  | PPaint s v, PPaint si vi => same_sprog f s si /\ v = vi
  | PApply g m, PApply gi mi => (forall v, g v = gi v) /\ same_mprog f m mi
  | _, _ => False
  end
with same_sprog {K V} (f : K -> Z) (x : sprog (range K) V) (xi : sprog (rangei K) V) : Prop :=
  match x, xi with
  | QNew, QNew => True
  | QCall s o, QCall si oi => same_sprog f s si /\ same_scall f o oi
  | QOr s s', QOr si si' | QAnd s s', QAnd si si' | QExtend s s', QExtend si si' | QMinus s s', QMinus si si' =>
      same_sprog f s si /\ same_sprog f s' si'
  | QGaps s outer, QGaps si outeri => same_sprog f s si /\ same_keys f outer outeri
  | QWhere p m, QWhere pi mi => (forall v, p v = pi v) /\ same_mprog f m mi
  | QFree m outer, QFree mi outeri => same_mprog f m mi /\ same_keys f outer outeri
  | _, _ => False
  end.

(** The updates that a program makes, on maps and on sets, each with the program
    that computes the map or the set it is made on.  What [extend], [collect] and
    the removal loops do inside is not among them: a panic there ends the program. *)
Fixpoint mprog_calls {R V} (x : mprog R V) : list (mprog R V * op R V + sprog R V * sop R) :=
  match x with
  | PNew => []
  | PCall m o => mprog_calls m ++ [inl (m, o)]
  | PExtend m m' => mprog_calls m ++ mprog_calls m'
  | PMinus m s => mprog_calls m ++ sprog_calls s
  | PFill m _ _ => mprog_calls m
  | PPaint s _ => sprog_calls s
  | PApply _ m => mprog_calls m
  end
with sprog_calls {R V} (x : sprog R V) : list (mprog R V * op R V + sprog R V * sop R) :=
  match x with
  | QNew => []
  | QCall s o => sprog_calls s ++ [inr (s, o)]
  | QOr s s' | QAnd s s' | QExtend s s' | QMinus s s' => sprog_calls s ++ sprog_calls s'
  | QGaps s _ => sprog_calls s
  | QWhere _ m | QFree m _ => mprog_calls m
  end.

(** All ranges in the program have bounds in [P] (see [lawful_on]). *)
Section On.
  Context {K V : Type} (P : K -> bool).
  Fixpoint mprog_on (x : mprog (rangei K) V) : Prop :=
    match x with
    | PNew => True
    | PCall m o => mprog_on m /\ op_on P o
    | PExtend m m' => mprog_on m /\ mprog_on m'
    | PMinus m s => mprog_on m /\ sprog_on s
    | PFill m outer _ => mprog_on m /\ range_on P outer
    | PPaint s _ => sprog_on s
    | PApply _ m => mprog_on m
    end
  with sprog_on (x : sprog (rangei K) V) : Prop :=
    match x with
    | QNew => True
    | QCall s o => sprog_on s /\ sop_on P o
    | QOr s s' | QAnd s s' | QExtend s s' | QMinus s s' => sprog_on s /\ sprog_on s'
    | QGaps s outer => sprog_on s /\ range_on P outer
    | QWhere _ m => mprog_on m
    | QFree m outer => mprog_on m /\ range_on P outer
    end.
End On.
