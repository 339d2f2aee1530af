(** Specifications.  Nothing here refers to the model: only to the key order,
    the range types and the history of calls. *)
From Coq Require Import List Bool ZArith Sorting.Sorted String.
From Verif Require Import Order Ranges History.
Import ListNotations.

(** ** Which keys a range stands for *)

(** [s..e] stands for the keys [k] with [s <= k < e]. *)
Definition in_range {K} (cmp : K -> K -> comparison) (r : range K) (k : K) : bool :=
  negb (ltb cmp k (r_start r)) && ltb cmp k (r_end r).
Definition valid_range {K} (cmp : K -> K -> comparison) (r : range K) : bool :=
  ltb cmp (r_start r) (r_end r).

(** [s..=e] stands for the keys [k] with [s <= k <= e]. *)
Definition in_rangei {K} (cmp : K -> K -> comparison) (r : rangei K) (k : K) : bool :=
  negb (ltb cmp k (ri_start r)) && negb (ltb cmp (ri_end r) k).
Definition valid_rangei {K} (cmp : K -> K -> comparison) (r : rangei K) : bool :=
  negb (ltb cmp (ri_end r) (ri_start r)).

(** ** Last writer wins: the key -> value function a history describes *)
Section History.
  Context {K V R : Type} (valid : R -> bool) (covers : R -> K -> bool).

  Definition put (r : R) (v : V) (f : K -> option V) : K -> option V :=
    fun k => if covers r k then Some v else f k.
  Definition del (r : R) (f : K -> option V) : K -> option V :=
    fun k => if covers r k then None else f k.

  (** inserts until the first invalid range *)
  Fixpoint put_all (l : list (R * V)) (f : K -> option V) : K -> option V :=
    match l with
    | [] => f
    | (r, v) :: l' => if valid r then put_all l' (put r v f) else f
    end.

  Definition spec_op (f : K -> option V) (o : op R V) : K -> option V :=
    match o with
    | OInsert r v => if valid r then put r v f else f
    | ORemove r => if valid r then del r f else f
    | OClear => fun _ => None
    | OExtend l => put_all l f
    end.
  Definition spec_run (ops : list (op R V)) : K -> option V :=
    fold_left spec_op ops (fun _ => None).
End History.

(** Histories in which no exhausted [RangeInclusive] is inserted (one whose
    iteration has already yielded its last key; C38 shows what those do). *)
Definition fresh_op {K V} (o : op (rangei K) V) : bool :=
  match o with
  | OInsert r _ => negb (ri_exhausted r)
  | OExtend l => forallb (fun e => negb (ri_exhausted (fst e))) l
  | ORemove _ | OClear => true
  end.
Definition fresh_ops {K V} (ops : list (op (rangei K) V)) : Prop := forallb fresh_op ops = true.
(** The same range, entry or call with a range that has not been iterated. *)
Definition freshen {K} (r : rangei K) : rangei K := mkRI (ri_start r) (ri_end r) false.
Definition freshen_entry {K V} (e : rangei K * V) : rangei K * V := (freshen (fst e), snd e).
Definition freshen_op {K V} (o : op (rangei K) V) : op (rangei K) V :=
  match o with
  | OInsert r v => OInsert (freshen r) v
  | ORemove r => ORemove (freshen r)
  | OClear => OClear
  | OExtend l => OExtend (map freshen_entry l)
  end.

(** ** Equality of values up to the user's [PartialEq]

    Coalescing may keep either of two [==] values. *)
Definition same_val {V} (veqb : V -> V -> bool) (a b : V) : Prop :=
  a = b \/ veqb a b = true.
Definition same_opt {V} (veqb : V -> V -> bool) (a b : option V) : Prop :=
  match a, b with
  | Some x, Some y => same_val veqb x y
  | None, None => True
  | _, _ => False
  end.

(** When [==] is not an equivalence: [b] is reached from [a] by a chain of
    values each [==] the next. *)
Inductive linked {V} (veqb : V -> V -> bool) (a : V) : V -> Prop :=
| linked_refl : linked veqb a a
| linked_step b c : linked veqb a b -> veqb b c = true -> linked veqb a c.
(** [o] is the expected value after any number of such replacements. *)
Definition linked_opt {V} (veqb : V -> V -> bool) (expected o : option V) : Prop :=
  match expected, o with
  | Some a, Some b => linked veqb a b
  | None, None => True
  | _, _ => False
  end.

(** ** Entry lists *)

(** Ascending and pairwise disjoint: every key of an earlier range is below
    every key of a later one. *)
Definition ascending {K V} (cmp : K -> K -> comparison) (l : list (range K * V)) : Prop :=
  StronglySorted (fun a b => leb cmp (r_end (fst a)) (r_start (fst b)) = true) l.
Definition ascendingi {K V} (cmp : K -> K -> comparison) (l : list (rangei K * V)) : Prop :=
  StronglySorted (fun a b => ltb cmp (ri_end (fst a)) (ri_start (fst b)) = true) l.

(** No two entries with equal values touch. *)
Definition coalesced {K V} (cmp : K -> K -> comparison) (veqb : V -> V -> bool)
    (l : list (range K * V)) : Prop :=
  forall a b, In a l -> In b l ->
    eqb cmp (r_end (fst a)) (r_start (fst b)) = true -> veqb (snd a) (snd b) = false.
(** Between two entries with equal values there is a key in neither range. *)
Definition coalescedi {K V} (cmp : K -> K -> comparison) (veqb : V -> V -> bool)
    (l : list (rangei K * V)) : Prop :=
  forall a b, In a l -> In b l ->
    ltb cmp (ri_end (fst a)) (ri_start (fst b)) = true -> veqb (snd a) (snd b) = true ->
    exists k, ltb cmp (ri_end (fst a)) k = true /\ ltb cmp k (ri_start (fst b)) = true.

(** A list of entries represents a function (up to [==] on values). *)
Definition represents {K V R} (covers : R -> K -> bool) (veqb : V -> V -> bool)
    (l : list (R * V)) (f : K -> option V) : Prop :=
  forall k,
    match f k with
    | Some v => exists r v', In (r, v') l /\ covers r k = true /\ same_val veqb v' v
    | None => forall r v, In (r, v) l -> covers r k = false
    end.

(** ** Double-ended iteration

    [deque_step] is the reference behaviour of [next] ([Front]) and [next_back]
    ([Back]) on a list of items yet to be yielded. *)
Definition deque_step {A} (s : side) (l : list A) : option A * list A :=
  match l with
  | [] => (None, [])
  | a :: l' =>
      match s with
      | Front => (Some a, l')
      | Back => (Some (last l a), removelast l)
      end
  end.
(** What a schedule of calls on the list yields. *)
Definition deque_run {A} (sched : list side) (l : list A) : list (option A) :=
  map fst (sched_trace deque_step (fun _ => tt) sched l).
(** The items it leaves to be yielded. *)
Definition deque_rest {A} (sched : list side) (l : list A) : list A :=
  sched_end deque_step sched l.

(** What [n] calls of [next] on an iterator over [l] must yield: the items,
    then [None] forever. *)
Definition yields {A} (n : nat) (l : list A) : list (option A) :=
  firstn n (map Some l ++ repeat None n).

(** ** Overlap

    The bounds test an overlap query answers; for non-empty ranges it says that
    the two ranges have a key in common (proved beside the theorems). *)
Definition meets {K} (cmp : K -> K -> comparison) (q r : range K) : bool :=
  ltb cmp (r_start q) (r_end r) && ltb cmp (r_start r) (r_end q).
Definition meetsi {K} (cmp : K -> K -> comparison) (q r : rangei K) : bool :=
  leb cmp (ri_start q) (ri_end r) && leb cmp (ri_start r) (ri_end q).

(** ** Gaps

    [gs] are the maximal uncovered subranges of [outer] for the function [f]:
    non-empty, inside [outer], ascending and never touching each other, and
    covering exactly the uncovered keys of [outer]. *)
Definition gaps_of {K V} (cmp : K -> K -> comparison) (f : K -> option V) (outer : range K)
    (gs : list (range K)) : Prop :=
  (forall g, In g gs -> valid_range cmp g = true /\
     leb cmp (r_start outer) (r_start g) = true /\ leb cmp (r_end g) (r_end outer) = true) /\
  StronglySorted (fun a b => ltb cmp (r_end a) (r_start b) = true) gs /\
  (forall k, (exists g, In g gs /\ in_range cmp g k = true) <->
     in_range cmp outer k = true /\ f k = None).

(** The same for inclusive ranges: between two successive gaps there is a key
    strictly above the first and strictly below the second. *)
Definition gapsi_of {K V} (cmp : K -> K -> comparison) (f : K -> option V) (outer : rangei K)
    (gs : list (rangei K)) : Prop :=
  (forall g, In g gs -> ri_exhausted g = false /\ valid_rangei cmp g = true /\
     leb cmp (ri_start outer) (ri_start g) = true /\ leb cmp (ri_end g) (ri_end outer) = true) /\
  StronglySorted (fun a b => exists k, ltb cmp (ri_end a) k = true /\ ltb cmp k (ri_start b) = true) gs /\
  (forall k, (exists g, In g gs /\ in_rangei cmp g k = true) <->
     in_rangei cmp outer k = true /\ f k = None).

(** ** Tilings

    [l], in this order, fills [s..e] without overlaps or holes. *)
Fixpoint tiles {K} (cmp : K -> K -> comparison) (s e : K) (l : list (range K)) : Prop :=
  match l with
  | [] => eqb cmp s e = true
  | r :: l' => eqb cmp (r_start r) s = true /\ valid_range cmp r = true /\ tiles cmp (r_end r) e l'
  end.
(** The same for [s..=e]: no key lies between the end of a range and the start
    of the next. *)
Fixpoint tilesi {K} (cmp : K -> K -> comparison) (s e : K) (l : list (rangei K)) : Prop :=
  match l with
  | [] => False
  | r :: l' =>
      eqb cmp (ri_start r) s = true /\ valid_rangei cmp r = true /\
      match l' with
      | [] => eqb cmp (ri_end r) e = true
      | r' :: _ => ltb cmp (ri_end r) (ri_start r') = true /\
          (forall k, ltb cmp (ri_end r) k = true -> ltb cmp k (ri_start r') = true -> False) /\
          tilesi cmp (ri_start r') e l'
      end
  end.
(** The part of a range that is inside [outer]. *)
Definition clip {K} (cmp : K -> K -> comparison) (outer r : range K) : range K :=
  mkR (if ltb cmp (r_start r) (r_start outer) then r_start outer else r_start r)
      (if ltb cmp (r_end outer) (r_end r) then r_end outer else r_end r).
Definition clipi {K} (cmp : K -> K -> comparison) (outer r : rangei K) : rangei K :=
  mkRI (if ltb cmp (ri_start r) (ri_start outer) then ri_start outer else ri_start r)
       (if ltb cmp (ri_end outer) (ri_end r) then ri_end outer else ri_end r) false.

(** ** Descriptions of a function by pieces

    Every piece covering a key carries the function's value there, and every
    mapped key is covered by some piece.  (Disjoint pieces are a special case.) *)
Definition describes {K V R} (covers : R -> K -> bool) (veqb : V -> V -> bool)
    (l : list (R * V)) (f : K -> option V) : Prop :=
  forall k,
    (forall r v, In (r, v) l -> covers r k = true -> same_opt veqb (Some v) (f k)) /\
    (f k <> None -> exists r v, In (r, v) l /\ covers r k = true).

(** ** Sets: which keys are members after a history *)
Section SetHistory.
  Context {K R : Type} (valid : R -> bool) (covers : R -> K -> bool).

  Fixpoint add_all (l : list R) (f : K -> bool) : K -> bool :=
    match l with
    | [] => f
    | r :: l' => if valid r then add_all l' (fun k => covers r k || f k) else f
    end.
  Definition mem_op (f : K -> bool) (o : sop R) : K -> bool :=
    match o with
    | SInsert r => if valid r then fun k => covers r k || f k else f
    | SRemove r => if valid r then fun k => negb (covers r k) && f k else f
    | SClear => fun _ => false
    | SExtend l => add_all l f
    end.
  Definition mem_run (ops : list (sop R)) : K -> bool := fold_left mem_op ops (fun _ => false).
  Fixpoint mem_sexp (x : sexp R) : K -> bool :=
    match x with
    | XNew => fun _ => false
    | XOp y o => mem_op (mem_sexp y) o
    | XOr y z => fun k => mem_sexp y k || mem_sexp z k
    | XAnd y z => fun k => mem_sexp y k && mem_sexp z k
    end.
End SetHistory.

(** [l] are the maximal runs of the set [f]: non-empty, ascending, no two of
    them touching, and covering exactly [f].  ([pieces_of]: the same but
    neighbours may touch.) *)
Definition runs_of {K} (cmp : K -> K -> comparison) (f : K -> bool) (l : list (range K)) : Prop :=
  (forall r, In r l -> valid_range cmp r = true) /\
  StronglySorted (fun a b => ltb cmp (r_end a) (r_start b) = true) l /\
  (forall k, (exists r, In r l /\ in_range cmp r k = true) <-> f k = true).
Definition pieces_of {K} (cmp : K -> K -> comparison) (f : K -> bool) (l : list (range K)) : Prop :=
  (forall r, In r l -> valid_range cmp r = true) /\
  StronglySorted (fun a b => leb cmp (r_end a) (r_start b) = true) l /\
  (forall k, (exists r, In r l /\ in_range cmp r k = true) <-> f k = true).
(** The same for inclusive ranges; runs have a key strictly between them. *)
Definition runsi_of {K} (cmp : K -> K -> comparison) (f : K -> bool) (l : list (rangei K)) : Prop :=
  (forall r, In r l -> ri_exhausted r = false /\ valid_rangei cmp r = true) /\
  StronglySorted (fun a b => exists k, ltb cmp (ri_end a) k = true /\ ltb cmp k (ri_start b) = true) l /\
  (forall k, (exists r, In r l /\ in_rangei cmp r k = true) <-> f k = true).
Definition piecesi_of {K} (cmp : K -> K -> comparison) (f : K -> bool) (l : list (rangei K)) : Prop :=
  (forall r, In r l -> ri_exhausted r = false /\ valid_rangei cmp r = true) /\
  StronglySorted (fun a b => ltb cmp (ri_end a) (ri_start b) = true) l /\
  (forall k, (exists r, In r l /\ in_rangei cmp r k = true) <-> f k = true).

(** [us] joins the ranges [l] where they overlap, and only there: every range
    of [l] lies in one of [us], and each place inside one of [us] (a key above
    its first) is spanned by a range of [l]. *)
Definition welded {K} (cmp : K -> K -> comparison) (l us : list (range K)) : Prop :=
  (forall r, In r l -> exists u, In u us /\
     leb cmp (r_start u) (r_start r) = true /\ leb cmp (r_end r) (r_end u) = true) /\
  (forall u z, In u us -> ltb cmp (r_start u) z = true -> ltb cmp z (r_end u) = true ->
     exists r, In r l /\ ltb cmp (r_start r) z = true /\ ltb cmp z (r_end r) = true).
Definition weldedi {K} (cmp : K -> K -> comparison) (l us : list (rangei K)) : Prop :=
  (forall r, In r l -> exists u, In u us /\
     leb cmp (ri_start u) (ri_start r) = true /\ leb cmp (ri_end r) (ri_end u) = true) /\
  (forall u z, In u us -> ltb cmp (ri_start u) z = true -> leb cmp z (ri_end u) = true ->
     exists r, In r l /\ ltb cmp (ri_start r) z = true /\ leb cmp z (ri_end r) = true).

(** No exhausted [RangeInclusive] is inserted. *)
Definition fresh_sop {K} (o : sop (rangei K)) : bool :=
  match o with
  | SInsert r => negb (ri_exhausted r)
  | SExtend l => forallb (fun r => negb (ri_exhausted r)) l
  | SRemove _ | SClear => true
  end.
Definition fresh_sops {K} (ops : list (sop (rangei K))) : Prop := forallb fresh_sop ops = true.
Definition freshen_sop {K} (o : sop (rangei K)) : sop (rangei K) :=
  match o with
  | SInsert r => SInsert (freshen r)
  | SRemove r => SRemove (freshen r)
  | SClear => SClear
  | SExtend l => SExtend (map freshen l)
  end.
Fixpoint fresh_sexp {K} (x : sexp (rangei K)) : bool :=
  match x with
  | XNew => true
  | XOp y o => fresh_sexp y && fresh_sop o
  | XOr y z | XAnd y z => fresh_sexp y && fresh_sexp z
  end.

(** ** The same range, entry and call for the two kinds of map

    Over keys that stand for integers ([f]), [s..e+1] and [s..=e] have the same
    keys. *)
Definition same_keys {K} (f : K -> Z) (r : range K) (ri : rangei K) : Prop :=
  f (r_start r) = f (ri_start ri) /\ f (r_end r) = (f (ri_end ri) + 1)%Z /\ ri_exhausted ri = false.
Definition same_entry {K V} (f : K -> Z) (e : range K * V) (ei : rangei K * V) : Prop :=
  same_keys f (fst e) (fst ei) /\ snd e = snd ei.
Definition same_call {K V} (f : K -> Z) (o : op (range K) V) (oi : op (rangei K) V) : Prop :=
  match o, oi with
  | OInsert r v, OInsert ri vi => same_keys f r ri /\ v = vi
  | ORemove r, ORemove ri => same_keys f r ri
  | OClear, OClear => True
  | OExtend l, OExtend li => Forall2 (same_entry f) l li
  | _, _ => False
  end.
(** Both [None], or items that are related. *)
Definition matched {A B} (R : A -> B -> Prop) (a : option A) (b : option B) : Prop :=
  match a, b with Some x, Some y => R x y | None, None => True | _, _ => False end.
(** The same for the two kinds of set and for programs combining sets. *)
Definition same_scall {K} (f : K -> Z) (o : sop (range K)) (oi : sop (rangei K)) : Prop :=
  match o, oi with
  | SInsert r, SInsert ri | SRemove r, SRemove ri => same_keys f r ri
  | SClear, SClear => True
  | SExtend l, SExtend li => Forall2 (same_keys f) l li
  | _, _ => False
  end.
Fixpoint same_sexp {K} (f : K -> Z) (x : sexp (range K)) (xi : sexp (rangei K)) : Prop :=
  match x, xi with
  | XNew, XNew => True
  | XOp y o, XOp yi oi => same_sexp f y yi /\ same_scall f o oi
  | XOr y z, XOr yi zi | XAnd y z, XAnd yi zi => same_sexp f y yi /\ same_sexp f z zi
  | _, _ => False
  end.

(** ** Lexicographic order

    [a] comes before [b]: after a common part whose items are pairwise the
    [same], either [a] is exhausted and [b] is not, or the next item of [a] is
    [less] than that of [b]. *)
Definition lex_before {A} (same less : A -> A -> Prop) (a b : list A) : Prop :=
  exists p q, Forall2 same p q /\
    ((a = p /\ exists y t, b = q ++ y :: t) \/
     (exists x y s t, a = p ++ x :: s /\ b = q ++ y :: t /\ less x y)).
(** after a common part, the next items cannot be compared *)
Definition lex_stuck {A} (same unrelated : A -> A -> Prop) (a b : list A) : Prop :=
  exists p q x y s t, a = p ++ x :: s /\ b = q ++ y :: t /\ Forall2 same p q /\ unrelated x y.
(** Two entries agree in start, end and value; or the first of these in which
    they do not agree compares as [o]. *)
Definition entry_same {R K V} (st en : R -> K) (kc : K -> K -> option comparison)
    (vc : V -> V -> option comparison) (x y : R * V) : Prop :=
  kc (st (fst x)) (st (fst y)) = Some Eq /\ kc (en (fst x)) (en (fst y)) = Some Eq /\
  vc (snd x) (snd y) = Some Eq.
Definition entry_first {R K V} (st en : R -> K) (kc : K -> K -> option comparison)
    (vc : V -> V -> option comparison) (o : option comparison) (x y : R * V) : Prop :=
  kc (st (fst x)) (st (fst y)) = o \/
  (kc (st (fst x)) (st (fst y)) = Some Eq /\ kc (en (fst x)) (en (fst y)) = o) \/
  (kc (st (fst x)) (st (fst y)) = Some Eq /\ kc (en (fst x)) (en (fst y)) = Some Eq /\
   vc (snd x) (snd y) = o).
(** the same for ranges alone *)
Definition range_same {R K} (st en : R -> K) (kc : K -> K -> option comparison) (x y : R) : Prop :=
  kc (st x) (st y) = Some Eq /\ kc (en x) (en y) = Some Eq.
Definition range_first {R K} (st en : R -> K) (kc : K -> K -> option comparison)
    (o : option comparison) (x y : R) : Prop :=
  kc (st x) (st y) = o \/ (kc (st x) (st y) = Some Eq /\ kc (en x) (en y) = o).
(** a comparison that is always defined *)
Definition total {A} (c : A -> A -> comparison) : A -> A -> option comparison := fun x y => Some (c x y).

(** ** Text

    The texts [f x] are told apart, and their end is recognised, when one of
    [seps] follows. *)
Definition delimited {A} (eq : A -> A -> bool) (seps : list String.string) (f : A -> String.string) : Prop :=
  forall x y p q s t, In p seps -> In q seps ->
    String.append (f x) (String.append p s) = String.append (f y) (String.append q t) ->
    eq x y = true /\ f x = f y.
(** [s] with four spaces before the first character of every line; [bol]: does
    [s] begin at the beginning of a line? *)
Fixpoint indented (bol : bool) (s : String.string) : String.string :=
  match s with
  | String.EmptyString => String.EmptyString
  | String.String c s' =>
      let rest := String.String c (indented (Ascii.eqb c (Ascii.ascii_of_nat 10)) s') in
      if bol then String.append "    " rest else rest
  end.

(** ** One change at a time

    [l'] is [l] with at most one element dropped, added or replaced. *)
Definition one_change {E} (l l' : list E) : Prop :=
  l' = l \/ exists a b x,
    (l = a ++ x :: b /\ l' = a ++ b) \/ (l = a ++ b /\ l' = a ++ x :: b) \/
    (exists y, l = a ++ x :: b /\ l' = a ++ y :: b).
(** Each state is related to the next one. *)
Fixpoint stepwise {S} (R : S -> S -> Prop) (l : list S) : Prop :=
  match l with
  | s :: l' => match l' with [] => True | s' :: _ => R s s' end /\ stepwise R l'
  | [] => True
  end.

(** ** Work

    What a call, and a history, may cost: 6 for every range inserted, 4 for a
    [remove], 1 for a [clear]. *)
Definition op_budget {R V} (o : op R V) : nat :=
  match o with
  | OInsert _ _ => 6
  | ORemove _ => 4
  | OClear => 1
  | OExtend l => 6 * List.length l
  end.
Definition history_budget {R V} (ops : list (op R V)) : nat := list_sum (map op_budget ops).

(** ** Calls on the [BTreeMap]

    A [range] call, an item taken from the iterator it returned, an [insert], a
    [remove], a [clear]. *)
Inductive bt_call : Type := BSearch | BRead | BInsert | BRemove | BClear.
Definition searches (l : list bt_call) : nat :=
  List.length (filter (fun c => match c with BSearch => true | _ => false end) l).
Definition reads (l : list bt_call) : nat :=
  List.length (filter (fun c => match c with BRead => true | _ => false end) l).
Definition removes (l : list bt_call) : nat :=
  List.length (filter (fun c => match c with BRemove => true | _ => false end) l).
Definition changes (l : list bt_call) : nat :=
  List.length (filter (fun c => match c with BSearch | BRead => false | _ => true end) l).
(** How many of them a call, and a history, may make: 21 for every range
    inserted, 16 for a [remove], 1 for a [clear]. *)
Definition op_work {R V} (o : op R V) : nat :=
  match o with
  | OInsert _ _ => 21
  | ORemove _ => 16
  | OClear => 1
  | OExtend l => 21 * List.length l
  end.
Definition history_work {R V} (ops : list (op R V)) : nat := list_sum (map op_work ops).

(** ** Indistinguishable keys and values

    Keys that compare [Equal]; values that [==] cannot tell apart (also when
    [==] is not reflexive); ranges and entries made of such. *)
Definition alike {V} (veqb : V -> V -> bool) (a b : V) : Prop :=
  forall w, veqb a w = veqb b w.
Definition alike_key {K} (cmp : K -> K -> comparison) (a b : K) : Prop := cmp a b = Eq.
Definition alike_range {K} (cmp : K -> K -> comparison) (r r' : range K) : Prop :=
  alike_key cmp (r_start r) (r_start r') /\ alike_key cmp (r_end r) (r_end r').
Definition alike_rangei {K} (cmp : K -> K -> comparison) (r r' : rangei K) : Prop :=
  alike_key cmp (ri_start r) (ri_start r') /\ alike_key cmp (ri_end r) (ri_end r') /\
  ri_exhausted r' = ri_exhausted r.
Definition alike_entry {V R} (alike_r : R -> R -> Prop) (veqb : V -> V -> bool)
    (e e' : R * V) : Prop := alike_r (fst e) (fst e') /\ alike veqb (snd e) (snd e').
Definition alike_op {V R} (alike_r : R -> R -> Prop) (veqb : V -> V -> bool)
    (o o' : op R V) : Prop :=
  match o, o' with
  | OInsert r v, OInsert r' v' => alike_r r r' /\ alike veqb v v'
  | ORemove r, ORemove r' => alike_r r r'
  | OClear, OClear => True
  | OExtend l, OExtend l' => Forall2 (alike_entry alike_r veqb) l l'
  | _, _ => False
  end.
(** Both present and related, or both absent. *)
Definition optrel {A B} (R : A -> B -> Prop) (x : option A) (y : option B) : Prop :=
  match x, y with Some a, Some b => R a b | None, None => True | _, _ => False end.

(** ** Comparisons, ranges as sets of keys *)

(** [Ord]'s contract: [cmp] is a total preorder and [partial_cmp] and [==] agree with it *)
Definition ord_contract {K} (cmp : K -> K -> comparison) (pcmp : K -> K -> option comparison)
    (eqb : K -> K -> bool) : Prop :=
  TotalOrd cmp /\ (forall a b, pcmp a b = Some (cmp a b)) /\ (forall a b, eqb a b = true <-> cmp a b = Eq).

(** some key is in both *)
Definition share {K R} (member : R -> K -> bool) (a b : R) : Prop :=
  exists k, member a k = true /\ member b k = true.
(** a range [c] has exactly the keys of [a] and [b] *)
Definition joined {K R} (member : R -> K -> bool) (a b c : R) : Prop :=
  forall k, member c k = true <-> member a k = true \/ member b k = true.
