(** What a reader needs to know about step functions that are not lawful
    (std_ext.rs:87-103 documents the laws; nothing enforces them). *)
From Coq Require Import List Bool.
From Verif Require Import Order Outcome Ranges History.
Import ListNotations.

(** Step functions that never mislead: where [add_one x] returns and [x] is not
    the greatest key, it returns a key above [x] and skips none; [sub_one y]
    skips no key below [y] (it may panic, and may even not go down). *)
Definition honest {K} (cmp : K -> K -> comparison) (st : stepfns K) : Prop :=
  forall x y, ltb cmp x y = true ->
    (forall s, add_one st x = Some s -> ltb cmp x s = true /\ leb cmp s y = true) /\
    (forall p, sub_one st y = Some p -> leb cmp x p = true).

(** Never from a key that is not the greatest back to a key that is neither
    above it nor the smallest. *)
Definition never_back {K} (cmp : K -> K -> comparison) (st : stepfns K) : Prop :=
  forall a s x y, ltb cmp a s = true -> leb cmp s x = true -> ltb cmp x y = true ->
    add_one st x <> Some s.

(** [pst] panics on some keys and is [st] on the others. *)
Definition panics_more {K} (st pst : stepfns K) : Prop :=
  forall x, (add_one pst x = None \/ add_one pst x = add_one st x) /\
            (sub_one pst x = None \/ sub_one pst x = sub_one st x).

(** [exec n o]: the call [o], its loops allowed [n] rounds. *)
Section Hang.
  Context {O S : Type} (exec : nat -> O -> M S unit) (start : S).
  (** it never comes back *)
  Definition hangs (o : O) (s : S) : Prop := forall n, fst (exec n o s) = OutOfFuel.
  (** the collections that calls which came back (or panicked) leave behind *)
  Inductive reached : S -> Prop :=
  | reached_start : reached start
  | reached_call n o s : reached s -> fst (exec n o s) <> OutOfFuel -> reached (snd (exec n o s)).
  Definition never_hangs : Prop := forall s o, reached s -> ~ hangs o s.
End Hang.

(** ** Step functions for some of the keys

    [P]: the keys in use, e.g. the multiples of a page size.  Among them
    [add_one]/[sub_one] are successor and predecessor; nothing is said about
    other keys, nor about the greatest/smallest key in use. *)
Record lawful_on {K} (cmp : K -> K -> comparison) (st : stepfns K) (P : K -> bool) : Prop := {
  on_succ : forall x y, P x = true -> P y = true -> ltb cmp x y = true ->
    exists s, add_one st x = Some s /\ P s = true /\ ltb cmp x s = true /\ leb cmp s y = true;
  on_pred : forall x y, P x = true -> P y = true -> ltb cmp y x = true ->
    exists p, sub_one st x = Some p /\ P p = true /\ ltb cmp p x = true /\ leb cmp y p = true
}.
Section On.
  Context {K V : Type} (P : K -> bool).
  Definition range_on (r : rangei K) : Prop := P (ri_start r) = true /\ P (ri_end r) = true.
  (** all ranges given to the call have bounds in [P] *)
  Definition op_on (o : op (rangei K) V) : Prop :=
    match o with
    | OInsert r _ | ORemove r => range_on r
    | OClear => True
    | OExtend l => forall e, In e l -> range_on (fst e)
    end.
  Definition ops_on (ops : list (op (rangei K) V)) : Prop := forall o, In o ops -> op_on o.
  Definition sop_on (o : sop (rangei K)) : Prop :=
    match o with
    | SInsert r | SRemove r => range_on r
    | SClear => True
    | SExtend l => forall r, In r l -> range_on r
    end.
  Definition sops_on (ops : list (sop (rangei K))) : Prop := forall o, In o ops -> sop_on o.
  (** a program that combines sets: all ranges in it have bounds in [P] *)
  Fixpoint sexp_on (x : sexp (rangei K)) : Prop :=
    match x with
    | XNew => True
    | XOp y o => sexp_on y /\ sop_on o
    | XOr y z | XAnd y z => sexp_on y /\ sexp_on z
    end.
End On.

(** The updates that a program combining sets makes, each with the program that
    computes the set it is made on. *)
Fixpoint sexp_calls {R} (x : sexp R) : list (sexp R * sop R) :=
  match x with
  | XNew => []
  | XOp y o => sexp_calls y ++ [(y, o)]
  | XOr y z | XAnd y z => sexp_calls y ++ sexp_calls z
  end.
