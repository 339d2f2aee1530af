(** Iterators supplied by a caller.  Specification only: nothing here refers to
    the model of the crate. *)
From Coq Require Import List Bool Sorting.Sorted.
From Verif Require Import Order Outcome Ranges History.
Import ListNotations.

(** [i] yields the items of [l] and then [None].  Nothing is said about what it
    yields if it is asked again after that. *)
Fixpoint supplies {I R} (next : I -> option R * I) (i : I) (l : list R) : Prop :=
  match l with
  | [] => fst (next i) = None
  | r :: l' => fst (next i) = Some r /\ supplies next (snd (next i)) l'
  end.
(** The same iterator, which also counts how often it is asked. *)
Definition tallied {I R} (next : I -> option R * I) : I * nat -> option R * (I * nat) :=
  fun x => (fst (next (fst x)), (snd (next (fst x)), S (snd x))).
(** The state after [n] calls of [next]. *)
Fixpoint nexts_end {S A} (next : M S (option A)) (n : nat) (s : S) : S :=
  match n with
  | O => s
  | Datatypes.S n' => nexts_end next n' (snd (next s))
  end.

(** Sorted by start (the ranges may overlap, be nested or be empty). *)
Definition by_start {K} (cmp : K -> K -> comparison) (l : list (range K)) : Prop :=
  StronglySorted (fun a b => leb cmp (r_start a) (r_start b) = true) l.
Definition by_starti {K} (cmp : K -> K -> comparison) (l : list (rangei K)) : Prop :=
  StronglySorted (fun a b => leb cmp (ri_start a) (ri_start b) = true) l.
(** Each range ends before the next begins. *)
Definition in_turn {K} (cmp : K -> K -> comparison) (l : list (range K)) : Prop :=
  StronglySorted (fun a b => leb cmp (r_end a) (r_start b) = true) l.
Definition in_turni {K} (cmp : K -> K -> comparison) (l : list (rangei K)) : Prop :=
  StronglySorted (fun a b => ltb cmp (ri_end a) (ri_start b) = true) l.
(** ... or, after an exhausted range, possibly where that one ends. *)
Definition in_turnx {K} (cmp : K -> K -> comparison) (l : list (rangei K)) : Prop :=
  StronglySorted (fun a b => ltb cmp (ri_end a) (ri_start b) = true \/
                             ri_exhausted a = true /\ cmp (ri_end a) (ri_start b) = Eq) l.
(** The bounds of [x] are within those of [y]. *)
Definition inside {K} (cmp : K -> K -> comparison) (y x : range K) : Prop :=
  leb cmp (r_start y) (r_start x) = true /\ leb cmp (r_end x) (r_end y) = true.
Definition insidei {K} (cmp : K -> K -> comparison) (y x : rangei K) : Prop :=
  leb cmp (ri_start y) (ri_start x) = true /\ leb cmp (ri_end x) (ri_end y) = true.

(** How many clones a call, and a history, may make: [i] for every range
    inserted, 25 for a [remove], none for a [clear]. *)
Definition op_clones {R V} (i : nat) (o : op R V) : nat :=
  match o with
  | OInsert _ _ => i
  | ORemove _ => 25
  | OClear => 0
  | OExtend l => i * List.length l
  end.
Definition history_clones {R V} (i : nat) (ops : list (op R V)) : nat := list_sum (map (op_clones i) ops).
