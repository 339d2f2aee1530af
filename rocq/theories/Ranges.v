(** [core::ops::Range] / [RangeInclusive] and the crate's extensions of them
    (std_ext.rs), plus the orderings of the key wrappers (range_wrapper.rs). *)
From Coq Require Import List Bool.
From Verif Require Import Order Outcome.
Import ListNotations.

(** [core::ops::Range<T>], the ranges of map.rs and set.rs (stored at
    range_wrapper.rs:98-100) *)
Record range (K : Type) : Type := mkR { r_start : K; r_end : K }.
Arguments mkR {K} _ _.
Arguments r_start {K} _.
Arguments r_end {K} _.

(** [core::ops::RangeInclusive<T>]: besides the two ends it carries the private
    flag [exhausted], set once iteration over the range has consumed its last
    element.  [a..=b] and [RangeInclusive::new] build it with [false]. *)
Record rangei (K : Type) : Type :=
  mkRI { ri_start : K; ri_end : K; ri_exhausted : bool }.
Arguments mkRI {K} _ _ _.
Arguments ri_start {K} _.
Arguments ri_end {K} _.
Arguments ri_exhausted {K} _.

Section Ranges.
  Context {K : Type} (cmp : K -> K -> comparison).

  (** [Range::contains] (core): [start <= item && item < end]; called at
      map.rs:173, operations.rs:42. *)
  Definition r_contains (r : range K) (k : K) : bool :=
    leb cmp (r_start r) k && ltb cmp k (r_end r).
  (** [Range::is_empty] (core): [!(start < end)]; called at map.rs:96. *)
  Definition r_is_empty (r : range K) : bool := negb (ltb cmp (r_start r) (r_end r)).
  (** derived [PartialEq for Range] (core) *)
  Definition r_eqb (a b : range K) : bool :=
    eqb cmp (r_start a) (r_start b) && eqb cmp (r_end a) (r_end b).

  (** std_ext.rs:12-16 *)
  Definition r_overlaps (a b : range K) : bool :=
    ltb cmp (kmax cmp (r_start a) (r_start b)) (kmin cmp (r_end a) (r_end b)).
  (** std_ext.rs:18-24 *)
  Definition r_touches (a b : range K) : bool :=
    leb cmp (kmax cmp (r_start a) (r_start b)) (kmin cmp (r_end a) (r_end b)).

  (** [Ord for RangeStartWrapper]: range_wrapper.rs:59-66. *)
  Definition cmp_start (a b : range K) : comparison := cmp (r_start a) (r_start b).
  (** [Ord for RangeEndWrapper]: range_wrapper.rs:119-126. *)
  Definition cmp_end (a b : range K) : comparison := cmp (r_end a) (r_end b).

  (** [RangeInclusive::contains] (core, via [RangeBounds]): the end bound is
      [Excluded] when [exhausted]. *)
  Definition ri_contains (r : rangei K) (k : K) : bool :=
    leb cmp (ri_start r) k &&
    (if ri_exhausted r then ltb cmp k (ri_end r) else leb cmp k (ri_end r)).
  (** [RangeInclusive::is_empty] (core): [exhausted || !(start <= end)]; called
      at inclusive_map.rs:116. *)
  Definition ri_is_empty (r : rangei K) : bool :=
    ri_exhausted r || negb (leb cmp (ri_start r) (ri_end r)).
  (** derived [PartialEq for RangeInclusive] (core): compares all three fields. *)
  Definition ri_eqb (a b : rangei K) : bool :=
    eqb cmp (ri_start a) (ri_start b) && eqb cmp (ri_end a) (ri_end b)
    && Bool.eqb (ri_exhausted a) (ri_exhausted b).

  (** std_ext.rs:38-42 *)
  Definition ri_overlaps (a b : rangei K) : bool :=
    leb cmp (kmax cmp (ri_start a) (ri_start b)) (kmin cmp (ri_end a) (ri_end b)).

  (** [Ord for RangeInclusiveStartWrapper]: range_wrapper.rs:173-180. *)
  Definition cmpi_start (a b : rangei K) : comparison := cmp (ri_start a) (ri_start b).
  (** [Ord for RangeInclusiveEndWrapper]: range_wrapper.rs:231-238. *)
  Definition cmpi_end (a b : rangei K) : comparison := cmp (ri_end a) (ri_end b).
End Ranges.

(** [StepFns<T>] / [StepLite]: std_ext.rs:87-103, 223-252.  [None] models a
    panic (overflow in a debug build). *)
Record stepfns (K : Type) : Type := mkStep {
  add_one : K -> option K;
  sub_one : K -> option K
}.
Arguments mkStep {K} _ _.
Arguments add_one {K} _ _.
Arguments sub_one {K} _ _.

Definition step_o {K} (o : option K) : outcome K :=
  match o with Some k => Ret k | None => Panicked PStep end.

(** std_ext.rs:44-67 *)
Definition ri_touches {K} (cmp : K -> K -> comparison) (st : stepfns K) (a b : rangei K)
  : outcome bool :=
  let max_start := kmax cmp (ri_start a) (ri_start b) in
  let min_range_end := kmin cmp (ri_end a) (ri_end b) in
  obind (if ltb cmp min_range_end max_start
         then step_o (add_one st min_range_end)
         else Ret min_range_end)
    (fun min_range_end_extended => Ret (leb cmp max_start min_range_end_extended)).

(** The documented contract of [StepLite]/[StepFns] (std_ext.rs:87-103): they
    return the successor/predecessor; where that would leave the key type's
    range of values (no greater/smaller key exists) they may panic, wrap or
    saturate, i.e. nothing is promised. *)
Record StepLaws {K} (cmp : K -> K -> comparison) (st : stepfns K) : Prop := {
  step_succ : forall x y, ltb cmp x y = true ->
    exists s, add_one st x = Some s /\ ltb cmp x s = true /\ leb cmp s y = true;
  step_pred : forall x y, ltb cmp y x = true ->
    exists p, sub_one st x = Some p /\ ltb cmp p x = true /\ leb cmp y p = true
}.
