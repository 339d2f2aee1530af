(** The key wrappers of range_wrapper.rs in full.  The other model files use
    plain ranges as [BTreeMap] keys and pass the wrapper's order explicitly
    ([cmp_start] / [cmp_end], Ranges.v); here the wrappers are structures of
    their own, with [Eq], [PartialOrd], [Ord], [Borrow] and [Deref].
    [kcmp], [kpcmp], [keqb] are [T]'s [Ord::cmp], [PartialOrd::partial_cmp] and
    [PartialEq::eq]. *)
From Coq Require Import List Bool.
From Verif Require Import Order Ranges.

(** range_wrapper.rs:98-100 *)
Record end_wrapper (K : Type) : Type := EndW { ew_range : range K }.
Arguments EndW {K} _.
Arguments ew_range {K} _.
(** range_wrapper.rs:36-38 *)
Record start_wrapper (K : Type) : Type := StartW { sw_end_wrapper : end_wrapper K }.
Arguments StartW {K} _.
Arguments sw_end_wrapper {K} _.
(** range_wrapper.rs:212-214 *)
Record iend_wrapper (K : Type) : Type := IEndW { iew_range : rangei K }.
Arguments IEndW {K} _.
Arguments iew_range {K} _.
(** range_wrapper.rs:152-154 *)
Record istart_wrapper (K : Type) : Type := IStartW { isw_end_wrapper : iend_wrapper K }.
Arguments IStartW {K} _.
Arguments isw_end_wrapper {K} _.

Section Wrappers.
  Context {K : Type} (kcmp : K -> K -> comparison) (kpcmp : K -> K -> option comparison)
          (keqb : K -> K -> bool).

  (** range_wrapper.rs:103-105 *)
  Definition ew_new (r : range K) : end_wrapper K := EndW r.
  (** [Deref]: range_wrapper.rs:139-145 *)
  Definition ew_deref (w : end_wrapper K) : range K := ew_range w.
  (** range_wrapper.rs:108-115 *)
  Definition ew_eq (a b : end_wrapper K) : bool := keqb (r_end (ew_deref a)) (r_end (ew_deref b)).
  (** range_wrapper.rs:119-126 *)
  Definition ew_cmp (a b : end_wrapper K) : comparison := kcmp (r_end (ew_deref a)) (r_end (ew_deref b)).
  (** range_wrapper.rs:128-135 *)
  Definition ew_partial_cmp (a b : end_wrapper K) : option comparison :=
    kpcmp (r_end (ew_deref a)) (r_end (ew_deref b)).

  (** range_wrapper.rs:41-45 *)
  Definition sw_new (r : range K) : start_wrapper K := StartW (ew_new r).
  (** [Borrow]: range_wrapper.rs:77-81 *)
  Definition sw_borrow (w : start_wrapper K) : end_wrapper K := sw_end_wrapper w.
  (** [Deref], twice (to the end wrapper, then to the range): range_wrapper.rs:85-91 *)
  Definition sw_deref (w : start_wrapper K) : range K := ew_deref (sw_end_wrapper w).
  (** range_wrapper.rs:48-55 *)
  Definition sw_eq (a b : start_wrapper K) : bool := keqb (r_start (sw_deref a)) (r_start (sw_deref b)).
  (** range_wrapper.rs:59-66 *)
  Definition sw_cmp (a b : start_wrapper K) : comparison := kcmp (r_start (sw_deref a)) (r_start (sw_deref b)).
  (** range_wrapper.rs:68-75 *)
  Definition sw_partial_cmp (a b : start_wrapper K) : option comparison :=
    kpcmp (r_start (sw_deref a)) (r_start (sw_deref b)).

  (** range_wrapper.rs:217-219 *)
  Definition iew_new (r : rangei K) : iend_wrapper K := IEndW r.
  (** [Deref]: range_wrapper.rs:251-257 *)
  Definition iew_deref (w : iend_wrapper K) : rangei K := iew_range w.
  (** range_wrapper.rs:222-229 *)
  Definition iew_eq (a b : iend_wrapper K) : bool := keqb (ri_end (iew_deref a)) (ri_end (iew_deref b)).
  (** range_wrapper.rs:231-238 *)
  Definition iew_cmp (a b : iend_wrapper K) : comparison := kcmp (ri_end (iew_deref a)) (ri_end (iew_deref b)).
  (** range_wrapper.rs:240-247 *)
  Definition iew_partial_cmp (a b : iend_wrapper K) : option comparison :=
    kpcmp (ri_end (iew_deref a)) (ri_end (iew_deref b)).

  (** range_wrapper.rs:157-161 *)
  Definition isw_new (r : rangei K) : istart_wrapper K := IStartW (iew_new r).
  (** [Borrow]: range_wrapper.rs:191-195 *)
  Definition isw_borrow (w : istart_wrapper K) : iend_wrapper K := isw_end_wrapper w.
  (** [Deref], twice: range_wrapper.rs:199-205 *)
  Definition isw_deref (w : istart_wrapper K) : rangei K := iew_deref (isw_end_wrapper w).
  (** range_wrapper.rs:164-171 *)
  Definition isw_eq (a b : istart_wrapper K) : bool := keqb (ri_start (isw_deref a)) (ri_start (isw_deref b)).
  (** range_wrapper.rs:173-180 *)
  Definition isw_cmp (a b : istart_wrapper K) : comparison :=
    kcmp (ri_start (isw_deref a)) (ri_start (isw_deref b)).
  (** range_wrapper.rs:182-189 *)
  Definition isw_partial_cmp (a b : istart_wrapper K) : option comparison :=
    kpcmp (ri_start (isw_deref a)) (ri_start (isw_deref b)).
End Wrappers.
