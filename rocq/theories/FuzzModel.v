(** Model of the crate's four fuzz targets, /repo/fuzz/fuzz_targets/*.rs: programs
    that build a map from a list of operations, look at it and panic when what
    they see is wrong.

    Simplifications.  The targets fix keys and values to [u8]; here the key type
    with its order and steps and the value type with its [==] are parameters.
    Every way for the target itself to stop ([panic!], [assert!], [assert_eq!],
    [unwrap] on [None]) is the outcome [Panicked PAssert]; an overflow in its own
    arithmetic is [Panicked PStep].  A panic of the map is not caught: it ends the
    target, and so does running out of the fuel given to [collect]. *)
From Coq Require Import List Bool.
From Verif Require Import Order Outcome Ranges MapModel IMapModel OpsModel.
Import ListNotations.

(** [enum Op]: rangemap_coalesce.rs:9-12, rangemap_gaps.rs:10-13,
    rangemap_inclusive_coalesce.rs:9-12, rangemap_inclusive_gaps.rs:10-13. *)
Inductive fop (R V : Type) : Type :=
| FInsert (r : R) (v : V)
| FRemove (r : R).
Arguments FInsert {R V} r v.
Arguments FRemove {R V} r.

(** the range of an operation *)
Definition frange {R V} (o : fop R V) : R := match o with FInsert r _ => r | FRemove r => r end.

(** [assert!] / [panic!] in a target: rangemap_gaps.rs:75, 80, 81, 85,
    rangemap_coalesce.rs:35, rangemap_inclusive_gaps.rs:74, 79, 80, 84,
    rangemap_inclusive_coalesce.rs:34 *)
Definition fassert (b : bool) : outcome unit := if b then Ret tt else Panicked PAssert.
(** arithmetic in a target: rangemap_inclusive_gaps.rs:84,
    rangemap_inclusive_coalesce.rs:33 *)
Definition farith {A} (o : option A) : outcome A := match o with Some a => Ret a | None => Panicked PStep end.

(** [Vec::sort_by_key] (alloc), rangemap_gaps.rs:70,
    rangemap_inclusive_gaps.rs:69: a stable sort; any stable sort gives the same list,
    so insertion sort stands for it. *)
Fixpoint insert_by {A} (le : A -> A -> bool) (x : A) (l : list A) : list A :=
  match l with
  | [] => [x]
  | y :: l' => if le x y then x :: l else y :: insert_by le x l'
  end.
Definition sort_by {A} (le : A -> A -> bool) (l : list A) : list A := fold_right (insert_by le) [] l.

(** [for [a, b] in keys.array_windows::<2>()] rangemap_gaps.rs:84,
    rangemap_inclusive_gaps.rs:83: the pairs of neighbours, left to right *)
Fixpoint windows {A} (f : A -> A -> outcome unit) (l : list A) : outcome unit :=
  match l with
  | a :: (b :: _) as l' => obind (f a b) (fun _ => windows f l')
  | _ => Ret tt
  end.
Arguments windows {A} f !l /.

(** [.collect()] of an iterator whose [next] cannot panic *)
Definition pnext {S A} (next : S -> option A * S) : M S (option A) := fun s => let (o, s') := next s in (Ret o, s').

Section Targets.
  Context {K V : Type} (cmp : K -> K -> comparison) (veqb : V -> V -> bool) (st : stepfns K).

  (** ** Half-open maps *)

  (** [Op::apply]: rangemap_coalesce.rs:14-22, rangemap_gaps.rs:15-23.  Operations
      on empty ranges are skipped. *)
  Definition fapply (o : fop (range K) V) : M (rmap K V) unit :=
    match o with
    | FInsert r v => if ltb cmp (r_start r) (r_end r) then rm_insert cmp veqb r v else ret tt
    | FRemove r => if ltb cmp (r_start r) (r_end r) then rm_remove cmp r else ret tt
    end.

  (** rangemap_coalesce.rs:24-39.  The [peekable] loop compares every entry with
      the one [peek] shows after it, which is the next of the iteration. *)
  Definition fuzz_coalesce (ops : list (fop (range K) V)) : outcome unit :=
    let (o, m) := for_each fapply ops rm_new in
    obind o (fun _ =>
    windows (fun a b => fassert (negb (eqb cmp (r_end (fst a)) (r_start (fst b)) && veqb (snd a) (snd b))))
            (rm_iter m)).

  (** rangemap_gaps.rs:72-86: what the target asserts of the sorted pieces. *)
  Definition fuzz_gaps_asserts (outer : range K) (keys : list (range K)) : outcome unit :=
    (* 72-77 *)
    if r_is_empty cmp outer then fassert (match keys with [] => true | _ => false end)
    else
      (* 80 *)
      obind (match keys with k :: _ => fassert (eqb cmp (r_start k) (r_start outer)) | [] => Panicked PAssert end) (fun _ =>
      (* 81 *)
      obind (match rev keys with k :: _ => fassert (eqb cmp (r_end k) (r_end outer)) | [] => Panicked PAssert end) (fun _ =>
      (* 84-86 *)
      windows (fun a b => fassert (eqb cmp (r_end a) (r_start b))) keys)).
  (** rangemap_gaps.rs:46-87; [fuel] bounds the two [collect]s. *)
  Definition fuzz_gaps (fuel : nat) (ops : list (fop (range K) V)) (outer : range K) : outcome unit :=
    let (o, m) := for_each fapply ops rm_new in
    obind o (fun _ =>
    (* 56 *)
    obind (rm_gaps cmp m outer) (fun g =>
    obind (fst (drain (pnext (gp_next cmp)) fuel g)) (fun gaps =>
    (* 57-67 *)
    obind (rm_overlapping cmp m outer) (fun ov =>
    obind (fst (drain (pnext (ov_next cmp)) fuel ov)) (fun es =>
    let keys := filter (fun r => negb (r_is_empty cmp r))
                  (map (fun e => mkR (kmax cmp (r_start (fst e)) (r_start outer))
                                     (kmin cmp (r_end (fst e)) (r_end outer))) es) in
    (* 69-70 *)
    let keys := sort_by (fun a b => leb cmp (r_start a) (r_start b)) (keys ++ gaps) in
    (* 72-86 *)
    fuzz_gaps_asserts outer keys))))).

  (** ** Inclusive maps *)

  (** [Op::apply]: rangemap_inclusive_coalesce.rs:14-21, rangemap_inclusive_gaps.rs:15-22.
      Nothing is skipped. *)
  Definition fapplyi (o : fop (rangei K) V) : M (imap K V) unit :=
    match o with
    | FInsert r v => im_insert cmp veqb st r v
    | FRemove r => im_remove cmp st r
    end.

  (** rangemap_inclusive_coalesce.rs:23-38.  [&&] is lazy, but its left operand,
      with the subtraction, is always evaluated. *)
  Definition fuzz_coalescei (ops : list (fop (rangei K) V)) : outcome unit :=
    let (o, m) := for_each fapplyi ops im_new in
    obind o (fun _ =>
    windows (fun a b => obind (farith (sub_one st (ri_start (fst b)))) (fun p =>
                        fassert (negb (eqb cmp (ri_end (fst a)) p && veqb (snd a) (snd b)))))
            (im_iter m)).

  (** rangemap_inclusive_gaps.rs:71-85. *)
  Definition fuzz_gapsi_asserts (outer : rangei K) (keys : list (rangei K)) : outcome unit :=
    (* 71-76 *)
    if ri_is_empty cmp outer then fassert (match keys with [] => true | _ => false end)
    else
      (* 79 *)
      obind (match keys with k :: _ => fassert (eqb cmp (ri_start k) (ri_start outer)) | [] => Panicked PAssert end) (fun _ =>
      (* 80 *)
      obind (match rev keys with k :: _ => fassert (eqb cmp (ri_end k) (ri_end outer)) | [] => Panicked PAssert end) (fun _ =>
      (* 83-85 *)
      windows (fun a b => obind (farith (add_one st (ri_end a))) (fun s => fassert (eqb cmp s (ri_start b)))) keys)).
  (** rangemap_inclusive_gaps.rs:45-86. *)
  Definition fuzz_gapsi (fuel : nat) (ops : list (fop (rangei K) V)) (outer : rangei K) : outcome unit :=
    let (o, m) := for_each fapplyi ops im_new in
    obind o (fun _ =>
    (* 55 *)
    obind (im_gaps cmp m outer) (fun g =>
    obind (fst (drain (gpi_next cmp st) fuel g)) (fun gaps =>
    (* 56-67 *)
    obind (im_overlapping cmp m outer) (fun ov =>
    obind (fst (drain (pnext (ovi_next cmp)) fuel ov)) (fun es =>
    let keys := filter (fun r => negb (ri_is_empty cmp r))
                  (map (fun e => incl (kmax cmp (ri_start (fst e)) (ri_start outer))
                                      (kmin cmp (ri_end (fst e)) (ri_end outer))) es) in
    (* 68-69 *)
    let keys := sort_by (fun a b => leb cmp (ri_start a) (ri_start b)) (keys ++ gaps) in
    (* 71-85 *)
    fuzz_gapsi_asserts outer keys))))).
End Targets.
