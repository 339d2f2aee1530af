(** The iterators of operations.rs over any two iterators (C98 for [Range], C99
    for [RangeInclusive]).  [Union::new] and [Intersection::new] ask that "the two
    iterators produce sorted ranges"; these theorems say what that buys.  The
    ranges may overlap, be nested or be empty, and nothing is assumed about what
    an iterator does after its first [None].  [N] is fuel for the loops: any
    bound on the number of items will do. *)
From Coq Require Import List Bool Sorting.Sorted ZArith Lia.
From Verif Require Import Order Outcome Ranges History Spec SpecOps OpsModel OpsAny Instances.
Import ListNotations.

(** ** Any item type, any iterator, any order (lawful or not) *)
Section Any.
  Context {R I : Type} (next : I -> option R * I) (ilen : I -> nat).
  Context (order_start order_end : R -> R -> comparison).
  Context (merge : R -> R -> bool * R) (intersect : R -> R -> option R).

  (** [impl FusedIterator for Union] operations.rs:183-188 *)
  Theorem C98_union_fused : forall u u',
    un_next next ilen order_start merge u = (Ret None, u') ->
    un_next next ilen order_start merge u' = (Ret None, u').
  Proof. exact (union_fused next ilen order_start merge). Qed.
  (** the crate does not claim this of [Intersection], but it holds *)
  Theorem C98_intersection_fused : forall u u',
    in_next next ilen order_end intersect u = (Ret None, u') ->
    in_next next ilen order_end intersect u' = (Ret None, u').
  Proof. exact (inter_fused next ilen order_end intersect). Qed.
  (** the [unwrap]s operations.rs:146-153, 165 never fail *)
  Theorem C98_union_no_panic : forall u p, fst (un_next next ilen order_start merge u) <> Panicked p.
  Proof. exact (union_no_panic next ilen order_start merge). Qed.
End Any.

Section Half.
  Context {K : Type} {cmp : K -> K -> comparison} (HO : TotalOrd cmp).
  Notation valid := (valid_range cmp).
  Notation covers := (in_range cmp).
  Context {I : Type} (next : I -> option (range K) * I) (N : nat).
  Notation un nx := (un_next nx (fun _ => N) (r_order_start cmp) (r_merge cmp)).
  Notation inn nx := (in_next nx (fun _ => N) (r_order_end cmp) (r_intersect cmp)).

  (** sorted or not, the pieces cover the keys of both sides, and join only what
      overlaps; if both sides are sorted the pieces are disjoint and ascending *)
  Theorem C98_union : forall i j l r, supplies next i l -> supplies next j r -> length l + length r <= N ->
    exists us, (forall n, nexts_m (un next) n (op_new i j) = map Ret (yields n us)) /\
      (forall k, (exists u, In u us /\ covers u k = true) <-> (exists x, In x (l ++ r) /\ covers x k = true)) /\
      welded cmp (l ++ r) us /\ length us <= length l + length r /\
      (Forall (fun x => valid x = true) (l ++ r) -> Forall (fun x => valid x = true) us) /\
      (by_start cmp l -> by_start cmp r -> in_turn cmp us).
  Proof. exact (half_union HO next N). Qed.
  (** each piece is a non-empty part of a range of either side *)
  Theorem C98_intersection : forall i j l r, supplies next i l -> supplies next j r -> length l + length r <= N ->
    by_start cmp l -> by_start cmp r ->
    exists us, (forall n, nexts_m (inn next) n (op_new i j) = map Ret (yields n us)) /\
      (forall k, (exists u, In u us /\ covers u k = true) <->
         (exists x, In x l /\ covers x k = true) /\ (exists y, In y r /\ covers y k = true)) /\
      Forall (fun u => valid u = true /\ exists x y, In x l /\ In y r /\ inside cmp x u /\ inside cmp y u) us /\
      length us <= length l + length r /\
      by_start cmp us /\ (in_turn cmp l -> in_turn cmp r -> in_turn cmp us).
  Proof. exact (half_inter HO next N). Qed.
  (** after [n] calls each side has been asked for at most one item more than
      those that went into the pieces yielded so far *)
  Theorem C98_union_lazy : forall i j l r, supplies next i l -> supplies next j r -> length l + length r <= N ->
    forall n, let u := nexts_end (un (tallied next)) n (op_new (i, 0) (j, 0)) in
    exists l1 l2 r1 r2, l = l1 ++ l2 /\ r = r1 ++ r2 /\
      snd (pk_iter (op_left u)) <= length l1 + 1 /\ snd (pk_iter (op_right u)) <= length r1 + 1 /\
      Forall (fun x => exists y, In (Ret (Some y)) (nexts_m (un (tallied next)) n (op_new (i, 0) (j, 0))) /\
                                 inside cmp y x) (l1 ++ r1).
  Proof. exact (half_union_lazy HO next N). Qed.
  (** for the intersection: those that end no later than a piece already yielded *)
  Theorem C98_intersection_lazy : forall i j l r, supplies next i l -> supplies next j r -> length l + length r <= N ->
    by_start cmp l -> by_start cmp r ->
    forall n, let u := nexts_end (inn (tallied next)) n (op_new (i, 0) (j, 0)) in
    exists l1 l2 r1 r2, l = l1 ++ l2 /\ r = r1 ++ r2 /\
      snd (pk_iter (op_left u)) <= length l1 + 1 /\ snd (pk_iter (op_right u)) <= length r1 + 1 /\
      (~ In (Ret None) (nexts_m (inn (tallied next)) n (op_new (i, 0) (j, 0))) ->
       Forall (fun x => exists y, In (Ret (Some y)) (nexts_m (inn (tallied next)) n (op_new (i, 0) (j, 0))) /\
                                  leb cmp (r_end x) (r_end y) = true) (l1 ++ r1)).
  Proof. exact (half_inter_lazy HO next N). Qed.
End Half.

(** The same for [RangeInclusive]s; no step function is involved.  Any of them may
    be exhausted; which keys are covered goes by the bounds. *)
Section Incl.
  Context {K : Type} {cmp : K -> K -> comparison} (HO : TotalOrd cmp).
  Notation fresh := (fun r : rangei K => ri_exhausted r = false).
  Notation valid := (valid_rangei cmp).
  Notation covers := (in_rangei cmp).
  Context {I : Type} (next : I -> option (rangei K) * I) (N : nat).
  Notation un nx := (un_next nx (fun _ => N) (ri_order_start cmp) (ri_merge cmp)).
  Notation inn nx := (in_next nx (fun _ => N) (ri_order_end cmp) (ri_intersect cmp)).

  Theorem C99_union : forall i j l r,
    supplies next i l -> supplies next j r -> length l + length r <= N ->
    exists us, (forall n, nexts_m (un next) n (op_new i j) = map Ret (yields n us)) /\
      (forall k, (exists u, In u us /\ covers u k = true) <-> (exists x, In x (l ++ r) /\ covers x k = true)) /\
      weldedi cmp (l ++ r) us /\ length us <= length l + length r /\
      (Forall fresh (l ++ r) -> Forall fresh us) /\
      (Forall (fun x => valid x = true) (l ++ r) -> Forall (fun x => valid x = true) us) /\
      (by_starti cmp l -> by_starti cmp r ->
         in_turnx cmp us /\ (Forall fresh (l ++ r) -> in_turni cmp us)).
  Proof. exact (incl_union HO next N). Qed.
  Theorem C99_intersection : forall i j l r,
    supplies next i l -> supplies next j r -> length l + length r <= N ->
    by_starti cmp l -> by_starti cmp r ->
    exists us, (forall n, nexts_m (inn next) n (op_new i j) = map Ret (yields n us)) /\
      (forall k, (exists u, In u us /\ covers u k = true) <->
         (exists x, In x l /\ covers x k = true) /\ (exists y, In y r /\ covers y k = true)) /\
      Forall (fun u => (fresh u /\ valid u = true) /\
                       exists x y, In x l /\ In y r /\ insidei cmp x u /\ insidei cmp y u) us /\
      length us <= length l + length r /\
      by_starti cmp us /\ (in_turni cmp l -> in_turni cmp r -> in_turni cmp us).
  Proof. exact (incl_inter HO next N). Qed.
  Theorem C99_union_lazy : forall i j l r,
    supplies next i l -> supplies next j r -> length l + length r <= N ->
    forall n, let u := nexts_end (un (tallied next)) n (op_new (i, 0) (j, 0)) in
    exists l1 l2 r1 r2, l = l1 ++ l2 /\ r = r1 ++ r2 /\
      snd (pk_iter (op_left u)) <= length l1 + 1 /\ snd (pk_iter (op_right u)) <= length r1 + 1 /\
      Forall (fun x => exists y, In (Ret (Some y)) (nexts_m (un (tallied next)) n (op_new (i, 0) (j, 0))) /\
                                 insidei cmp y x) (l1 ++ r1).
  Proof. exact (incl_union_lazy HO next N). Qed.
  Theorem C99_intersection_lazy : forall i j l r,
    supplies next i l -> supplies next j r -> length l + length r <= N ->
    by_starti cmp l -> by_starti cmp r ->
    forall n, let u := nexts_end (inn (tallied next)) n (op_new (i, 0) (j, 0)) in
    exists l1 l2 r1 r2, l = l1 ++ l2 /\ r = r1 ++ r2 /\
      snd (pk_iter (op_left u)) <= length l1 + 1 /\ snd (pk_iter (op_right u)) <= length r1 + 1 /\
      (~ In (Ret None) (nexts_m (inn (tallied next)) n (op_new (i, 0) (j, 0))) ->
       Forall (fun x => exists y, In (Ret (Some y)) (nexts_m (inn (tallied next)) n (op_new (i, 0) (j, 0))) /\
                                  leb cmp (ri_end x) (ri_end y) = true) (l1 ++ r1)).
  Proof. exact (incl_inter_lazy HO next N). Qed.
End Incl.

(** ** Examples.  A scripted iterator, which may yield items again after [None]. *)
Local Open Scope Z_scope.
Definition script {R} (i : list (option R)) : option R * list (option R) :=
  match i with [] => (None, []) | o :: i' => (o, i') end.
Notation zun := (un_next script (fun _ => 9%nat) (r_order_start Z.compare) (r_merge Z.compare)).
Notation zin := (in_next script (fun _ => 9%nat) (r_order_end Z.compare) (r_intersect Z.compare)).
Notation zuni := (un_next script (fun _ => 9%nat) (ri_order_start Z.compare) (ri_merge Z.compare)).
Notation zini := (in_next script (fun _ => 9%nat) (ri_order_end Z.compare) (ri_intersect Z.compare)).
Ltac sorted := repeat constructor.

(** overlapping, nested and empty ranges on the left; both go on after [None] *)
Definition ol : list (range Z) := [mkR 0 5; mkR 1 3; mkR 4 8; mkR 9 9; mkR 10 12].
Definition or_ : list (range Z) := [mkR 2 11; mkR 20 30].
Definition oi : list (option (range Z)) := map Some ol ++ [None; Some (mkR 40 50)].
Definition oj : list (option (range Z)) := map Some or_ ++ [None; Some (mkR 60 70)].
Example C98_example :
  TotalOrd Z.compare /\ supplies script oi ol /\ supplies script oj or_ /\
  (length ol + length or_ <= 9)%nat /\ by_start Z.compare ol /\ by_start Z.compare or_ /\
  nexts_m zun 4 (op_new oi oj) = map Ret [Some (mkR 0 12); Some (mkR 20 30); None; None] /\
  nexts_m zin 6 (op_new oi oj) =
    map Ret [Some (mkR 2 5); Some (mkR 2 3); Some (mkR 4 8); Some (mkR 10 11); None; None].
Proof. split; [exact Z_order|]. repeat (match goal with |- _ /\ _ => split end); vm_compute; sorted. Qed.
(** the first piece took five items on the left and one on the right; each side
    has been asked once more *)
Example C98_lazy_example :
  let u := nexts_end (un_next (tallied script) (fun _ => 9%nat) (r_order_start Z.compare) (r_merge Z.compare)) 1
             (op_new (oi, O) (oj, O)) in
  snd (pk_iter (op_left u)) = 6%nat /\ snd (pk_iter (op_right u)) = 2%nat.
Proof. vm_compute. auto. Qed.
(** two calls of the intersection have used up two items, both on the left *)
Example C98_intersection_lazy_example :
  let nx := in_next (tallied script) (fun _ => 9%nat) (r_order_end Z.compare) (r_intersect Z.compare) in
  let u := nexts_end nx 2 (op_new (oi, O) (oj, O)) in
  snd (pk_iter (op_left u)) = 2%nat /\ snd (pk_iter (op_right u)) = 1%nat /\
  ~ In (Ret None) (nexts_m nx 2 (op_new (oi, O) (oj, O))).
Proof. vm_compute. repeat split. intros [H|[H|[]]]; discriminate. Qed.
(** a script that resumes: both iterators stay at [None] *)
Example C98_fused_example :
  let u := nexts_end zun 3 (op_new oi oj) in let v := nexts_end zin 5 (op_new oi oj) in
  zun u = (Ret None, u) /\ zin v = (Ret None, v) /\
  script (pk_iter (op_left u)) = (Some (mkR 40 50), []).
Proof. vm_compute. auto. Qed.
(** even an order that calls everything less and a merge that always succeeds *)
Example C98_no_panic_example :
  un_next script (fun _ => 9%nat) (fun _ _ => Lt) (fun a _ => (true, a)) (op_new oi oj) =
  (Ret (Some (mkR 0 5)), mkPair (mkPeek [Some (mkR 40 50)] (Some None)) (mkPeek [Some (mkR 60 70)] (Some None))).
Proof. vm_compute. reflexivity. Qed.

Definition oli : list (rangei Z) := [mkRI 0 5 false; mkRI 1 3 false; mkRI 4 8 false; mkRI 9 8 false; mkRI 10 12 false].
Definition ori : list (rangei Z) := [mkRI 2 10 false; mkRI 13 30 false].
Definition oii : list (option (rangei Z)) := map Some oli ++ [None; Some (mkRI 40 50 false)].
Definition oji : list (option (rangei Z)) := map Some ori ++ [None; Some (mkRI 60 70 false)].
Example C99_example :
  TotalOrd Z.compare /\ Forall (fun r => ri_exhausted r = false) (oli ++ ori) /\
  supplies script oii oli /\ supplies script oji ori /\
  (length oli + length ori <= 9)%nat /\ by_starti Z.compare oli /\ by_starti Z.compare ori /\
  nexts_m zuni 4 (op_new oii oji) = map Ret [Some (mkRI 0 12 false); Some (mkRI 13 30 false); None; None] /\
  nexts_m zini 6 (op_new oii oji) =
    map Ret [Some (mkRI 2 5 false); Some (mkRI 2 3 false); Some (mkRI 4 8 false); Some (mkRI 10 10 false); None; None].
Proof. split; [exact Z_order|]. repeat (match goal with |- _ /\ _ => split end); vm_compute; sorted. Qed.
Example C99_lazy_example :
  let u := nexts_end (un_next (tallied script) (fun _ => 9%nat) (ri_order_start Z.compare) (ri_merge Z.compare)) 1
             (op_new (oii, O) (oji, O)) in
  let nx := in_next (tallied script) (fun _ => 9%nat) (ri_order_end Z.compare) (ri_intersect Z.compare) in
  let v := nexts_end nx 2 (op_new (oii, O) (oji, O)) in
  snd (pk_iter (op_left u)) = 6%nat /\ snd (pk_iter (op_right u)) = 2%nat /\
  snd (pk_iter (op_left v)) = 2%nat /\ snd (pk_iter (op_right v)) = 1%nat /\
  ~ In (Ret None) (nexts_m nx 2 (op_new (oii, O) (oji, O))).
Proof. vm_compute. repeat split. intros [H|[H|[]]]; discriminate. Qed.

(** exhausted items: [3..=5], exhausted, does not take in [5..=6], so the two pieces share a key;
    the intersection does not look at the flag *)
Definition olx : list (rangei Z) := [mkRI 0 2 true; mkRI 3 5 true; mkRI 5 6 false].
Definition orx : list (rangei Z) := [mkRI 1 2 false; mkRI 6 9 true].
Example C99_exhausted_example :
  supplies script (map Some olx) olx /\ supplies script (map Some orx) orx /\
  (length olx + length orx <= 9)%nat /\ by_starti Z.compare olx /\ by_starti Z.compare orx /\
  nexts_m zuni 4 (op_new (map Some olx) (map Some orx)) =
    map Ret [Some (mkRI 0 2 true); Some (mkRI 3 5 true); Some (mkRI 5 9 false); None] /\
  nexts_m zini 3 (op_new (map Some olx) (map Some orx)) = map Ret [Some (mkRI 1 2 false); Some (mkRI 6 6 false); None].
Proof. repeat (match goal with |- _ /\ _ => split end); vm_compute; sorted. Qed.
(** so that the pieces of the union lie apart needs items that are not exhausted *)
Theorem C99_exhausted_union_refuted : exists (l r : list (rangei Z)) p q k,
  by_starti Z.compare l /\ by_starti Z.compare r /\
  nexts_m zuni 3 (op_new (map Some l) (map Some r)) = map Ret [Some p; Some q; None] /\
  in_rangei Z.compare p k = true /\ in_rangei Z.compare q k = true.
Proof.
  exists [mkRI 3 5 true; mkRI 5 6 false], [], (mkRI 3 5 true), (mkRI 5 6 false), 5.
  repeat (match goal with |- _ /\ _ => split end); vm_compute; sorted.
Qed.

(** ** What is lost if the inputs are not sorted *)
(** the intersection misses keys that are on both sides *)
Theorem C98_unsorted_intersection_refuted : exists (l r : list (range Z)) k,
  in_range Z.compare (nth 1 l (mkR 0 0)) k = true /\ in_range Z.compare (nth 0 r (mkR 0 0)) k = true /\
  (length l = 2 /\ length r = 1)%nat /\
  nexts_m zin 2 (op_new (map Some l) (map Some r)) = [Ret None; Ret None].
Proof. exists [mkR 5 6; mkR 0 1], [mkR 0 1], 0. vm_compute. auto. Qed.
(** the pieces of the union overlap one another *)
Theorem C98_unsorted_union_refuted : exists (l r : list (range Z)) p q k,
  nexts_m zun 3 (op_new (map Some l) (map Some r)) = map Ret [Some p; Some q; None] /\
  in_range Z.compare p k = true /\ in_range Z.compare q k = true.
Proof. exists [mkR 5 6; mkR 0 9], [], (mkR 5 6), (mkR 0 9), 5. vm_compute. auto. Qed.
(** inputs sorted by start but overlapping: pieces of the intersection overlap *)
Theorem C98_overlapping_intersection_refuted : exists (l r : list (range Z)) p q k,
  by_start Z.compare l /\ by_start Z.compare r /\
  nexts_m zin 3 (op_new (map Some l) (map Some r)) = map Ret [Some p; Some q; None] /\
  in_range Z.compare p k = true /\ in_range Z.compare q k = true.
Proof.
  exists [mkR 0 5; mkR 1 3], [mkR 0 9], (mkR 0 5), (mkR 1 3), 2. repeat (match goal with |- _ /\ _ => split end); vm_compute; sorted.
Qed.
Theorem C99_unsorted_intersection_refuted : exists (l r : list (rangei Z)) k,
  in_rangei Z.compare (nth 1 l (mkRI 0 0 true)) k = true /\ in_rangei Z.compare (nth 0 r (mkRI 0 0 true)) k = true /\
  (length l = 2 /\ length r = 1)%nat /\
  nexts_m zini 2 (op_new (map Some l) (map Some r)) = [Ret None; Ret None].
Proof. exists [mkRI 5 6 false; mkRI 0 1 false], [mkRI 0 1 false], 0. vm_compute. auto. Qed.

Theorem C99_unsorted_union_refuted : exists (l r : list (rangei Z)) p q k,
  nexts_m zuni 3 (op_new (map Some l) (map Some r)) = map Ret [Some p; Some q; None] /\
  in_rangei Z.compare p k = true /\ in_rangei Z.compare q k = true.
Proof. exists [mkRI 5 6 false; mkRI 0 9 false], [], (mkRI 5 6 false), (mkRI 0 9 false), 5. vm_compute. auto. Qed.
Theorem C99_overlapping_intersection_refuted : exists (l r : list (rangei Z)) p q k,
  by_starti Z.compare l /\ by_starti Z.compare r /\
  nexts_m zini 3 (op_new (map Some l) (map Some r)) = map Ret [Some p; Some q; None] /\
  in_rangei Z.compare p k = true /\ in_rangei Z.compare q k = true.
Proof.
  exists [mkRI 0 5 false; mkRI 1 3 false], [mkRI 0 9 false], (mkRI 0 5 false), (mkRI 1 3 false), 2.
  repeat (match goal with |- _ /\ _ => split end); vm_compute; sorted.
Qed.

Print Assumptions C98_union_fused.
Print Assumptions C98_intersection_fused.
Print Assumptions C98_union_no_panic.
Print Assumptions C98_union.
Print Assumptions C98_intersection.
Print Assumptions C98_union_lazy.
Print Assumptions C98_intersection_lazy.
Print Assumptions C99_union.
Print Assumptions C99_intersection.
Print Assumptions C99_union_lazy.
Print Assumptions C99_intersection_lazy.
Print Assumptions C98_unsorted_intersection_refuted.
Print Assumptions C98_unsorted_union_refuted.
Print Assumptions C98_overlapping_intersection_refuted.
Print Assumptions C99_unsorted_intersection_refuted.
Print Assumptions C99_unsorted_union_refuted.
Print Assumptions C99_overlapping_intersection_refuted.
Print Assumptions C99_exhausted_union_refuted.
