(** [Union::new] and [Intersection::new] called directly (C82).  Both are [pub]
    and reachable through the aliases set.rs:18, 21 and inclusive_set.rs:18, 21.
    A caller may hand them [Iter]s that have already been advanced from either
    end.  The inclusive [Iter] does not mention the step functions, so the two
    sets may use different ones.  [deque_rest sched l] (Spec.v) is what the calls
    in [sched] leave of [l]. *)
From Coq Require Import List Bool Sorting.Sorted ZArith.
From Verif Require Import Order Outcome BTree Ranges History Spec MapModel IMapModel OpsModel SetModel ISetModel
  StepModel StepFacts IMapProps Exhausted ExhaustedSet OpsRest Instances.
Import ListNotations.

Section Half.
  Context {K : Type} {cmp : K -> K -> comparison} (HO : TotalOrd cmp).
  Notation run := (rs_run cmp).
  Notation covers := (in_range cmp).
  Notation ranges s := (map fst (rs_iter s)).
  Notation rest sched s := (sched_end (both rs_iter_next rs_iter_next_back) sched (rs_iter s)).

  (** what is left of an iterator is a contiguous part of the ranges, short of
      at most one range for each call *)
  Theorem C82_rest : forall (s : rset K) sched, exists p q,
    ranges s = p ++ map fst (rest sched s) ++ q /\ length (p ++ q) <= length sched /\
    map fst (rest sched s) = deque_rest sched (ranges s).
  Proof. exact rs_rest_part. Qed.
  Theorem C82_union_new : forall a b sa sb, exists us,
    (forall n, nexts_m (rs_union_next cmp) n (op_new (rest sa (run a)) (rest sb (run b))) = map Ret (yields n us)) /\
    pieces_of cmp (fun k => existsb (fun r => covers r k) (deque_rest sa (ranges (run a))) ||
                            existsb (fun r => covers r k) (deque_rest sb (ranges (run b)))) us /\
    welded cmp (deque_rest sa (ranges (run a)) ++ deque_rest sb (ranges (run b))) us /\
    length us <= length (deque_rest sa (ranges (run a))) + length (deque_rest sb (ranges (run b))).
  Proof. exact (rs_union_new HO). Qed.
  Theorem C82_intersection_new : forall a b sa sb, exists us,
    (forall n, nexts_m (rs_intersection_next cmp) n (op_new (rest sa (run a)) (rest sb (run b))) = map Ret (yields n us)) /\
    runs_of cmp (fun k => existsb (fun r => covers r k) (deque_rest sa (ranges (run a))) &&
                          existsb (fun r => covers r k) (deque_rest sb (ranges (run b)))) us /\
    length us <= length (deque_rest sa (ranges (run a))) + length (deque_rest sb (ranges (run b))).
  Proof. exact (rs_intersection_new HO). Qed.
End Half.

Section Inclusive.
  Context {K : Type} {cmp : K -> K -> comparison} {st st' : stepfns K}.
  Context (HO : TotalOrd cmp) (HS : StepLaws cmp st) (HS' : StepLaws cmp st').
  Notation covers := (in_rangei cmp).
  Notation valid := (valid_rangei cmp).
  Notation ranges s := (map fst (is_iter s)).
  Notation rest sched s := (sched_end (both is_iter_next is_iter_next_back) sched (is_iter s)).

  Theorem C82_rest_inclusive : forall (s : iset K) sched, exists p q,
    ranges s = p ++ map fst (rest sched s) ++ q /\ length (p ++ q) <= length sched /\
    map fst (rest sched s) = deque_rest sched (ranges s).
  Proof. exact is_rest_part. Qed.
  (** a piece with the exhausted flag is one of the inputs (see C81) *)
  Theorem C82_union_new_inclusive : forall a b sa sb, exists us,
    (forall n, nexts_m (is_union_next cmp) n (op_new (rest sa (is_run cmp st a)) (rest sb (is_run cmp st' b))) =
       map Ret (yields n us)) /\
    (forall r, In r us -> valid r = true) /\
    StronglySorted (fun p q => ltb cmp (ri_end p) (ri_start q) = true \/
                               ri_exhausted p = true /\ eqb cmp (ri_end p) (ri_start q) = true) us /\
    (forall k, (exists r, In r us /\ covers r k = true) <->
       existsb (fun r => covers r k) (deque_rest sa (ranges (is_run cmp st a))) ||
       existsb (fun r => covers r k) (deque_rest sb (ranges (is_run cmp st' b))) = true) /\
    (forall r, In r us -> ri_exhausted r = true ->
       In r (deque_rest sa (ranges (is_run cmp st a))) \/ In r (deque_rest sb (ranges (is_run cmp st' b)))) /\
    length us <= length (deque_rest sa (ranges (is_run cmp st a))) + length (deque_rest sb (ranges (is_run cmp st' b))).
  Proof. exact (is_union_new HO HS HS'). Qed.
  Theorem C82_intersection_new_inclusive : forall a b sa sb, exists us,
    (forall n, nexts_m (is_intersection_next cmp) n (op_new (rest sa (is_run cmp st a)) (rest sb (is_run cmp st' b))) =
       map Ret (yields n us)) /\
    runsi_of cmp (fun k => existsb (fun r => covers r k) (deque_rest sa (ranges (is_run cmp st a))) &&
                           existsb (fun r => covers r k) (deque_rest sb (ranges (is_run cmp st' b)))) us /\
    length us <= length (deque_rest sa (ranges (is_run cmp st a))) + length (deque_rest sb (ranges (is_run cmp st' b))).
  Proof. exact (is_intersection_new HO HS HS'). Qed.
End Inclusive.

Local Open Scope Z_scope.
Notation zrest sched s := (sched_end (both rs_iter_next rs_iter_next_back) sched (rs_iter s)).
Notation zresti sched s := (sched_end (both is_iter_next is_iter_next_back) sched (is_iter s)).
Definition ra_ops : list (sop (range Z)) := [SExtend [mkR 0 5; mkR 10 20; mkR 30 40; mkR 50 60]].
Definition rb_ops : list (sop (range Z)) := [SExtend [mkR 3 12; mkR 18 33; mkR 55 99]].
Example C82_example : TotalOrd Z.compare /\
  deque_rest [Front; Back; Back] (map fst (rs_iter (rs_run Z.compare ra_ops))) = [mkR 10 20] /\
  deque_rest [Back; Front; Front; Front; Back] [1; 2; 3] = [] /\
  nexts_m (rs_union_next Z.compare) 4
    (op_new (zrest [Front] (rs_run Z.compare ra_ops)) (zrest [Front; Back] (rs_run Z.compare rb_ops))) =
    map Ret [Some (mkR 10 40); Some (mkR 50 60); None; None] /\
  nexts_m (rs_intersection_next Z.compare) 4
    (op_new (zrest [Back] (rs_run Z.compare ra_ops)) (zrest [Front] (rs_run Z.compare rb_ops))) =
    map Ret [Some (mkR 18 20); Some (mkR 30 33); None; None].
Proof. split; [exact Z_order|]. vm_compute. auto. Qed.
Definition rai_ops : list (sop (rangei Z)) := [SExtend [incl 0 5; mkRI 10 20 true; incl 30 40; incl 50 60]].
Definition rbi_ops : list (sop (rangei Z)) := [SExtend [incl 3 12; incl 20 33; incl 55 99]].
Example C82_example_inclusive : TotalOrd Z.compare /\ StepLaws Z.compare zst /\
  nexts_m (is_union_next Z.compare) 4
    (op_new (zresti [Front] (is_run Z.compare zst rai_ops)) (zresti [Front; Back] (is_run Z.compare zst rbi_ops))) =
    map Ret [Some (mkRI 10 20 true); Some (incl 20 40); Some (incl 50 60); None] /\
  nexts_m (is_intersection_next Z.compare) 4
    (op_new (zresti [Back] (is_run Z.compare zst rai_ops)) (zresti [Front] (is_run Z.compare zst rbi_ops))) =
    map Ret [Some (incl 20 20); Some (incl 30 33); None; None].
Proof. split; [exact Z_order|]. split; [exact zst_laws|]. vm_compute. auto. Qed.
Print Assumptions C82_rest.
Print Assumptions C82_rest_inclusive.
Print Assumptions C82_union_new.
Print Assumptions C82_intersection_new.
Print Assumptions C82_union_new_inclusive.
Print Assumptions C82_intersection_new_inclusive.
