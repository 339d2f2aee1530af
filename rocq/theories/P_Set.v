(** Properties of [RangeSet] (C45-C52).  [run ops] is the set reached by the
    history [ops] from the empty set, [mem ops] the membership function the
    history describes (Spec.v).  C49_closed extends every theorem below to sets
    built with [|] and [&]. *)
From Coq Require Import List Bool Sorting.Sorted ZArith.
From Verif Require Import Order Outcome BTree Ranges History Spec MapModel OpsModel SetModel
  OpsProofs SetFacts SetProps Instances.
Import ListNotations.

(** Example data *)
Local Open Scope Z_scope.
Definition sa_ops : list (sop (range Z)) :=
  [SInsert (mkR 0 10); SInsert (mkR 20 30); SRemove (mkR 4 6); SInsert (mkR 9 9); SExtend [mkR 30 35; mkR 50 60]].
Definition sb_ops : list (sop (range Z)) :=
  [SInsert (mkR 100 110); SClear; SExtend [mkR 10 12; mkR 3 8; mkR 7 7; mkR 0 99]; SInsert (mkR 28 55)].
Notation zset := (rs_run Z.compare).
Notation zranges ops := (map fst (rs_iter (zset ops))).
Example sa_run : zranges sa_ops = [mkR 0 4; mkR 6 10; mkR 20 35; mkR 50 60].
Proof. vm_compute. reflexivity. Qed.
Example sb_run : zranges sb_ops = [mkR 3 8; mkR 10 12; mkR 28 55].
Proof. vm_compute. reflexivity. Qed.

Section Props.
  Context {K : Type} {cmp : K -> K -> comparison} (HO : TotalOrd cmp).

  Notation run := (rs_run cmp).
  Notation valid := (valid_range cmp).
  Notation covers := (in_range cmp).
  Notation mem := (mem_run valid covers).
  Notation memx := (mem_sexp valid covers).
  Notation ranges s := (map fst (rs_iter s)).

  (** ** C45 *)
  Theorem C45_membership : forall ops k, rs_contains cmp (run ops) k = Ret (mem ops k).
  Proof. exact (srun_contains HO). Qed.
  Theorem C45_insert_outcome : forall ops r,
    if valid r
    then exists s', rs_insert cmp r (run ops) = (Ret tt, s') /\
           forall k, rs_contains cmp s' k = Ret (covers r k || mem ops k)
    else rs_insert cmp r (run ops) = (Panicked PAssert, run ops).
  Proof. exact (sinsert_outcome HO). Qed.
  Theorem C45_remove_outcome : forall ops r,
    if valid r
    then exists s', rs_remove cmp r (run ops) = (Ret tt, s') /\
           forall k, rs_contains cmp s' k = Ret (negb (covers r k) && mem ops k)
    else rs_remove cmp r (run ops) = (Panicked PAssert, run ops).
  Proof. exact (sremove_outcome HO). Qed.

  Example C45_example : TotalOrd Z.compare /\
    map (rs_contains Z.compare (zset sa_ops)) [-1; 0; 4; 5; 6; 9; 10; 34; 35] =
    map Ret [false; true; false; false; true; true; false; true; false] /\
    fst (rs_insert Z.compare (mkR 5 25) (zset sa_ops)) = Ret tt /\
    rs_insert Z.compare (mkR 5 5) (zset sa_ops) = (Panicked PAssert, zset sa_ops) /\
    rs_remove Z.compare (mkR 5 4) (zset sa_ops) = (Panicked PAssert, zset sa_ops).
  Proof. split; [exact Z_order|]. vm_compute. auto. Qed.

  (** ** C46 *)
  Theorem C46_iter_maximal_runs : forall ops, runs_of cmp (mem ops) (ranges (run ops)).
  Proof. exact (srun_runs HO). Qed.
  Theorem C46_get_iff : forall ops k r,
    rs_get cmp (run ops) k = Ret (Some r) <-> In r (ranges (run ops)) /\ covers r k = true.
  Proof. exact (sget_iff HO). Qed.
  Theorem C46_get_none : forall ops k, rs_get cmp (run ops) k = Ret None <-> mem ops k = false.
  Proof. exact (sget_none HO). Qed.
  Theorem C46_get_maximal : forall ops k r r',
    rs_get cmp (run ops) k = Ret (Some r) ->
    leb cmp (r_start r') (r_start r) = true -> leb cmp (r_end r) (r_end r') = true ->
    (forall k', covers r' k' = true -> mem ops k' = true) ->
    eqb cmp (r_start r') (r_start r) = true /\ eqb cmp (r_end r') (r_end r) = true.
  Proof. exact (sget_maximal HO). Qed.
  Theorem C46_eq_iff_same_members : forall a b,
    rs_eqb cmp (run a) (run b) = true <-> forall k, mem a k = mem b k.
  Proof. exact (seqb_spec HO). Qed.
  Theorem C46_ord_consistent : TotalOrd (rs_cmp cmp) /\
    forall a b, rs_cmp cmp (run a) (run b) = Eq <-> forall k, mem a k = mem b k.
  Proof. exact (scmp_spec HO). Qed.
  Theorem C46_hash_consistent : forall T (hk : K -> list T),
    (forall x y, eqb cmp x y = true -> hk x = hk y) ->
    forall a b, (forall k, mem a k = mem b k) -> rs_hash hk (run a) = rs_hash hk (run b).
  Proof. exact (fun T => shash HO (T := T)). Qed.
  Theorem C46_hash_separates : forall T (hk : K -> list T),
    (forall x y s t, hk x ++ s = hk y ++ t -> eqb cmp x y = true /\ hk x = hk y) ->
    forall a b s t, rs_hash hk (run a) ++ s = rs_hash hk (run b) ++ t -> (forall k, mem a k = mem b k) /\ s = t.
  Proof. exact (fun T => shash_separates HO (T := T)). Qed.

  Example C46_example :
    rs_get Z.compare (zset sa_ops) 34 = Ret (Some (mkR 20 35)) /\
    rs_get Z.compare (zset sa_ops) 5 = Ret None /\
    rs_eqb Z.compare (zset sa_ops)
      (zset [SExtend [mkR 50 60; mkR 6 8; mkR 20 32; mkR 8 10; mkR 0 4; mkR 31 35]]) = true /\
    rs_eqb Z.compare (zset sa_ops) (zset sb_ops) = false /\
    rs_hash (fun k => [k]) (zset [SInsert (mkR 6 8); SInsert (mkR 8 9)]) = [HLen 1; HUser 6; HUser 9] /\
    (forall k, in_range Z.compare (mkR 20 35) k = true -> mem_run (valid_range Z.compare) (in_range Z.compare) sa_ops k = true).
  Proof.
    split; [reflexivity|]. split; [reflexivity|]. split; [reflexivity|]. split; [reflexivity|].
    split; [reflexivity|].
    intros k H. apply (proj2 (proj2 (srun_runs Z_order sa_ops))). exists (mkR 20 35). split; [|exact H].
    rewrite sa_run. cbn. auto.
  Qed.

  (** ** C47, C48, C51 *)
  Theorem C47_union_iterator : forall a b, exists us,
    (forall n, nexts_m (rs_union_next cmp) n (rs_union (run a) (run b)) = map Ret (yields n us)) /\
    pieces_of cmp (fun k => mem a k || mem b k) us /\
    welded cmp (map fst (rs_iter (run a)) ++ map fst (rs_iter (run b))) us /\
    (length us <= rs_len (run a) + rs_len (run b))%nat.
  Proof. exact (sunion HO). Qed.
  Theorem C48_intersection_iterator : forall a b, exists us,
    (forall n, nexts_m (rs_intersection_next cmp) n (rs_intersection (run a) (run b)) = map Ret (yields n us)) /\
    runs_of cmp (fun k => mem a k && mem b k) us /\
    (length us <= rs_len (run a) + rs_len (run b))%nat.
  Proof. exact (sintersection HO). Qed.
  (** 'the union iterator yields maximal runs' is false *)
  Theorem C51_union_coalesces_refuted : exists a b us,
    (forall n, nexts_m (rs_union_next Z.compare) n (rs_union (zset a) (zset b)) = map Ret (yields n us)) /\
    us = [mkR 0 5; mkR 5 10] /\
    ~ runs_of Z.compare (mem_run (valid_range Z.compare) (in_range Z.compare) (a ++ b)) us.
  Proof.
    exists [SInsert (mkR 0 5)], [SInsert (mkR 5 10)], [mkR 0 5; mkR 5 10]. split; [|split; [reflexivity|]].
    - destruct (sunion Z_order [SInsert (mkR 0 5)] [SInsert (mkR 5 10)]) as (us & H & _ & _ & Hl).
      assert (E : us = [mkR 0 5; mkR 5 10]); [|rewrite E in H; exact H].
      pose proof (H 3%nat) as H3. vm_compute in H3.
      destruct us as [|r1 [|r2 [|r3 us]]]; vm_compute in H3; injection H3; intros; subst; try discriminate; reflexivity.
    - intros (_ & H & _). inversion H as [|x l _ HF E1]. inversion HF as [|y l' Hy _ E2]. discriminate Hy.
  Qed.

  Example C47_C48_example :
    nexts_m (rs_union_next Z.compare) 6 (rs_union (zset sa_ops) (zset sb_ops)) =
      map Ret [Some (mkR 0 10); Some (mkR 10 12); Some (mkR 20 60); None; None; None] /\
    nexts_m (rs_intersection_next Z.compare) 6 (rs_intersection (zset sa_ops) (zset sb_ops)) =
      map Ret [Some (mkR 3 4); Some (mkR 6 8); Some (mkR 28 35); Some (mkR 50 55); None; None].
  Proof. vm_compute. auto. Qed.

  (** ** C49 *)
  Theorem C49_bitor : forall a b, exists ops, rs_bitor cmp (run a) (run b) = Ret (run ops) /\
    forall k, mem ops k = mem a k || mem b k.
  Proof. exact (sbitor HO). Qed.
  Theorem C49_bitand : forall a b, exists ops, rs_bitand cmp (run a) (run b) = Ret (run ops) /\
    forall k, mem ops k = mem a k && mem b k.
  Proof. exact (sbitand HO). Qed.
  (** every program over sets evaluates without panicking to a set that some
      plain history reaches *)
  Theorem C49_closed : forall x, exists ops, rs_eval cmp x = Ret (run ops) /\
    forall k, mem ops k = memx x k.
  Proof. exact (seval HO). Qed.

  Example C49_example :
    omap rs_iter (rs_bitor Z.compare (zset sa_ops) (zset sb_ops)) =
      Ret [(mkR 0 12, tt); (mkR 20 60, tt)] /\
    omap rs_iter (rs_bitand Z.compare (zset sa_ops) (zset sb_ops)) =
      Ret [(mkR 3 4, tt); (mkR 6 8, tt); (mkR 28 35, tt); (mkR 50 55, tt)] /\
    omap rs_iter (rs_eval Z.compare
      (XOp (XAnd (XOr (XOp XNew (SInsert (mkR 0 9))) (XOp XNew (SInsert (mkR 9 20)))) (XOp XNew (SInsert (mkR 5 30))))
           (SRemove (mkR 8 10)))) = Ret [(mkR 5 8, tt); (mkR 10 20, tt)].
  Proof. vm_compute. auto. Qed.

  (** ** C50 *)
  (** two programs give == sets iff they are equal in the Boolean algebra of
      functions [K -> bool] *)
  Theorem C50_eq_iff_boolean_identity : forall x y, exists a b,
    rs_eval cmp x = Ret a /\ rs_eval cmp y = Ret b /\
    (rs_eqb cmp a b = true <-> forall k, memx x k = memx y k).
  Proof. exact (seval_eq HO). Qed.
  Definition law (x y : sexp (range K)) : Prop := exists a b,
    rs_eval cmp x = Ret a /\ rs_eval cmp y = Ret b /\ rs_eqb cmp a b = true.
  Lemma law_of x y : (forall k, memx x k = memx y k) -> law x y.
  Proof. intros H. destruct (seval_eq HO x y) as (a & b & H1 & H2 & H3). exists a, b. rewrite H3. auto. Qed.
  Ltac law_tac := intros; repeat split; apply law_of; intros k; cbn;
    repeat match goal with |- context [mem_sexp _ _ ?x k] => destruct (mem_sexp valid covers x k) end; reflexivity.
  Theorem C50_commutative : forall x y, law (XOr x y) (XOr y x) /\ law (XAnd x y) (XAnd y x).
  Proof. law_tac. Qed.
  Theorem C50_associative : forall x y z,
    law (XOr (XOr x y) z) (XOr x (XOr y z)) /\ law (XAnd (XAnd x y) z) (XAnd x (XAnd y z)).
  Proof. law_tac. Qed.
  Theorem C50_idempotent : forall x, law (XOr x x) x /\ law (XAnd x x) x.
  Proof. law_tac. Qed.
  Theorem C50_absorptive : forall x y, law (XOr x (XAnd x y)) x /\ law (XAnd x (XOr x y)) x.
  Proof. law_tac. Qed.
  Theorem C50_distributive : forall x y z,
    law (XAnd x (XOr y z)) (XOr (XAnd x y) (XAnd x z)) /\
    law (XOr x (XAnd y z)) (XAnd (XOr x y) (XOr x z)).
  Proof. law_tac. Qed.
  Theorem C50_empty_unit_zero : forall x, law (XOr x XNew) x /\ law (XAnd x XNew) XNew.
  Proof. law_tac. Qed.
  (** inserting a range is union with it; removing it distributes over both *)
  Theorem C50_updates : forall x y r, valid r = true ->
    law (XOp x (SInsert r)) (XOr x (XOp XNew (SInsert r))) /\
    law (XOp (XOr x y) (SRemove r)) (XOr (XOp x (SRemove r)) (XOp y (SRemove r))) /\
    law (XOp (XAnd x y) (SRemove r)) (XAnd (XOp x (SRemove r)) y).
  Proof.
    intros x y r Hr. repeat split; apply law_of; intros k; cbn; rewrite Hr;
      destruct (covers r k); cbn; destruct (memx x k); try destruct (memx y k); reflexivity.
  Qed.

  Example C50_example :
    let x := XOp (XOp XNew (SInsert (mkR 0 10))) (SRemove (mkR 4 6)) in
    let y := XOp XNew (SInsert (mkR 3 20)) in
    let z := XOp XNew (SExtend [mkR 8 9; mkR 30 40]) in
    rs_eval Z.compare (XAnd x (XOr y z)) = rs_eval Z.compare (XOr (XAnd x y) (XAnd x z)) /\
    omap rs_iter (rs_eval Z.compare (XAnd x (XOr y z))) = Ret [(mkR 3 4, tt); (mkR 6 10, tt)] /\
    valid_range Z.compare (mkR 4 6) = true.
  Proof. vm_compute. auto. Qed.

  (** ** C52 *)
  Theorem C52_gaps_exact : forall ops outer, exists g gs, rs_gaps cmp (run ops) outer = Ret g /\
    (forall n, nexts (rs_gaps_next cmp) n g = yields n gs) /\
    runs_of cmp (fun k => covers outer k && negb (mem ops k)) gs.
  Proof. exact (sgaps HO). Qed.
  (** collecting the gaps gives the complement within [outer] *)
  Theorem C52_gaps_complement : forall ops outer, exists g gs c,
    rs_gaps cmp (run ops) outer = Ret g /\ (forall n, nexts (rs_gaps_next cmp) n g = yields n gs) /\
    rs_from_iter cmp gs = Ret c /\
    forall k, rs_contains cmp c k = Ret (covers outer k && negb (mem ops k)).
  Proof. exact (sgaps_collect HO). Qed.
  Theorem C52_overlapping_schedules : forall ops q sched,
    exists o, rs_overlapping cmp (run ops) q = Ret o /\
      map fst (sched_trace (both (rs_ov_next cmp) (rs_ov_next_back cmp)) (fun _ => tt) sched o) =
      deque_run sched (filter (meets cmp q) (ranges (run ops))).
  Proof. exact (soverlapping HO). Qed.
  Theorem C52_overlaps_exact : forall ops q, valid q = true ->
    exists b, rs_overlaps cmp (run ops) q = Ret b /\
      (b = true <-> exists k, covers q k = true /\ mem ops k = true).
  Proof. exact (soverlaps_exact HO). Qed.
  Theorem C52_first_last : forall ops,
    match rs_first (run ops), rs_last (run ops) with
    | None, None => forall k, mem ops k = false
    | Some a, Some b =>
        In a (ranges (run ops)) /\ In b (ranges (run ops)) /\
        (forall r, In r (ranges (run ops)) ->
           (r = a \/ ltb cmp (r_end a) (r_start r) = true) /\
           (r = b \/ ltb cmp (r_end r) (r_start b) = true))
    | _, _ => False
    end.
  Proof. exact (sfirst_last HO). Qed.
  Theorem C52_len_empty_clear : forall ops,
    rs_len (run ops) = length (ranges (run ops)) /\
    (rs_is_empty (run ops) = true <-> forall k, mem ops k = false) /\
    run (ops ++ [SClear]) = rs_new.
  Proof. exact (slen_empty HO). Qed.
  Theorem C52_iter_schedules : forall ops sched,
    sched_trace (both rs_iter_next rs_iter_next_back) rs_iter_size_hint sched (rs_iter (run ops)) =
      sched_trace deque_step (fun r => (length r, Some (length r))) sched (ranges (run ops)) /\
    sched_trace (both rs_iter_next rs_iter_next_back) rs_iter_size_hint sched (rs_into_iter (run ops)) =
      sched_trace deque_step (fun r => (length r, Some (length r))) sched (ranges (run ops)).
  Proof. exact (fun ops sched => conj (siter_schedule _ sched) (siter_schedule _ sched)). Qed.
  (** bulk insertion inserts one by one up to the first invalid range *)
  Theorem C52_extend : forall ops good bad,
    (forall r, In r good -> valid r = true) ->
    match bad with [] => True | r :: _ => valid r = false end ->
    rs_extend cmp (good ++ bad) (run ops) =
      (match bad with [] => Ret tt | _ => Panicked PAssert end, run (ops ++ map SInsert good)).
  Proof. exact (sextend HO). Qed.
  Theorem C52_from_iter : forall good bad,
    (forall r, In r good -> valid r = true) ->
    match bad with [] => True | r :: _ => valid r = false end ->
    rs_from_iter cmp (good ++ bad) =
      match bad with [] => Ret (run (map SInsert good)) | _ => Panicked PAssert end /\
    rs_from_array cmp (good ++ bad) = rs_from_iter cmp (good ++ bad).
  Proof. exact (fun good bad H1 H2 => conj (sfrom_iter HO good bad H1 H2) (from_array_iter _)). Qed.
  Theorem C52_serde_round_trip : forall E ops,
    rs_deserialize (E := E) cmp (map inr (snd (rs_serialize (run ops)))) = Ret (inr (run ops)) /\
    fst (rs_serialize (run ops)) = Some (length (snd (rs_serialize (run ops)))).
  Proof. exact (sround_trip HO). Qed.
  Theorem C52_deserialize_any : forall E good (rest : list (E + K * K)),
    (forall s e, In (s, e) good -> ltb cmp s e = true) ->
    match rest with inr (s, e) :: _ => ltb cmp s e = false | _ => True end ->
    rs_deserialize cmp (map inr good ++ rest) =
    match rest with
    | [] => Ret (inr (run (map (fun p => SInsert (mkR (fst p) (snd p))) good)))
    | inl err :: _ => Ret (inl err)
    | inr _ :: _ => Panicked PAssert
    end.
  Proof. exact (sdeserialize HO). Qed.

  Example C52_example :
    omap (nexts (rs_gaps_next Z.compare) 5) (rs_gaps Z.compare (zset sa_ops) (mkR 2 40)) =
      Ret [Some (mkR 4 6); Some (mkR 10 20); Some (mkR 35 40); None; None] /\
    omap (fun o => map fst (sched_trace (both (rs_ov_next Z.compare) (rs_ov_next_back Z.compare)) (fun _ => tt)
                              [Back; Front; Front; Back] o))
         (rs_overlapping Z.compare (zset sa_ops) (mkR 3 21)) =
      Ret [Some (mkR 20 35); Some (mkR 0 4); Some (mkR 6 10); None] /\
    rs_overlaps Z.compare (zset sa_ops) (mkR 4 6) = Ret false /\
    (rs_first (zset sa_ops), rs_last (zset sa_ops)) = (Some (mkR 0 4), Some (mkR 50 60)) /\
    rs_from_iter Z.compare [mkR 1 5; mkR 5 9; mkR 3 3] = Panicked PAssert /\
    rs_deserialize (E := Z) Z.compare [inr (1, 5); inr (7, 9)] = Ret (inr [(mkR 1 5, tt); (mkR 7 9, tt)]) /\
    rs_deserialize (E := Z) Z.compare [inr (1, 5); inl 3; inr (9, 7)] = Ret (inl 3) /\
    rs_deserialize (E := Z) Z.compare [inr (1, 5); inr (9, 7)] = Panicked PAssert.
  Proof. vm_compute. repeat split. Qed.
End Props.

Print Assumptions C45_membership.
Print Assumptions C45_insert_outcome.
Print Assumptions C45_remove_outcome.
Print Assumptions C46_iter_maximal_runs.
Print Assumptions C46_get_iff.
Print Assumptions C46_get_none.
Print Assumptions C46_get_maximal.
Print Assumptions C46_eq_iff_same_members.
Print Assumptions C46_ord_consistent.
Print Assumptions C46_hash_consistent.
Print Assumptions C46_hash_separates.
Print Assumptions C47_union_iterator.
Print Assumptions C48_intersection_iterator.
Print Assumptions C51_union_coalesces_refuted.
Print Assumptions C49_bitor.
Print Assumptions C49_bitand.
Print Assumptions C49_closed.
Print Assumptions C50_eq_iff_boolean_identity.
Print Assumptions C50_commutative.
Print Assumptions C50_associative.
Print Assumptions C50_idempotent.
Print Assumptions C50_absorptive.
Print Assumptions C50_distributive.
Print Assumptions C50_empty_unit_zero.
Print Assumptions C50_updates.
Print Assumptions C52_gaps_exact.
Print Assumptions C52_gaps_complement.
Print Assumptions C52_overlapping_schedules.
Print Assumptions C52_overlaps_exact.
Print Assumptions C52_first_last.
Print Assumptions C52_len_empty_clear.
Print Assumptions C52_iter_schedules.
Print Assumptions C52_extend.
Print Assumptions C52_from_iter.
Print Assumptions C52_serde_round_trip.
Print Assumptions C52_deserialize_any.
