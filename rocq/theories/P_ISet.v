(** Properties of [RangeInclusiveSet] (C53-C57).  [run ops] is the set reached
    by the history [ops] from the empty set, [mem ops] the membership function
    the history describes (Spec.v); [fresh_sops ops]: no inserted range has been
    iterated to exhaustion (C38); where it is not assumed the theorem is about
    exhausted ranges too.  C56_closed extends every theorem below to
    sets built with [|] and [&]. *)
From Coq Require Import List Bool Sorting.Sorted ZArith.
From Verif Require Import Order Outcome BTree Ranges History Spec MapModel IMapModel OpsModel SetModel ISetModel
  StepModel StepFacts OpsProofs SetFacts IMapProps ISetProps Exhausted ExhaustedSet Tiling ISetAny Instances.
Import ListNotations.

(** Example data *)
Local Open Scope Z_scope.
Definition isa_ops : list (sop (rangei Z)) :=
  [SInsert (incl 0 9); SInsert (incl 20 29); SRemove (incl 4 5); SInsert (incl 9 8); SExtend [incl 30 34; incl 50 59]].
Definition isb_ops : list (sop (rangei Z)) :=
  [SInsert (incl 100 109); SClear; SExtend [incl 10 11; incl 3 7; incl 7 6; incl 0 99]; SInsert (incl 28 54)].
Notation zset := (is_run Z.compare zst).
Notation zranges ops := (map fst (is_iter (zset ops))).
Example isa_run : zranges isa_ops = [incl 0 3; incl 6 9; incl 20 34; incl 50 59] /\ fresh_sops isa_ops.
Proof. vm_compute. auto. Qed.
Example isb_run : zranges isb_ops = [incl 3 7; incl 10 11; incl 28 54] /\ fresh_sops isb_ops.
Proof. vm_compute. auto. Qed.
(** [u8] sets touching both extremes *)
Definition u8s_ops : list (sop (rangei (ival u8))) :=
  [SInsert (incl (b8 0) (b8 255)); SRemove (incl (b8 0) (b8 0)); SRemove (incl (b8 255) (b8 255));
   SRemove (incl (b8 100) (b8 110)); SInsert (incl (b8 255) (b8 255))].
Definition u8t_ops : list (sop (rangei (ival u8))) := [SInsert (incl (b8 0) (b8 104)); SInsert (incl (b8 255) (b8 255))].
Notation u8set md := (is_run (icmp u8) (int_steps md u8)).
Example u8s_run :
  u8_show (u8set Checked u8s_ops) = [(1, 99, tt); (111, 255, tt)] /\
  u8_show (u8set Wrapping u8s_ops) = [(1, 99, tt); (111, 255, tt)] /\ fresh_sops u8s_ops /\ fresh_sops u8t_ops /\
  TotalOrd (icmp u8) /\ StepLaws (icmp u8) (int_steps Checked u8) /\ StepLaws (icmp u8) (int_steps Wrapping u8).
Proof.
  split; [reflexivity|]. split; [reflexivity|]. split; [reflexivity|]. split; [reflexivity|].
  exact (conj (int_order u8) (conj (int_steplaws u8 Checked eq_refl) (int_steplaws u8 Wrapping eq_refl))).
Qed.

Section Props.
  Context {K : Type} {cmp : K -> K -> comparison} {st : stepfns K}.
  Context (HO : TotalOrd cmp) (HS : StepLaws cmp st).

  Notation run := (is_run cmp st).
  Notation valid := (valid_rangei cmp).
  Notation covers := (in_rangei cmp).
  Notation mem := (mem_run valid covers).
  Notation memx := (mem_sexp valid covers).
  Notation ranges s := (map fst (is_iter s)).

  (** ** C53 *)
  Theorem C53_membership : forall ops k, fresh_sops ops -> is_contains cmp (run ops) k = Ret (mem ops k).
  Proof. exact (isrun_contains HO HS). Qed.
  (** what the ranges cover, and for unexhausted ranges what lookups see *)
  Theorem C53_insert_outcome : forall ops r,
    if valid r
    then exists s', is_insert cmp st r (run ops) = (Ret tt, s') /\
           (forall k, (exists q, In q (ranges s') /\ covers q k = true) <-> covers r k || mem ops k = true) /\
           (fresh_sops ops -> ri_exhausted r = false -> forall k, is_contains cmp s' k = Ret (covers r k || mem ops k))
    else is_insert cmp st r (run ops) = (Panicked PAssert, run ops).
  Proof. exact (anys_insert_outcome HO HS). Qed.
  Theorem C53_remove_outcome : forall ops r,
    if valid r
    then exists s', is_remove cmp st r (run ops) = (Ret tt, s') /\
           (forall k, (exists q, In q (ranges s') /\ covers q k = true) <-> negb (covers r k) && mem ops k = true) /\
           (fresh_sops ops -> forall k, is_contains cmp s' k = Ret (negb (covers r k) && mem ops k))
    else is_remove cmp st r (run ops) = (Panicked PAssert, run ops).
  Proof. exact (anys_remove_outcome HO HS). Qed.

  Example C53_example : TotalOrd Z.compare /\ StepLaws Z.compare zst /\
    map (is_contains Z.compare (zset isa_ops)) [-1; 0; 4; 5; 6; 9; 10; 34; 35] =
    map Ret [false; true; false; false; true; true; false; true; false] /\
    map (is_contains (icmp u8) (u8set Checked u8s_ops)) [b8 0; b8 1; b8 105; b8 254; b8 255] =
    map Ret [false; true; false; true; true] /\
    fst (is_insert Z.compare zst (incl 5 5) (zset isa_ops)) = Ret tt /\
    is_insert Z.compare zst (incl 5 4) (zset isa_ops) = (Panicked PAssert, zset isa_ops) /\
    is_remove Z.compare zst (incl 5 4) (zset isa_ops) = (Panicked PAssert, zset isa_ops).
  Proof. split; [exact Z_order|]. split; [exact zst_laws|]. vm_compute. auto 10. Qed.

  (** ** C54 *)
  Theorem C54_iter_maximal_runs : forall ops, fresh_sops ops -> runsi_of cmp (mem ops) (ranges (run ops)).
  Proof. exact (isrun_runs HO HS). Qed.
  Theorem C54_get_iff : forall ops k r, fresh_sops ops ->
    is_get cmp (run ops) k = Ret (Some r) <-> In r (ranges (run ops)) /\ covers r k = true.
  Proof. exact (isget_iff HO HS). Qed.
  Theorem C54_get_none : forall ops k, fresh_sops ops -> is_get cmp (run ops) k = Ret None <-> mem ops k = false.
  Proof. exact (isget_none HO HS). Qed.
  Theorem C54_get_maximal : forall ops k r r',
    is_get cmp (run ops) k = Ret (Some r) ->
    leb cmp (ri_start r') (ri_start r) = true -> leb cmp (ri_end r) (ri_end r') = true ->
    (forall k', covers r' k' = true -> mem ops k' = true) ->
    eqb cmp (ri_start r') (ri_start r) = true /\ eqb cmp (ri_end r') (ri_end r) = true.
  Proof. exact (anys_get_maximal HO HS). Qed.
  (** stored ranges are maximal, whether or not [get] shows them *)
  Theorem C54_maximal : forall ops r r', In r (ranges (run ops)) ->
    leb cmp (ri_start r') (ri_start r) = true -> leb cmp (ri_end r) (ri_end r') = true ->
    (forall k', covers r' k' = true -> mem ops k' = true) ->
    eqb cmp (ri_start r') (ri_start r) = true /\ eqb cmp (ri_end r') (ri_end r) = true.
  Proof. exact (anys_maximal HO HS). Qed.
  Theorem C54_eq_iff_same_members : forall a b, fresh_sops a -> fresh_sops b ->
    is_eqb cmp (run a) (run b) = true <-> forall k, mem a k = mem b k.
  Proof. exact (iseqb_spec HO HS). Qed.
  Theorem C54_eq_same_members : forall a b,
    is_eqb cmp (run a) (run b) = true -> forall k, mem a k = mem b k.
  Proof. exact (fun a b => proj1 (anys_eq HO HS a b)). Qed.
  Theorem C54_ord_consistent : TotalOrd (is_cmp cmp) /\
    forall a b, is_cmp cmp (run a) (run b) = Eq <-> forall k, mem a k = mem b k.
  Proof. exact (anys_cmp HO HS). Qed.
  Theorem C54_hash_consistent : forall T (hk : K -> list T) (hb : bool -> list T),
    (forall x y, eqb cmp x y = true -> hk x = hk y) ->
    forall a b, fresh_sops a -> fresh_sops b ->
    (forall k, mem a k = mem b k) -> is_hash hk hb (run a) = is_hash hk hb (run b).
  Proof. exact (fun T => ishash HO HS (T := T)). Qed.
  Theorem C54_hash_separates : forall T (hk : K -> list T) (hb : bool -> list T),
    (forall x y s t, hk x ++ s = hk y ++ t -> eqb cmp x y = true /\ hk x = hk y) ->
    (forall x y s t, hb x ++ s = hb y ++ t -> x = y) ->
    forall a b s t, is_hash hk hb (run a) ++ s = is_hash hk hb (run b) ++ t -> (forall k, mem a k = mem b k) /\ s = t.
  Proof. exact (fun T => anys_hash_separates HO HS (T := T)). Qed.

  Example C54_example :
    is_get Z.compare (zset isa_ops) 34 = Ret (Some (incl 20 34)) /\
    is_get Z.compare (zset isa_ops) 5 = Ret None /\
    is_eqb Z.compare (zset isa_ops)
      (zset [SExtend [incl 50 59; incl 6 8; incl 20 32; incl 9 9; incl 0 3; incl 31 34]]) = true /\
    is_eqb Z.compare (zset isa_ops) (zset isb_ops) = false /\
    is_hash (fun k => [k]) (fun x => [Z.b2z x]) (zset [SInsert (incl 6 7); SInsert (incl 8 8)]) =
      [HLen 1; HUser 6; HUser 8; HUser 0] /\
    (forall k, in_rangei Z.compare (incl 20 34) k = true ->
       mem_run (valid_rangei Z.compare) (in_rangei Z.compare) isa_ops k = true).
  Proof.
    split; [reflexivity|]. split; [reflexivity|]. split; [reflexivity|]. split; [reflexivity|].
    split; [reflexivity|].
    intros k H. apply (proj2 (proj2 (isrun_runs Z_order zst_laws isa_ops eq_refl))). exists (incl 20 34).
    split; [|exact H]. rewrite (proj1 isa_run). cbn. auto.
  Qed.

  (** ** C55 *)
  Theorem C55_union_iterator : forall a b, fresh_sops a -> fresh_sops b -> exists us,
    (forall n, nexts_m (is_union_next cmp) n (is_union (run a) (run b)) = map Ret (yields n us)) /\
    piecesi_of cmp (fun k => mem a k || mem b k) us /\
    weldedi cmp (map fst (is_iter (run a)) ++ map fst (is_iter (run b))) us /\
    (length us <= is_len (run a) + is_len (run b))%nat.
  Proof. exact (isunion HO HS). Qed.
  Theorem C55_intersection_iterator : forall a b, exists us,
    (forall n, nexts_m (is_intersection_next cmp) n (is_intersection (run a) (run b)) = map Ret (yields n us)) /\
    runsi_of cmp (fun k => mem a k && mem b k) us /\
    (length us <= is_len (run a) + is_len (run b))%nat.
  Proof. exact (xs_intersection HO HS). Qed.
  (** 'the union iterator yields maximal runs' is false here too *)
  Theorem C55_union_coalesces_refuted : exists a b us, fresh_sops a /\ fresh_sops b /\
    (forall n, nexts_m (is_union_next Z.compare) n (is_union (zset a) (zset b)) = map Ret (yields n us)) /\
    us = [incl 0 4; incl 5 9] /\
    ~ runsi_of Z.compare (mem_run (valid_rangei Z.compare) (in_rangei Z.compare) (a ++ b)) us.
  Proof.
    exists [SInsert (incl 0 4)], [SInsert (incl 5 9)], [incl 0 4; incl 5 9].
    split; [reflexivity|]. split; [reflexivity|]. split; [|split; [reflexivity|]].
    - destruct (isunion Z_order zst_laws [SInsert (incl 0 4)] [SInsert (incl 5 9)] eq_refl eq_refl) as (us & H & _ & _ & Hl).
      assert (E : us = [incl 0 4; incl 5 9]); [|rewrite E in H; exact H].
      pose proof (H 3%nat) as H3. vm_compute in H3.
      destruct us as [|r1 [|r2 [|r3 us]]]; vm_compute in H3; injection H3; intros; subst; try discriminate; reflexivity.
    - intros (_ & H & _). inversion H as [|x l _ HF E1]. inversion HF as [|y l' (k & Hy1 & Hy2) _ E2].
      unfold ltb, incl in Hy1, Hy2. cbn [ri_start ri_end] in Hy1, Hy2.
      destruct (Z.compare_spec 4 k); destruct (Z.compare_spec k 5); try discriminate. Lia.lia.
  Qed.

  Example C55_example :
    nexts_m (is_union_next Z.compare) 6 (is_union (zset isa_ops) (zset isb_ops)) =
      map Ret [Some (incl 0 9); Some (incl 10 11); Some (incl 20 59); None; None; None] /\
    nexts_m (is_intersection_next Z.compare) 6 (is_intersection (zset isa_ops) (zset isb_ops)) =
      map Ret [Some (incl 3 3); Some (incl 6 7); Some (incl 28 34); Some (incl 50 54); None; None].
  Proof. vm_compute. auto. Qed.

  (** ** C56 *)
  Theorem C56_bitor : forall a b, exists ops, (fresh_sops a -> fresh_sops b -> fresh_sops ops) /\
    is_bitor cmp st (run a) (run b) = Ret (run ops) /\ forall k, mem ops k = mem a k || mem b k.
  Proof. exact (anys_bitor HO HS). Qed.
  Theorem C56_bitand : forall a b, exists ops, (fresh_sops a -> fresh_sops b -> fresh_sops ops) /\
    is_bitand cmp st (run a) (run b) = Ret (run ops) /\ forall k, mem ops k = mem a k && mem b k.
  Proof. exact (anys_bitand HO HS). Qed.
  Theorem C56_closed : forall x, exists ops, (fresh_sexp x = true -> fresh_sops ops) /\
    is_eval cmp st x = Ret (run ops) /\ forall k, mem ops k = memx x k.
  Proof. exact (anys_eval HO HS). Qed.
  Theorem C56_eq_iff_boolean_identity : forall x y, fresh_sexp x = true -> fresh_sexp y = true -> exists a b,
    is_eval cmp st x = Ret a /\ is_eval cmp st y = Ret b /\
    (is_eqb cmp a b = true <-> forall k, memx x k = memx y k).
  Proof. exact (iseval_eq HO HS). Qed.
  (** Both sides are evaluated and [cmp] finds no difference; they are [==] unless
      a range iterated to exhaustion was inserted. *)
  Definition lawi (x y : sexp (rangei K)) : Prop := exists a b,
    is_eval cmp st x = Ret a /\ is_eval cmp st y = Ret b /\ is_cmp cmp a b = Eq /\
    (fresh_sexp x = true -> fresh_sexp y = true -> is_eqb cmp a b = true).
  Lemma lawi_of x y : (forall k, memx x k = memx y k) -> lawi x y.
  Proof.
    intros H. destruct (xs_eval_cmp HO HS x y) as (a & b & A & B & E). exists a, b.
    refine (conj A (conj B (conj (proj2 E H) _))). intros Hx Hy.
    destruct (iseval_eq HO HS x y Hx Hy) as (a' & b' & A' & B' & E').
    rewrite A in A'. rewrite B in B'. injection A' as <-. injection B' as <-. apply E', H.
  Qed.
  Ltac law_tac := intros; repeat split; apply lawi_of; cbn;
    intros k; repeat match goal with |- context [mem_sexp _ _ ?x k] => destruct (mem_sexp valid covers x k) end;
    reflexivity.
  Theorem C56_commutative : forall x y, lawi (XOr x y) (XOr y x) /\ lawi (XAnd x y) (XAnd y x).
  Proof. law_tac. Qed.
  Theorem C56_associative : forall x y z,
    lawi (XOr (XOr x y) z) (XOr x (XOr y z)) /\ lawi (XAnd (XAnd x y) z) (XAnd x (XAnd y z)).
  Proof. law_tac. Qed.
  Theorem C56_idempotent : forall x, lawi (XOr x x) x /\ lawi (XAnd x x) x.
  Proof. law_tac. Qed.
  Theorem C56_absorptive : forall x y, lawi (XOr x (XAnd x y)) x /\ lawi (XAnd x (XOr x y)) x.
  Proof. law_tac. Qed.
  Theorem C56_distributive : forall x y z,
    lawi (XAnd x (XOr y z)) (XOr (XAnd x y) (XAnd x z)) /\
    lawi (XOr x (XAnd y z)) (XAnd (XOr x y) (XOr x z)).
  Proof. law_tac. Qed.
  Theorem C56_empty_unit_zero : forall x, lawi (XOr x XNew) x /\ lawi (XAnd x XNew) XNew.
  Proof. law_tac. Qed.
  Theorem C56_updates : forall x y r, valid r = true ->
    lawi (XOp x (SInsert r)) (XOr x (XOp XNew (SInsert r))) /\
    lawi (XOp (XOr x y) (SRemove r)) (XOr (XOp x (SRemove r)) (XOp y (SRemove r))) /\
    lawi (XOp (XAnd x y) (SRemove r)) (XAnd (XOp x (SRemove r)) y).
  Proof.
    intros x y r Hr. repeat split; apply lawi_of; cbn;
      intros k; rewrite Hr; destruct (covers r k); cbn; destruct (memx x k); try destruct (memx y k); reflexivity.
  Qed.

  Example C56_example :
    omap is_iter (is_bitor Z.compare zst (zset isa_ops) (zset isb_ops)) =
      Ret [(incl 0 11, tt); (incl 20 59, tt)] /\
    omap is_iter (is_bitand Z.compare zst (zset isa_ops) (zset isb_ops)) =
      Ret [(incl 3 3, tt); (incl 6 7, tt); (incl 28 34, tt); (incl 50 54, tt)] /\
    omap u8_show (is_bitor (icmp u8) (int_steps Checked u8) (u8set Checked u8s_ops) (u8set Checked u8t_ops)) =
      Ret [(0, 104, tt); (111, 255, tt)] /\
    omap u8_show (is_bitand (icmp u8) (int_steps Checked u8) (u8set Checked u8s_ops) (u8set Checked u8t_ops)) =
      Ret [(1, 99, tt); (255, 255, tt)] /\
    (let x := XOp (XOp XNew (SInsert (incl 0 9))) (SRemove (incl 4 5)) in
     let y := XOp XNew (SInsert (incl 3 19)) in
     let z := XOp XNew (SExtend [incl 8 8; incl 30 39]) in
     fresh_sexp x = true /\ fresh_sexp y = true /\ fresh_sexp z = true /\
     is_eval Z.compare zst (XAnd x (XOr y z)) = is_eval Z.compare zst (XOr (XAnd x y) (XAnd x z)) /\
     omap is_iter (is_eval Z.compare zst (XAnd x (XOr y z))) = Ret [(incl 3 3, tt); (incl 6 9, tt)]).
  Proof. vm_compute. auto 10. Qed.

  (** ** C57 *)
  Theorem C57_gaps_exact : forall ops outer, exists g gs, is_gaps cmp (run ops) outer = Ret g /\
    (forall n, nexts_m (is_gaps_next cmp st) n g = map Ret (yields n gs)) /\
    runsi_of cmp (fun k => covers outer k && negb (mem ops k)) gs.
  Proof. exact (xs_gaps HO HS). Qed.
  Theorem C57_gaps_complement : forall ops outer, exists g gs c,
    is_gaps cmp (run ops) outer = Ret g /\
    (forall n, nexts_m (is_gaps_next cmp st) n g = map Ret (yields n gs)) /\
    is_from_iter cmp st gs = Ret c /\
    forall k, is_contains cmp c k = Ret (covers outer k && negb (mem ops k)).
  Proof. exact (anys_gaps_collect HO HS). Qed.
  Theorem C57_overlapping_schedules : forall ops q sched,
    exists o, is_overlapping cmp (run ops) q = Ret o /\
      map fst (sched_trace (both (is_ov_next cmp) (is_ov_next_back cmp)) (fun _ => tt) sched o) =
      deque_run sched (filter (meetsi cmp q) (ranges (run ops))).
  Proof. exact (iset_overlapping HO HS). Qed.
  Theorem C57_overlaps_exact : forall ops q, valid q = true ->
    exists b, is_overlaps cmp (run ops) q = Ret b /\
      (b = true <-> exists k, covers q k = true /\ mem ops k = true).
  Proof. exact (anys_overlaps HO HS). Qed.
  Theorem C57_first_last : forall ops,
    match is_first (run ops), is_last (run ops) with
    | None, None => forall k, mem ops k = false
    | Some a, Some b =>
        In a (ranges (run ops)) /\ In b (ranges (run ops)) /\
        (forall r, In r (ranges (run ops)) ->
           (r = a \/ ltb cmp (ri_end a) (ri_start r) = true) /\
           (r = b \/ ltb cmp (ri_end r) (ri_start b) = true))
    | _, _ => False
    end.
  Proof. exact (anys_first_last HO HS). Qed.
  Theorem C57_len_empty_clear : forall ops,
    is_len (run ops) = length (ranges (run ops)) /\
    (is_is_empty (run ops) = true <-> forall k, mem ops k = false) /\
    run (ops ++ [SClear]) = is_new.
  Proof. exact (anys_len_empty HO HS). Qed.
  Theorem C57_iter_schedules : forall ops sched,
    sched_trace (both is_iter_next is_iter_next_back) is_iter_size_hint sched (is_iter (run ops)) =
      sched_trace deque_step (fun r => (length r, Some (length r))) sched (ranges (run ops)) /\
    sched_trace (both is_iter_next is_iter_next_back) is_iter_size_hint sched (is_into_iter (run ops)) =
      sched_trace deque_step (fun r => (length r, Some (length r))) sched (ranges (run ops)).
  Proof. exact (fun ops sched => conj (isiter_schedule _ sched) (isiter_schedule _ sched)). Qed.
  Theorem C57_extend : forall ops good bad,
    (forall r, In r good -> valid r = true) ->
    match bad with [] => True | r :: _ => valid r = false end ->
    is_extend cmp st (good ++ bad) (run ops) =
      (match bad with [] => Ret tt | _ => Panicked PAssert end, run (ops ++ map SInsert good)).
  Proof. exact (fun ops good bad => anys_extend HO HS good ops bad). Qed.
  Theorem C57_from_iter : forall good bad,
    (forall r, In r good -> valid r = true) ->
    match bad with [] => True | r :: _ => valid r = false end ->
    is_from_iter cmp st (good ++ bad) =
      match bad with [] => Ret (run (map SInsert good)) | _ => Panicked PAssert end /\
    is_from_array cmp st (good ++ bad) = is_from_iter cmp st (good ++ bad).
  Proof. exact (fun good bad H1 H2 => conj (anys_from_iter HO HS good bad H1 H2) (ifrom_array_iter _)). Qed.
  (** serde gives the same set, without the flags *)
  Theorem C57_serde_round_trip : forall E ops,
    is_deserialize (E := E) cmp st (map inr (snd (is_serialize (run ops)))) = Ret (inr (map freshen_entry (run ops))) /\
    fst (is_serialize (run ops)) = Some (length (snd (is_serialize (run ops)))) /\
    (fresh_sops ops -> map freshen_entry (run ops) = run ops).
  Proof. exact (anys_round_trip HO HS). Qed.
  Theorem C57_deserialize_any : forall E good (rest : list (E + K * K)),
    (forall s e, In (s, e) good -> leb cmp s e = true) ->
    match rest with inr (s, e) :: _ => leb cmp s e = false | _ => True end ->
    is_deserialize cmp st (map inr good ++ rest) =
    match rest with
    | [] => Ret (inr (run (map (fun p => SInsert (incl (fst p) (snd p))) good)))
    | inl err :: _ => Ret (inl err)
    | inr _ :: _ => Panicked PAssert
    end.
  Proof. exact (isdeserialize HO HS). Qed.

  Example C57_example :
    omap (nexts_m (is_gaps_next Z.compare zst) 5) (is_gaps Z.compare (zset isa_ops) (incl 2 39)) =
      Ret (map Ret [Some (incl 4 5); Some (incl 10 19); Some (incl 35 39); None; None]) /\
    omap (fun o => map fst (sched_trace (both (is_ov_next Z.compare) (is_ov_next_back Z.compare)) (fun _ => tt)
                              [Back; Front; Front; Back] o))
         (is_overlapping Z.compare (zset isa_ops) (incl 3 20)) =
      Ret [Some (incl 20 34); Some (incl 0 3); Some (incl 6 9); None] /\
    is_overlaps Z.compare (zset isa_ops) (incl 4 5) = Ret false /\
    (is_first (zset isa_ops), is_last (zset isa_ops)) = (Some (incl 0 3), Some (incl 50 59)) /\
    is_from_iter Z.compare zst [incl 1 5; incl 5 9; incl 3 2] = Panicked PAssert /\
    is_deserialize (E := Z) Z.compare zst [inr (1, 5); inr (7, 9)] = Ret (inr [(incl 1 5, tt); (incl 7 9, tt)]) /\
    is_deserialize (E := Z) Z.compare zst [inr (1, 5); inl 3; inr (9, 7)] = Ret (inl 3) /\
    is_deserialize (E := Z) Z.compare zst [inr (1, 5); inr (9, 7)] = Panicked PAssert.
  Proof. vm_compute. repeat split. Qed.

  (** with exhausted ranges *)
  Example C57_example_exhausted :
    let xops := [SInsert (mkRI 0 4 true); SInsert (mkRI 8 9 true); SInsert (incl 5 5); SRemove (incl 20 22)] in
    ~ fresh_sops xops /\
    zranges xops = [incl 0 5; mkRI 8 9 true] /\
    map (is_contains Z.compare (zset xops)) [4; 8; 9] = map Ret [true; true; false] /\
    omap (nexts_m (is_gaps_next Z.compare zst) 3) (is_gaps Z.compare (zset xops) (incl 2 12)) =
      Ret (map Ret [Some (incl 6 7); Some (incl 10 12); None]) /\
    is_overlaps Z.compare (zset xops) (incl 9 9) = Ret true /\
    is_last (zset xops) = Some (mkRI 8 9 true) /\
    is_extend Z.compare zst [mkRI 6 7 true; incl 3 2] (zset xops) = (Panicked PAssert, [(incl 0 9, tt)]) /\
    is_eqb Z.compare (zset xops) (zset [SInsert (incl 0 5); SInsert (incl 8 9)]) = false /\
    is_cmp Z.compare (zset xops) (zset [SInsert (incl 0 5); SInsert (incl 8 9)]) = Eq /\
    omap is_iter (is_bitand Z.compare zst (zset xops) (zset [SInsert (incl 4 8)])) = Ret [(incl 4 5, tt); (incl 8 8, tt)].
  Proof. split; [discriminate|]. vm_compute. repeat split. Qed.
End Props.

Print Assumptions C53_membership.
Print Assumptions C53_insert_outcome.
Print Assumptions C53_remove_outcome.
Print Assumptions C54_iter_maximal_runs.
Print Assumptions C54_get_iff.
Print Assumptions C54_get_none.
Print Assumptions C54_get_maximal.
Print Assumptions C54_maximal.
Print Assumptions C54_eq_iff_same_members.
Print Assumptions C54_eq_same_members.
Print Assumptions C54_ord_consistent.
Print Assumptions C54_hash_consistent.
Print Assumptions C54_hash_separates.
Print Assumptions C55_union_iterator.
Print Assumptions C55_intersection_iterator.
Print Assumptions C55_union_coalesces_refuted.
Print Assumptions C56_bitor.
Print Assumptions C56_bitand.
Print Assumptions C56_closed.
Print Assumptions C56_eq_iff_boolean_identity.
Print Assumptions C56_commutative.
Print Assumptions C56_associative.
Print Assumptions C56_idempotent.
Print Assumptions C56_absorptive.
Print Assumptions C56_distributive.
Print Assumptions C56_empty_unit_zero.
Print Assumptions C56_updates.
Print Assumptions C57_gaps_exact.
Print Assumptions C57_gaps_complement.
Print Assumptions C57_overlapping_schedules.
Print Assumptions C57_overlaps_exact.
Print Assumptions C57_first_last.
Print Assumptions C57_len_empty_clear.
Print Assumptions C57_iter_schedules.
Print Assumptions C57_extend.
Print Assumptions C57_from_iter.
Print Assumptions C57_serde_round_trip.
Print Assumptions C57_deserialize_any.
