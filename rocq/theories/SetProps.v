(** The facts behind P_Set.v. *)
From Coq Require Import List Bool Sorting.Sorted ZArith Lia.
From Verif Require Import Order Outcome BTree Ranges History Spec MapModel OpsModel SetModel
  ListLemmas IterFacts MapProofs MapRemove MapFacts MapIter MapMore MapProps OpsProofs SetFacts Instances.
Import ListNotations.

Section Props.
  Context {K : Type} {cmp : K -> K -> comparison} (HO : TotalOrd cmp).

  Notation run := (rs_run cmp).
  Notation valid := (valid_range cmp).
  Notation covers := (in_range cmp).
  Notation mem := (mem_run valid covers).
  Notation ranges s := (map fst (rs_iter s)).
  Notation HV := unit_per.
  Notation WF' := (WF (cmp := cmp) (veqb := unit_eqb)).

  Lemma exec_to_op o s : rs_exec cmp o s = rm_exec cmp unit_eqb (to_op o) s.
  Proof.
    destruct o as [r|r| |l]; try reflexivity. cbn. unfold rs_extend, rm_extend.
    apply for_each_map. reflexivity.
  Qed.
  Lemma run_to_ops ops : run ops = rm_run cmp unit_eqb (to_ops ops).
  Proof. apply run_ops_map. apply exec_to_op. Qed.
  Lemma srun_WF ops : WF' (run ops).
  Proof. rewrite run_to_ops. apply (run_WF HO HV). Qed.
  Lemma srun_snoc ops o : run (ops ++ [o]) = snd (rs_exec cmp o (run ops)).
  Proof. unfold rs_run, run_ops. rewrite fold_left_app. reflexivity. Qed.
  Lemma srun_app a b : run (a ++ b) = run_ops (rs_exec cmp) b (run a).
  Proof. apply fold_left_app. Qed.

  (** ** Membership *)
  Lemma srun_contains ops k : rs_contains cmp (run ops) k = Ret (mem ops k).
  Proof.
    unfold rs_contains. rewrite run_to_ops, (contains_lk HO HV). f_equal.
    pose proof (run_lk HO HV (to_ops ops) k) as H. rewrite spec_mem in H.
    destruct (lk _ _), (mem ops k); cbn in H; tauto.
  Qed.
  Lemma sinsert_outcome ops r :
    if valid r
    then exists s', rs_insert cmp r (run ops) = (Ret tt, s') /\
           forall k, rs_contains cmp s' k = Ret (covers r k || mem ops k)
    else rs_insert cmp r (run ops) = (Panicked PAssert, run ops).
  Proof.
    pose proof (insert_outcome HO HV (to_ops ops) r tt) as H. rewrite <- run_to_ops in H.
    unfold rs_insert. destruct (valid r) eqn:E; [|exact H].
    destruct H as (m' & H & _). exists m'. split; [exact H|]. intros k.
    assert (Em : m' = run (ops ++ [SInsert r])).
    { rewrite srun_snoc. cbn. unfold rs_insert. rewrite H. reflexivity. }
    rewrite Em, srun_contains, mem_snoc. cbn. rewrite E. reflexivity.
  Qed.
  Lemma sremove_outcome ops r :
    if valid r
    then exists s', rs_remove cmp r (run ops) = (Ret tt, s') /\
           forall k, rs_contains cmp s' k = Ret (negb (covers r k) && mem ops k)
    else rs_remove cmp r (run ops) = (Panicked PAssert, run ops).
  Proof.
    pose proof (remove_outcome HO HV (to_ops ops) r) as H. rewrite <- run_to_ops in H.
    unfold rs_remove. destruct (valid r) eqn:E; [|exact H].
    destruct H as (m' & H & _). exists m'. split; [exact H|]. intros k.
    assert (Em : m' = run (ops ++ [SRemove r])).
    { rewrite srun_snoc. cbn. unfold rs_remove. rewrite H. reflexivity. }
    rewrite Em, srun_contains, mem_snoc. cbn. rewrite E. reflexivity.
  Qed.

  (** ** Runs *)
  Lemma srun_runs ops : runs_of cmp (mem ops) (ranges (run ops)).
  Proof.
    pose proof (srun_WF ops) as HW. unfold runs_of. splits.
    - intros r Hr. apply in_map_iff in Hr as ([r' []] & <- & Hin). apply (WF_valid _ _ tt HW Hin).
    - apply SS_map. pose proof (proj1 HW) as HS. pose proof (proj2 HW) as HN.
      unfold rs_iter, rm_iter. eapply SS_impl; [|exact HS]. intros a b Ia Ib [H G]. pose proof (HN a Ia). pose proof (HN b Ib).
      destruct (eqb cmp (r_end (fst a)) (r_start (fst b))) eqn:E; [discriminate (G eq_refl)|]. ord.
    - intros k. pose proof (srun_contains ops k) as Hc. unfold rs_contains, rm_contains_key in Hc.
      split.
      + intros (r & Hr & Hk). apply in_map_iff in Hr as ([r' []] & <- & Hin).
        assert (G : rm_get_key_value cmp (run ops) k = Ret (Some (r', tt)))
          by (apply (get_key_value_iff HO _ _ _ _ HW); auto).
        unfold rm_get, omap in Hc. rewrite G in Hc. cbn in Hc. congruence.
      + intros Hm. rewrite Hm in Hc. destruct (get_total HO _ k HW) as (o & G & G2 & G3).
        unfold rm_get, omap in Hc. rewrite G in Hc. destruct o as [[r []]|]; [|discriminate].
        apply (get_key_value_iff HO _ _ _ _ HW) in G as [G1 G4]. exists r. split; [|exact G4].
        apply (in_map fst _ _ G1).
  Qed.

  Lemma sget_kv ops k r :
    rs_get cmp (run ops) k = Ret (Some r) <-> rm_get_key_value cmp (run ops) k = Ret (Some (r, tt)).
  Proof.
    unfold rs_get, omap. destruct (get_total HO _ k (srun_WF ops)) as (o & -> & _). cbn.
    destruct o as [[r' []]|]; cbn; split; congruence.
  Qed.
  Lemma sget_iff ops k r :
    rs_get cmp (run ops) k = Ret (Some r) <-> In r (ranges (run ops)) /\ covers r k = true.
  Proof.
    rewrite sget_kv, (get_key_value_iff HO _ _ _ _ (srun_WF ops)). split; intros [H1 H2]; (split; [|exact H2]).
    - apply (in_map fst _ _ H1).
    - apply in_map_iff in H1 as ([r' []] & <- & Hin). exact Hin.
  Qed.
  Lemma sget_none ops k : rs_get cmp (run ops) k = Ret None <-> mem ops k = false.
  Proof.
    pose proof (srun_contains ops k) as Hc. unfold rs_contains, rm_contains_key, rm_get, rs_get, omap in *.
    destruct (get_total HO _ k (srun_WF ops)) as (o & G & _). rewrite G in *. cbn in *.
    destruct o as [[r []]|]; cbn in *; split; congruence.
  Qed.
  Lemma sget_maximal ops k r r' :
    rs_get cmp (run ops) k = Ret (Some r) ->
    leb cmp (r_start r') (r_start r) = true -> leb cmp (r_end r) (r_end r') = true ->
    (forall k', covers r' k' = true -> mem ops k' = true) ->
    eqb cmp (r_start r') (r_start r) = true /\ eqb cmp (r_end r') (r_end r) = true.
  Proof.
    intros H H1 H2 H3. apply sget_kv in H. rewrite run_to_ops in H.
    apply (run_maximal HO HV _ k r tt r' H H1 H2). intros k' A1 _. exists tt. split; [|reflexivity].
    specialize (H3 k' A1). pose proof (srun_contains ops k') as Hc.
    unfold rs_contains, rm_contains_key, omap in Hc. rewrite run_to_ops in Hc.
    rewrite (get_ok HO _ _ (run_WF HO HV _)) in *. cbn in Hc. rewrite H3 in Hc.
    destruct (lk _ _) as [[]|]; [reflexivity|discriminate].
  Qed.
  Lemma seqb_spec a b : rs_eqb cmp (run a) (run b) = true <-> forall k, mem a k = mem b k.
  Proof.
    unfold rs_eqb. rewrite !run_to_ops, (run_eqb_spec HO HV) by reflexivity.
    split; intros H k; specialize (H k); rewrite !spec_mem in *; apply same_opt_of; exact H.
  Qed.
  Lemma scmp_spec : TotalOrd (rs_cmp cmp) /\
    forall a b, rs_cmp cmp (run a) (run b) = Eq <-> forall k, mem a k = mem b k.
  Proof.
    destruct (run_ord HO HV unit_cmp unit_order) as [H1 H2]; [unfold unit_cmp, unit_eqb; tauto|].
    split; [exact H1|]. intros a b. unfold rs_cmp. rewrite !run_to_ops, H2.
    split; intros H k; specialize (H k); rewrite !spec_mem in *; apply same_opt_of; exact H.
  Qed.

  (** ** Union and intersection *)
  Notation okr := (fun r => valid r = true).
  Lemma s_laws : OpsLaws cmp r_start r_end okr (rs_iter_next (K := K)) (@length (range K * unit)) (map fst)
    (r_order_start cmp) (r_order_end cmp) (r_merge cmp) (r_intersect cmp).
  Proof.
    split.
    - intros r H. exact H.
    - reflexivity.
    - reflexivity.
    - intros a b Ha Hb. unfold r_merge, r_contains. unfold valid_range in *.
      replace (geb cmp (r_start b) (r_start a)) with (leb cmp (r_start a) (r_start b)) by ord.
      destruct (leb cmp (r_start a) (r_start b) && ltb cmp (r_start b) (r_end a)) eqn:E; cbn [negb]; [|reflexivity].
      eexists. split; [reflexivity|]. unfold kmax.
      destruct (gtb cmp (r_end b) (r_end a)) eqn:G; destruct (ltb cmp (r_end b) (r_end a)) eqn:G2;
        cbn [r_start r_end]; splits; ord.
    - intros a b Ha Hb. unfold r_intersect.
      destruct (ltb cmp (kmax cmp (r_start a) (r_start b)) (kmin cmp (r_end a) (r_end b))) eqn:E.
      + replace (geb cmp (kmax cmp (r_start a) (r_start b)) (kmin cmp (r_end a) (r_end b))) with false by ord.
        eexists. split; [reflexivity|]. cbn. splits; [exact E|ord|ord].
      + replace (geb cmp (kmax cmp (r_start a) (r_start b)) (kmin cmp (r_end a) (r_end b))) with true by ord.
        reflexivity.
    - intros [|[r u] i]; cbn; eexists; split; reflexivity.
    - intros i. symmetry. apply map_length.
  Qed.
  Lemma cov_covers (l : list (range K)) k :
    covs (c := cmp) (s := r_start) (e := r_end) l k <-> exists r, In r l /\ covers r k = true.
  Proof.
    unfold covs, cov, in_range. split; intros (r & Hr & H); exists r; (split; [exact Hr|]).
    - destruct H. ord.
    - split; ord.
  Qed.
  Lemma Forall_valid ops : Forall okr (ranges (run ops)).
  Proof. apply Forall_forall. apply (proj1 (srun_runs ops)). Qed.
  Lemma sunion a b : exists us,
    (forall n, nexts_m (rs_union_next cmp) n (rs_union (run a) (run b)) = map Ret (yields n us)) /\
    pieces_of cmp (fun k => mem a k || mem b k) us /\
    welded cmp (ranges (run a) ++ ranges (run b)) us /\
    length us <= rs_len (run a) + rs_len (run b).
  Proof.
    destruct (srun_runs a) as (A1 & A2 & A3), (srun_runs b) as (B1 & B2 & B3).
    destruct (union_drains HO s_laws _ (rs_union (run a) (run b)) (le_n _)) as (us & H1 & H2 & H3 & H4 & H5 & _ & H7 & H8).
    - split; apply (pok_new (view := map fst)).
    - apply Forall_valid.
    - apply Forall_valid.
    - apply (sep_asc HO). exact A2.
    - apply (sep_asc HO). exact B2.
    - exists us. split; [exact H1|]. split.
      + unfold pieces_of, runs_of. splits.
        * apply Forall_forall. exact H2.
        * exact H3.
        * intros k. rewrite <- cov_covers, H5, orb_true_iff, <- A3, <- B3, <- !cov_covers. reflexivity.
      + split; [split; [exact H7|]|].
        { intros u z Hu Hz1 Hz2. destruct (H8 u z Hu (conj Hz1 Hz2)) as (r & Hr & G1 & G2). exists r. auto. } unfold rs_len, rm_len. unfold lv, rv in H4. cbn in H4. rewrite !map_length in H4. exact H4.
  Qed.
  Lemma sintersection a b : exists us,
    (forall n, nexts_m (rs_intersection_next cmp) n (rs_intersection (run a) (run b)) = map Ret (yields n us)) /\
    runs_of cmp (fun k => mem a k && mem b k) us /\
    length us <= rs_len (run a) + rs_len (run b).
  Proof.
    destruct (srun_runs a) as (A1 & A2 & A3), (srun_runs b) as (B1 & B2 & B3).
    destruct (inter_drains HO s_laws _ (rs_intersection (run a) (run b)) (le_n _)) as (us & H1 & H2 & H3 & H4 & H5 & _).
    - split; apply (pok_new (view := map fst)).
    - apply Forall_valid.
    - apply Forall_valid.
    - exact A2.
    - exact B2.
    - exists us. split; [exact H1|]. split.
      + unfold pieces_of, runs_of. splits.
        * apply Forall_forall. exact H2.
        * exact H3.
        * intros k. rewrite <- cov_covers, H5, andb_true_iff, <- A3, <- B3, <- !cov_covers. reflexivity.
      + unfold rs_len, rm_len. unfold lv, rv in H4. cbn in H4. rewrite !map_length in H4. exact H4.
  Qed.

  (** ** Bulk construction *)
  Lemma from_iter_map l : rs_from_iter cmp l = rm_from_iter cmp unit_eqb (map (fun r => (r, tt)) l).
  Proof.
    unfold rs_from_iter, rm_from_iter, rs_extend, rm_extend.
    rewrite (for_each_map (fun r => (r, tt)) (fun e => rm_insert cmp unit_eqb (fst e) (snd e))); reflexivity.
  Qed.
  Lemma from_array_iter l : rs_from_array cmp l = rs_from_iter cmp l.
  Proof.
    unfold rs_from_array, rs_from_iter. generalize (rs_new (K := K)).
    assert (G : forall l s, rs_from_array_loop cmp l s = rs_extend cmp l s); [|intros s; rewrite G; reflexivity].
    clear l. induction l as [|r l IH]; intros s; [reflexivity|]. cbn. unfold bind.
    destruct (rs_insert cmp r s) as [[u|p|] s']; auto. apply IH.
  Qed.
  Lemma sfrom_iter good bad :
    (forall r, In r good -> valid r = true) ->
    match bad with [] => True | r :: _ => valid r = false end ->
    rs_from_iter cmp (good ++ bad) =
      match bad with [] => Ret (run (map SInsert good)) | _ => Panicked PAssert end.
  Proof.
    intros H1 H2. rewrite from_iter_map, map_app, (from_iter_prefix HO HV).
    - rewrite run_to_ops, to_ops_inserts. destruct bad; reflexivity.
    - intros e He. apply in_map_iff in He as (r & <- & Hr). cbn. auto.
    - destruct bad; exact H2.
  Qed.
  Lemma sextend ops good bad :
    (forall r, In r good -> valid r = true) ->
    match bad with [] => True | r :: _ => valid r = false end ->
    rs_extend cmp (good ++ bad) (run ops) =
      (match bad with [] => Ret tt | _ => Panicked PAssert end, run (ops ++ map SInsert good)).
  Proof.
    intros H1 H2. unfold rs_extend.
    rewrite (for_each_map (fun r => (r, tt)) (fun e => rm_insert cmp unit_eqb (fst e) (snd e))) by reflexivity.
    rewrite map_app, run_to_ops. fold (rm_extend cmp unit_eqb (map (fun r => (r, tt)) good ++ map (fun r => (r, tt)) bad)).
    rewrite (run_extend HO HV).
    - rewrite run_to_ops, to_ops_app, to_ops_inserts. destruct bad; reflexivity.
    - intros e He. apply in_map_iff in He as (r & <- & Hr). cbn. auto.
    - destruct bad; exact H2.
  Qed.
  Lemma mem_all_valid (l : list (range K)) : (forall r, In r l -> valid r = true) -> forall k,
    mem (map SInsert l) k = existsb (fun r => covers r k) l.
  Proof. intros H. apply mem_inserts. apply forallb_forall. exact H. Qed.

  (** ** [|] and [&] *)
  Lemma sbitor a b : exists ops, rs_bitor cmp (run a) (run b) = Ret (run ops) /\
    forall k, mem ops k = mem a k || mem b k.
  Proof.
    destruct (sunion a b) as (us & H1 & (H2 & H3 & H4) & _ & H5). exists (map SInsert us).
    unfold rs_bitor. rewrite (drain_ok _ us) by (try exact H1; lia). cbn [obind].
    split.
    - rewrite <- (app_nil_r us) at 1. rewrite (sfrom_iter us []) by auto. reflexivity.
    - intros k. rewrite mem_all_valid by exact H2. apply (existsb_cov covers us (fun k => mem a k || mem b k)). apply H4.
  Qed.
  Lemma sbitand a b : exists ops, rs_bitand cmp (run a) (run b) = Ret (run ops) /\
    forall k, mem ops k = mem a k && mem b k.
  Proof.
    destruct (sintersection a b) as (us & H1 & (H2 & H3 & H4) & H5). exists (map SInsert us).
    unfold rs_bitand. rewrite (drain_ok _ us) by (try exact H1; lia). cbn [obind].
    split.
    - rewrite <- (app_nil_r us) at 1. rewrite (sfrom_iter us []) by auto. reflexivity.
    - intros k. rewrite mem_all_valid by exact H2. apply (existsb_cov covers us (fun k => mem a k && mem b k)). apply H4.
  Qed.
  Lemma seval x : exists ops, rs_eval cmp x = Ret (run ops) /\
    forall k, mem ops k = mem_sexp valid covers x k.
  Proof.
    induction x as [|x IH o|x IHx y IHy|x IHx y IHy].
    - exists []. auto.
    - destruct IH as (ops & H1 & H2). exists (ops ++ [o]). cbn. rewrite H1. cbn.
      rewrite srun_snoc. split; [reflexivity|]. intros k. rewrite mem_snoc. apply mem_op_ext. exact H2.
    - destruct IHx as (a & A1 & A2), IHy as (b & B1 & B2). destruct (sbitor a b) as (c & C1 & C2).
      exists c. cbn. rewrite A1, B1. cbn. split; [exact C1|]. intros k. rewrite C2, A2, B2. reflexivity.
    - destruct IHx as (a & A1 & A2), IHy as (b & B1 & B2). destruct (sbitand a b) as (c & C1 & C2).
      exists c. cbn. rewrite A1, B1. cbn. split; [exact C1|]. intros k. rewrite C2, A2, B2. reflexivity.
  Qed.
  Lemma seval_eq x y : exists a b, rs_eval cmp x = Ret a /\ rs_eval cmp y = Ret b /\
    (rs_eqb cmp a b = true <-> forall k, mem_sexp valid covers x k = mem_sexp valid covers y k).
  Proof.
    destruct (seval x) as (a & A1 & A2), (seval y) as (b & B1 & B2).
    exists (run a), (run b). refine (conj A1 (conj B1 _)). rewrite seqb_spec.
    split; intros H k; specialize (H k); rewrite ?A2, ?B2 in *; exact H.
  Qed.

  (** ** Queries *)
  Lemma siter_schedule (l : list (range K * unit)) sched :
    sched_trace (both rs_iter_next rs_iter_next_back) rs_iter_size_hint sched l =
    sched_trace deque_step (fun r => (length r, Some (length r))) sched (map fst l).
  Proof. exact (iter_schedule_map fst l sched). Qed.
  Lemma soverlapping ops q sched :
    exists o, rs_overlapping cmp (run ops) q = Ret o /\
      map fst (sched_trace (both (rs_ov_next cmp) (rs_ov_next_back cmp)) (fun _ => tt) sched o) =
      deque_run sched (filter (meets cmp q) (ranges (run ops))).
  Proof.
    destruct (overlapping_schedule HO (run ops) q sched (srun_WF ops)) as (o & H1 & H2).
    exists o. split; [exact H1|].
    rewrite (sched_map fst (both (ov_next cmp) (ov_next_back cmp))).
    - rewrite map_map. cbn. rewrite filter_map, deque_map. unfold rs_iter, rm_iter, hits in *. rewrite <- H2, map_map.
      reflexivity.
    - intros d s. destruct d; cbn [both]; unfold rs_ov_next, rs_ov_next_back.
      + destruct (ov_next cmp s); reflexivity.
      + destruct (ov_next_back cmp s); reflexivity.
  Qed.
  Lemma soverlaps ops q : rs_overlaps cmp (run ops) q = Ret (existsb (meets cmp q) (ranges (run ops))).
  Proof.
    destruct (soverlapping ops q [Front]) as (o & H1 & H2). unfold rs_overlaps. rewrite H1. cbn.
    f_equal. cbn in H2. destruct (rs_ov_next cmp o) as [e o']. cbn in H2. unfold deque_run in H2. cbn in H2.
    generalize (ranges (run ops)) H2. clear. intros l H. cbn.
    destruct (filter (meets cmp q) l) as [|r l'] eqn:E; cbn in H; injection H as ->.
    - destruct (existsb _ l) eqn:X; [|reflexivity]. apply existsb_exists in X as (r & R1 & R2).
      assert (In r (filter (meets cmp q) l)) by (apply filter_In; auto). rewrite E in H. destruct H.
    - symmetry. apply existsb_exists. exists r. apply filter_In. rewrite E. left. reflexivity.
  Qed.
  Lemma soverlaps_exact ops q : valid q = true ->
    exists b, rs_overlaps cmp (run ops) q = Ret b /\
      (b = true <-> exists k, covers q k = true /\ mem ops k = true).
  Proof.
    intros Hq. destruct (overlaps_exact HO HV (to_ops ops) q Hq) as (b & H1 & H2).
    exists b. split.
    - rewrite soverlaps, <- H1, (overlaps_ok HO _ q (run_WF HO HV _)), <- run_to_ops.
      f_equal. unfold hits, rs_iter, rm_iter. generalize (run ops). induction r as [|e l IH]; [reflexivity|].
      cbn. rewrite IH. reflexivity.
    - rewrite H2. split; intros (k & K1 & K2); exists k; (split; [exact K1|]);
        rewrite <- run_to_ops in *; pose proof (srun_contains ops k) as Hc; unfold rs_contains in Hc; congruence.
  Qed.
  Lemma sgaps ops outer : exists g gs, rs_gaps cmp (run ops) outer = Ret g /\
    (forall n, nexts (rs_gaps_next cmp) n g = yields n gs) /\
    runs_of cmp (fun k => covers outer k && negb (mem ops k)) gs.
  Proof.
    destruct (run_gaps HO HV (to_ops ops) outer) as (g & gs & H1 & H2 & H3 & H4 & H5).
    rewrite <- run_to_ops in H1. exists g, gs. split; [exact H1|]. split; [exact H2|]. unfold runs_of. splits.
    - intros r Hr. apply (H3 r Hr).
    - exact H4.
    - intros k. rewrite H5, spec_mem, andb_true_iff. destruct (mem ops k); cbn; intuition discriminate.
  Qed.
  Lemma sgaps_collect ops outer : exists g gs c,
    rs_gaps cmp (run ops) outer = Ret g /\ (forall n, nexts (rs_gaps_next cmp) n g = yields n gs) /\
    rs_from_iter cmp gs = Ret c /\
    forall k, rs_contains cmp c k = Ret (covers outer k && negb (mem ops k)).
  Proof.
    destruct (sgaps ops outer) as (g & gs & H1 & H2 & H3 & H4 & H5).
    exists g, gs, (run (map SInsert gs)). splits; auto.
    - rewrite <- (app_nil_r gs) at 1. rewrite (sfrom_iter gs []) by auto. reflexivity.
    - intros k. rewrite srun_contains, mem_all_valid by exact H3. f_equal.
      apply (existsb_cov covers gs (fun k => covers outer k && negb (mem ops k))). apply H5.
  Qed.
  Lemma sfirst_last ops :
    match rs_first (run ops), rs_last (run ops) with
    | None, None => forall k, mem ops k = false
    | Some a, Some b =>
        In a (ranges (run ops)) /\ In b (ranges (run ops)) /\
        (forall r, In r (ranges (run ops)) ->
           (r = a \/ ltb cmp (r_end a) (r_start r) = true) /\
           (r = b \/ ltb cmp (r_end r) (r_start b) = true))
    | _, _ => False
    end.
  Proof.
    pose proof (srun_runs ops) as (H1 & H2 & H3). pose proof (srun_WF ops) as HW.
    pose proof (first_ok (run ops) HW) as HF. pose proof (last_ok (run ops) HW) as HL.
    unfold rs_first, rs_last.
    destruct (rm_first_range_value (run ops)) as [[a []]|]; destruct (rm_last_range_value (run ops)) as [[b []]|];
      cbn [option_map fst].
    - destruct HF as [F1 F2], HL as [L1 L2].
      assert (F1' := in_map fst _ _ F1). assert (L1' := in_map fst _ _ L1). cbn in F1', L1'.
      splits; auto. intros r Hr. pose proof Hr as Hr'. apply in_map_iff in Hr' as ([r' []] & <- & Hin).
      cbn [fst] in *. pose proof (H1 _ Hr) as V1. pose proof (H1 _ F1') as V2. pose proof (H1 _ L1') as V3.
      unfold valid_range in *. split.
      + destruct (F2 _ Hin) as [E|G]; [injection E; auto|]. cbn in G.
        destruct (SS_In_cases _ _ r' a H2 Hr F1') as [E|[E|E]]; auto; right; exfalso; ord.
      + destruct (L2 _ Hin) as [E|G]; [injection E; auto|]. cbn in G.
        destruct (SS_In_cases _ _ r' b H2 Hr L1') as [E|[E|E]]; auto; right; exfalso; ord.
    - destruct HF as [F1 _]. rewrite HL in F1. destruct F1.
    - destruct HL as [F1 _]. rewrite HF in F1. destruct F1.
    - intros k. destruct (mem ops k) eqn:E; [|reflexivity]. apply H3 in E as (r & R & _).
      unfold rs_iter, rm_iter in R. rewrite HF in R. destruct R.
  Qed.
  Lemma slen_empty ops :
    rs_len (run ops) = length (ranges (run ops)) /\
    (rs_is_empty (run ops) = true <-> forall k, mem ops k = false) /\
    rs_run cmp (ops ++ [SClear]) = rs_new.
  Proof.
    splits.
    - rewrite map_length. reflexivity.
    - destruct (len_empty HO HV (to_ops ops)) as (_ & _ & H & _). rewrite <- run_to_ops in H.
      unfold rs_is_empty. rewrite H. split; intros Hk k; specialize (Hk k);
        pose proof (srun_contains ops k) as Hc; unfold rs_contains in Hc; congruence.
    - rewrite srun_snoc. reflexivity.
  Qed.

  (** ** serde *)
  Lemma visit_seq_map {E} (l : list (E + K * K)) : forall s,
    rs_visit_seq cmp l s =
    rm_visit_seq cmp unit_eqb (map (fun x => match x with inl e => inl e | inr p => inr (p, tt) end) l) s.
  Proof.
    induction l as [|[err|[a b]] l IH]; intros s; [reflexivity|reflexivity|]. cbn. unfold bind, rs_insert.
    destruct (rm_insert cmp unit_eqb (mkR a b) tt s) as [[u|p|] s']; auto.
  Qed.
  Lemma deserialize_map {E} (l : list (E + K * K)) :
    rs_deserialize cmp l =
    rm_deserialize cmp unit_eqb (map (fun x => match x with inl e => inl e | inr p => inr (p, tt) end) l).
  Proof. unfold rs_deserialize, rm_deserialize. rewrite visit_seq_map. reflexivity. Qed.
  Lemma sround_trip (E : Type) ops :
    rs_deserialize (E := E) cmp (map inr (snd (rs_serialize (run ops)))) = Ret (inr (run ops)) /\
    fst (rs_serialize (run ops)) = Some (length (snd (rs_serialize (run ops)))).
  Proof.
    split; [|cbn; rewrite map_length; reflexivity].
    destruct (run_round_trip HO HV E (to_ops ops)) as [H _]. rewrite <- run_to_ops in H.
    etransitivity; [|exact H]. rewrite deserialize_map. f_equal. unfold rs_serialize, rm_serialize, rs_iter. cbn [snd].
    rewrite !map_map. apply map_ext. intros [r []]. reflexivity.
  Qed.
  Lemma sdeserialize (E : Type) good (rest : list (E + K * K)) :
    (forall s e, In (s, e) good -> ltb cmp s e = true) ->
    match rest with inr (s, e) :: _ => ltb cmp s e = false | _ => True end ->
    rs_deserialize cmp (map inr good ++ rest) =
    match rest with
    | [] => Ret (inr (run (map (fun p => SInsert (mkR (fst p) (snd p))) good)))
    | inl err :: _ => Ret (inl err)
    | inr _ :: _ => Panicked PAssert
    end.
  Proof.
    intros H1 H2. rewrite deserialize_map, map_app.
    replace (map _ (map inr good)) with
      (map (fun e : range K * unit => @inr E _ (r_start (fst e), r_end (fst e), snd e))
           (map (fun r => (r, tt)) (map (fun p => mkR (fst p) (snd p)) good)))
      by (rewrite !map_map; apply map_ext; intros [a b]; reflexivity).
    rewrite (deserialize_prefix HO HV).
    - rewrite run_to_ops. destruct rest as [|[err|[a b]] rest]; try reflexivity.
      cbn [map]. do 2 f_equal. rewrite <- to_ops_inserts, map_map. reflexivity.
    - intros e He. apply in_map_iff in He as (r & <- & Hr). apply in_map_iff in Hr as ([a b] & <- & Hp).
      cbn. apply (H1 a b Hp).
    - destruct rest as [|[err|[a b]] rest]; auto.
  Qed.
  Lemma shash {T} (hk : K -> list T) :
    (forall x y, eqb cmp x y = true -> hk x = hk y) ->
    forall a b, (forall k, mem a k = mem b k) -> rs_hash hk (run a) = rs_hash hk (run b).
  Proof.
    intros Hk a b H. apply seqb_spec in H. unfold rs_hash.
    apply (hash_eq (cmp := cmp) (veqb := unit_eqb)); auto.
  Qed.
  Lemma shash_separates {T} (hk : K -> list T) :
    (forall x y s t, hk x ++ s = hk y ++ t -> eqb cmp x y = true /\ hk x = hk y) ->
    forall a b s t, rs_hash hk (run a) ++ s = rs_hash hk (run b) ++ t -> (forall k, mem a k = mem b k) /\ s = t.
  Proof.
    intros Hk a b s t H. rewrite <- seqb_spec. unfold rs_eqb.
    destruct (hash_inj (cmp := cmp) (veqb := unit_eqb) hk (fun _ => []) _ _ Hk (fun _ _ _ _ _ => conj eq_refl eq_refl) _ _ H) as [H1 H2].
    split; [exact H1|]. unfold rs_hash in H. rewrite H2 in H. apply app_inv_head in H. exact H.
  Qed.
End Props.
