(** The facts behind P_ISet.v. *)
From Coq Require Import List Bool Sorting.Sorted ZArith Lia.
From Verif Require Import Order Outcome BTree Ranges History Spec MapModel IMapModel OpsModel SetModel ISetModel
  ListLemmas IterFacts ISim Cuts IFacts IMapProps OpsProofs SetFacts Instances.
Import ListNotations.

Section Props.
  Context {K : Type} {cmp : K -> K -> comparison} {st : stepfns K}.
  Context (HO : TotalOrd cmp) (HS : StepLaws cmp st).

  Notation run := (is_run cmp st).
  Notation valid := (valid_rangei cmp).
  Notation covers := (in_rangei cmp).
  Notation mem := (mem_run valid covers).
  Notation ranges s := (map fst (is_iter s)).
  Notation HV := unit_per.
  Notation HC := (cuts cmp st HO HS).
  Notation HO' := (cut_order cmp st HO HS).
  Notation cmp' := (cmp_cut cmp st).

  Lemma iexec_to_op o s : is_exec cmp st o s = im_exec cmp unit_eqb st (to_op o) s.
  Proof.
    destruct o as [r|r| |l]; try reflexivity. cbn. unfold is_extend, im_extend.
    apply for_each_map. reflexivity.
  Qed.
  Lemma irun_to_ops ops : run ops = im_run cmp unit_eqb st (to_ops ops).
  Proof. apply run_ops_map. apply iexec_to_op. Qed.
  Lemma isrun_snoc ops o : run (ops ++ [o]) = snd (is_exec cmp st o (run ops)).
  Proof. unfold is_run, run_ops. rewrite fold_left_app. reflexivity. Qed.
  Lemma fresh_snoc (ops : list (sop (rangei K))) o :
    fresh_sops ops -> fresh_sop o = true -> fresh_sops (ops ++ [o]).
  Proof. unfold fresh_sops. intros H1 H2. rewrite forallb_app, H1. cbn. rewrite H2. reflexivity. Qed.

  (** ** Membership *)
  Lemma isrun_get ops : fresh_sops ops -> forall k,
    im_get cmp (run ops) k = Ret (opt_of (mem ops k)).
  Proof.
    intros Hf k. rewrite irun_to_ops.
    rewrite (irun_get_spec_eq HO HS HV (fun a b _ => match a, b with tt, tt => eq_refl end) _ (fresh_to_ops _ Hf) k).
    rewrite spec_mem. reflexivity.
  Qed.
  Lemma isrun_contains ops k : fresh_sops ops -> is_contains cmp (run ops) k = Ret (mem ops k).
  Proof.
    intros Hf. unfold is_contains, im_contains_key, omap. rewrite (isrun_get ops Hf k). cbn.
    destruct (mem ops k); reflexivity.
  Qed.
  Lemma isinsert_outcome ops r : fresh_sops ops -> ri_exhausted r = false ->
    if valid r
    then exists s', is_insert cmp st r (run ops) = (Ret tt, s') /\
           forall k, is_contains cmp s' k = Ret (covers r k || mem ops k)
    else is_insert cmp st r (run ops) = (Panicked PAssert, run ops).
  Proof.
    intros Hf Hr. pose proof (iinsert_outcome HO HS HV (to_ops ops) r tt (fresh_to_ops _ Hf) Hr) as H.
    rewrite <- irun_to_ops in H.
    unfold is_insert. destruct (valid r) eqn:E; [|exact H].
    destruct H as (m' & H & _). exists m'. split; [exact H|]. intros k.
    assert (Em : m' = run (ops ++ [SInsert r])).
    { rewrite isrun_snoc. cbn. unfold is_insert. rewrite H. reflexivity. }
    rewrite Em, isrun_contains, mem_snoc.
    - cbn. rewrite E. reflexivity.
    - apply fresh_snoc; [exact Hf|]. cbn. rewrite Hr. reflexivity.
  Qed.
  Lemma isremove_outcome ops r : fresh_sops ops ->
    if valid r
    then exists s', is_remove cmp st r (run ops) = (Ret tt, s') /\
           forall k, is_contains cmp s' k = Ret (negb (covers r k) && mem ops k)
    else is_remove cmp st r (run ops) = (Panicked PAssert, run ops).
  Proof.
    intros Hf. pose proof (iremove_outcome HO HS HV (to_ops ops) r (fresh_to_ops _ Hf)) as H.
    rewrite <- irun_to_ops in H.
    unfold is_remove. destruct (valid r) eqn:E; [|exact H].
    destruct H as (m' & H & _). exists m'. split; [exact H|]. intros k.
    assert (Em : m' = run (ops ++ [SRemove r])).
    { rewrite isrun_snoc. cbn. unfold is_remove. rewrite H. reflexivity. }
    rewrite Em, isrun_contains, mem_snoc.
    - cbn. rewrite E. reflexivity.
    - apply fresh_snoc; [exact Hf|]. reflexivity.
  Qed.

  (** ** Runs *)
  Lemma iskv ops k : fresh_sops ops -> exists o, im_get_key_value cmp (run ops) k = Ret o /\
    opt_of (mem ops k) = option_map snd o.
  Proof.
    intros Hf. destruct (igets_agree HO HS HV (to_ops ops) k (fresh_to_ops _ Hf)) as (o & H1 & H2 & _).
    rewrite <- irun_to_ops in H1, H2. exists o. split; [exact H1|]. rewrite (isrun_get ops Hf k) in H2. congruence.
  Qed.
  Lemma isget_kv ops k r : fresh_sops ops ->
    is_get cmp (run ops) k = Ret (Some r) <-> im_get_key_value cmp (run ops) k = Ret (Some (r, tt)).
  Proof.
    intros Hf. unfold is_get, omap. destruct (iskv ops k Hf) as (o & -> & _). cbn.
    destruct o as [[r' []]|]; cbn; split; congruence.
  Qed.
  Lemma isget_iff ops k r : fresh_sops ops ->
    is_get cmp (run ops) k = Ret (Some r) <-> In r (ranges (run ops)) /\ covers r k = true.
  Proof.
    intros Hf. rewrite isget_kv by exact Hf. rewrite irun_to_ops, (iget_iff HO HS HV _ _ _ _ (fresh_to_ops _ Hf)).
    split; intros [H1 H2]; (split; [|exact H2]).
    - apply (in_map fst _ _ H1).
    - apply in_map_iff in H1 as ([r' []] & <- & Hin). exact Hin.
  Qed.
  Lemma isget_none ops k : fresh_sops ops -> is_get cmp (run ops) k = Ret None <-> mem ops k = false.
  Proof.
    intros Hf. unfold is_get, omap. destruct (iskv ops k Hf) as (o & -> & H). cbn.
    destruct o as [[r []]|], (mem ops k); cbn in *; split; congruence.
  Qed.
  Lemma isrun_runs ops : fresh_sops ops -> runsi_of cmp (mem ops) (ranges (run ops)).
  Proof.
    intros Hf. pose proof (fresh_to_ops _ Hf) as Hf'.
    destruct (iiter_valid_ascending HO HS HV _ Hf') as [HA HN].
    pose proof (iiter_coalesced HO HS HV _ Hf') as HCo. rewrite <- irun_to_ops in *.
    unfold runsi_of. splits.
    - intros r Hr. apply in_map_iff in Hr as ([r' []] & <- & Hin). destruct (HN _ _ Hin). auto.
    - apply SS_map. eapply SS_impl; [|exact HA]. intros a b Ia Ib H. cbn in H.
      apply (HCo a b Ia Ib H). reflexivity.
    - intros k. split.
      + intros (r & Hr & Hk). assert (G : is_get cmp (run ops) k = Ret (Some r)) by (apply isget_iff; auto).
        destruct (mem ops k) eqn:E; [reflexivity|]. apply isget_none in E; [congruence|exact Hf].
      + intros Hm. destruct (iskv ops k Hf) as (o & G & E). rewrite Hm in E.
        destruct o as [[r []]|]; [|discriminate]. exists r. apply isget_iff; [exact Hf|]. apply isget_kv; auto.
  Qed.
  Lemma isget_maximal ops k r r' : fresh_sops ops ->
    is_get cmp (run ops) k = Ret (Some r) ->
    leb cmp (ri_start r') (ri_start r) = true -> leb cmp (ri_end r) (ri_end r') = true ->
    (forall k', covers r' k' = true -> mem ops k' = true) ->
    eqb cmp (ri_start r') (ri_start r) = true /\ eqb cmp (ri_end r') (ri_end r) = true.
  Proof.
    intros Hf H H1 H2 H3. apply isget_kv in H; [|exact Hf]. rewrite irun_to_ops in H.
    apply (irun_maximal HO HS HV _ k r tt r' (fresh_to_ops _ Hf) H H1 H2). intros k' A1 _.
    exists tt. split; [|reflexivity]. rewrite <- irun_to_ops, (isrun_get ops Hf k'), (H3 k' A1). reflexivity.
  Qed.
  Lemma iseqb_spec a b : fresh_sops a -> fresh_sops b ->
    is_eqb cmp (run a) (run b) = true <-> forall k, mem a k = mem b k.
  Proof.
    intros Ha Hb. unfold is_eqb. rewrite !irun_to_ops.
    rewrite (irun_eqb_spec HO HS HV (fun _ => eq_refl) _ _ (fresh_to_ops _ Ha) (fresh_to_ops _ Hb)).
    split; intros H k; specialize (H k); rewrite !spec_mem in *; apply same_opt_of; exact H.
  Qed.
  Lemma iscmp_spec : TotalOrd (is_cmp cmp) /\
    forall a b, fresh_sops a -> fresh_sops b ->
      is_cmp cmp (run a) (run b) = Eq <-> forall k, mem a k = mem b k.
  Proof.
    destruct (irun_ord HO HS HV unit_cmp unit_order) as [H1 H2]; [unfold unit_cmp, unit_eqb; tauto|].
    split; [exact H1|]. intros a b Ha Hb. unfold is_cmp. rewrite !irun_to_ops.
    rewrite (proj2 (H2 _ _ (fresh_to_ops _ Ha) (fresh_to_ops _ Hb))).
    split; intros H k; specialize (H k); rewrite !spec_mem in *; apply same_opt_of; exact H.
  Qed.

  (** ** Union and intersection: positions are the cuts before a range's start
      and after its end *)
  Notation okr := (fun r => ri_exhausted r = false /\ valid r = true).
  Notation sp := (fun r => Before (ri_start r)).
  Notation ep := (fun r => After (ri_end r)).
  Lemma is_laws : OpsLaws cmp' sp ep okr (is_iter_next (K := K)) (@length (rangei K * unit)) (map fst)
    (ri_order_start cmp) (ri_order_end cmp) (ri_merge cmp) (ri_intersect cmp).
  Proof.
    split.
    - intros r [_ H]. rewrite <- (lohi_lt HC HO'). unfold valid_rangei in H. ord.
    - intros a b _ _. unfold ri_order_start. symmetry. apply (cut_lo _ _ _ _ _ HC).
    - intros a b _ _. unfold ri_order_end. symmetry. apply (cut_hi _ _ _ _ _ HC).
    - intros a b [Xa Ha] [Xb Hb]. unfold ri_merge, ri_contains. rewrite Xa.
      rewrite <- (lo_le HC), <- (lohi_lt HC HO'). unfold valid_rangei in *.
      destruct (leb cmp (ri_start a) (ri_start b) && leb cmp (ri_start b) (ri_end a)) eqn:E; cbn [negb]; [|reflexivity].
      eexists. split; [reflexivity|]. unfold kmax. rewrite <- (hi_lt HC).
      destruct (gtb cmp (ri_end b) (ri_end a)) eqn:G; destruct (ltb cmp (ri_end b) (ri_end a)) eqn:G2;
        cbn [ri_start ri_end ri_exhausted]; rewrite ?(cut_lo _ _ _ _ _ HC), ?(cut_hi _ _ _ _ _ HC);
        (split; [split; [auto|ord]|]); split; ord.
    - intros a b [Xa Ha] [Xb Hb]. unfold ri_intersect.
      assert (E1 : kmax cmp' (Before (ri_start a)) (Before (ri_start b)) = Before (kmax cmp (ri_start a) (ri_start b))).
      { unfold kmax. rewrite <- (lo_lt HC). destruct (ltb _ _ _); reflexivity. }
      assert (E2 : kmin cmp' (After (ri_end a)) (After (ri_end b)) = After (kmin cmp (ri_end a) (ri_end b))).
      { unfold kmin. rewrite <- (hi_lt HC). destruct (ltb _ _ _); reflexivity. }
      rewrite E1, E2, <- (lohi_lt HC HO').
      destruct (leb cmp (kmax cmp (ri_start a) (ri_start b)) (kmin cmp (ri_end a) (ri_end b))) eqn:E.
      + replace (gtb cmp (kmax cmp (ri_start a) (ri_start b)) (kmin cmp (ri_end a) (ri_end b))) with false by ord.
        eexists. split; [reflexivity|]. cbn. splits; auto.
        * unfold valid_rangei. cbn. ord.
        * apply (ord_refl _ HO').
        * apply (ord_refl _ HO').
      + replace (gtb cmp (kmax cmp (ri_start a) (ri_start b)) (kmin cmp (ri_end a) (ri_end b))) with true by ord.
        reflexivity.
    - intros [|[r u] i]; cbn; eexists; split; reflexivity.
    - intros i. symmetry. apply map_length.
  Qed.
  Lemma icov_covers (l : list (rangei K)) k :
    covs (c := cmp') (s := sp) (e := ep) l (Before k) <-> exists r, In r l /\ covers r k = true.
  Proof.
    unfold covs, cov, in_rangei. split; intros (r & Hr & H); exists r; (split; [exact Hr|]).
    - destruct H as [H1 H2]. rewrite <- (lo_le HC) in H1. rewrite <- (lohi_lt HC HO') in H2. ord.
    - rewrite <- (lo_le HC), <- (lohi_lt HC HO'). split; ord.
  Qed.
  (** two cuts with a key between them *)
  Lemma sep_key a b : ltb cmp' (After a) (Before b) = true <->
    exists k, ltb cmp a k = true /\ ltb cmp k b = true.
  Proof.
    split.
    - intros H. assert (E : ltb cmp a b = true).
      { rewrite (lohi_le HC HO'). pose proof HO' as HO2. clear -H HO2. ord. }
      destruct (step_succ _ _ HS a b E) as (s & Hs & H1 & H2). exists s. split; [exact H1|].
      destruct (ltb cmp s b) eqn:G; [reflexivity|]. exfalso.
      rewrite cut_ltb in H by assumption. cbn in H. rewrite Hs in H.
      replace (leb cmp b s) with true in H by (symmetry; ord). rewrite orb_true_r in H. discriminate.
    - intros (k & H1 & H2). rewrite (lohi_le HC HO') in H1. rewrite (lo_lt HC) in H2.
      pose proof HO' as HO2. clear -H1 H2 HO2. ord.
  Qed.
  Lemma sep_runs (l : list (rangei K)) :
    StronglySorted (fun a b => exists k, ltb cmp (ri_end a) k = true /\ ltb cmp k (ri_start b) = true) l <->
    StronglySorted (fun a b => ltb cmp' (After (ri_end a)) (Before (ri_start b)) = true) l.
  Proof. split; apply SS_impl; intros a b _ _ H; apply sep_key; exact H. Qed.
  Lemma asc_pieces (l : list (rangei K)) :
    StronglySorted (fun a b => ltb cmp (ri_end a) (ri_start b) = true) l <->
    StronglySorted (fun a b => leb cmp' (After (ri_end a)) (Before (ri_start b)) = true) l.
  Proof. split; apply SS_impl; intros a b _ _ H; rewrite (lohi_le HC HO') in *; exact H. Qed.

  Lemma iForall_valid ops : fresh_sops ops -> Forall okr (ranges (run ops)).
  Proof. intros Hf. apply Forall_forall. apply (proj1 (isrun_runs ops Hf)). Qed.
  Lemma isunion a b : fresh_sops a -> fresh_sops b -> exists us,
    (forall n, nexts_m (is_union_next cmp) n (is_union (run a) (run b)) = map Ret (yields n us)) /\
    piecesi_of cmp (fun k => mem a k || mem b k) us /\
    weldedi cmp (ranges (run a) ++ ranges (run b)) us /\
    length us <= is_len (run a) + is_len (run b).
  Proof.
    intros Ha Hb.
    destruct (isrun_runs a Ha) as (A1 & A2 & A3), (isrun_runs b Hb) as (B1 & B2 & B3).
    destruct (union_drains HO' is_laws _ (is_union (run a) (run b)) (le_n _)) as (us & H1 & H2 & H3 & H4 & H5 & _ & H7 & H8).
    - split; apply (pok_new (view := map fst)).
    - apply iForall_valid, Ha.
    - apply iForall_valid, Hb.
    - apply (sep_asc HO'). apply sep_runs in A2. exact A2.
    - apply (sep_asc HO'). apply sep_runs in B2. exact B2.
    - exists us. split; [exact H1|]. split.
      + unfold piecesi_of. splits.
        * apply Forall_forall. exact H2.
        * apply asc_pieces. exact H3.
        * intros k. rewrite <- icov_covers, H5, orb_true_iff, <- A3, <- B3, <- !icov_covers. reflexivity.
      + split; [split|].
        { intros r Hr. destruct (H7 r Hr) as (u & Hu & G1 & G2). rewrite <- (lo_le HC) in G1. rewrite <- (hi_le HC) in G2.
          exists u. auto. }
        { intros u z Hu Hz1 Hz2. destruct (H8 u (Before z) Hu) as (r & Hr & G1 & G2).
          - split; [rewrite <- (lo_lt HC); exact Hz1|rewrite <- (lohi_lt HC HO'); exact Hz2].
          - rewrite <- (lo_lt HC) in G1. rewrite <- (lohi_lt HC HO') in G2. exists r. auto. } unfold is_len, im_len. unfold lv, rv in H4. cbn in H4. rewrite !map_length in H4. exact H4.
  Qed.
  Lemma isintersection a b : fresh_sops a -> fresh_sops b -> exists us,
    (forall n, nexts_m (is_intersection_next cmp) n (is_intersection (run a) (run b)) = map Ret (yields n us)) /\
    runsi_of cmp (fun k => mem a k && mem b k) us /\
    length us <= is_len (run a) + is_len (run b).
  Proof.
    intros Ha Hb.
    destruct (isrun_runs a Ha) as (A1 & A2 & A3), (isrun_runs b Hb) as (B1 & B2 & B3).
    destruct (inter_drains HO' is_laws _ (is_intersection (run a) (run b)) (le_n _)) as (us & H1 & H2 & H3 & H4 & H5 & _).
    - split; apply (pok_new (view := map fst)).
    - apply iForall_valid, Ha.
    - apply iForall_valid, Hb.
    - apply sep_runs in A2. exact A2.
    - apply sep_runs in B2. exact B2.
    - exists us. split; [exact H1|]. split.
      + unfold runsi_of. splits.
        * apply Forall_forall. exact H2.
        * apply sep_runs. exact H3.
        * intros k. rewrite <- icov_covers, H5, andb_true_iff, <- A3, <- B3, <- !icov_covers. reflexivity.
      + unfold is_len, im_len. unfold lv, rv in H4. cbn in H4. rewrite !map_length in H4. exact H4.
  Qed.

  (** ** Bulk construction *)
  Lemma ifrom_iter_map l : is_from_iter cmp st l = im_from_iter cmp unit_eqb st (map (fun r => (r, tt)) l).
  Proof.
    unfold is_from_iter, im_from_iter, is_extend, im_extend.
    rewrite (for_each_map (fun r => (r, tt)) (fun e => im_insert cmp unit_eqb st (fst e) (snd e))); reflexivity.
  Qed.
  Lemma ifrom_array_iter l : is_from_array cmp st l = is_from_iter cmp st l.
  Proof.
    unfold is_from_array, is_from_iter. generalize (is_new (K := K)).
    assert (G : forall l s, is_from_array_loop cmp st l s = is_extend cmp st l s); [|intros s; rewrite G; reflexivity].
    clear l. induction l as [|r l IH]; intros s; [reflexivity|]. cbn. unfold bind.
    destruct (is_insert cmp st r s) as [[u|p|] s']; auto. apply IH.
  Qed.
  Lemma isfrom_iter good bad :
    (forall r, In r good -> ri_exhausted r = false /\ valid r = true) ->
    match bad with [] => True | r :: _ => valid r = false end ->
    is_from_iter cmp st (good ++ bad) =
      match bad with [] => Ret (run (map SInsert good)) | _ => Panicked PAssert end.
  Proof.
    intros H1 H2. rewrite ifrom_iter_map, map_app, (irun_from_iter HO HS HV).
    - rewrite irun_to_ops, to_ops_inserts. destruct bad; reflexivity.
    - intros e He. apply in_map_iff in He as (r & <- & Hr). cbn. apply H1, Hr.
    - intros e He. apply in_map_iff in He as (r & <- & Hr). cbn. apply H1, Hr.
    - destruct bad; exact H2.
  Qed.
  Lemma isextend ops good bad : fresh_sops ops ->
    (forall r, In r good -> ri_exhausted r = false /\ valid r = true) ->
    match bad with [] => True | r :: _ => valid r = false end ->
    is_extend cmp st (good ++ bad) (run ops) =
      (match bad with [] => Ret tt | _ => Panicked PAssert end, run (ops ++ map SInsert good)).
  Proof.
    intros Hf H1 H2. unfold is_extend.
    rewrite (for_each_map (fun r => (r, tt)) (fun e => im_insert cmp unit_eqb st (fst e) (snd e))) by reflexivity.
    rewrite map_app, irun_to_ops.
    fold (im_extend cmp unit_eqb st (map (fun r => (r, tt)) good ++ map (fun r => (r, tt)) bad)).
    rewrite (irun_extend HO HS HV).
    - rewrite irun_to_ops, to_ops_app, to_ops_inserts. destruct bad; reflexivity.
    - apply fresh_to_ops, Hf.
    - intros e He. apply in_map_iff in He as (r & <- & Hr). cbn. apply H1, Hr.
    - intros e He. apply in_map_iff in He as (r & <- & Hr). cbn. apply H1, Hr.
    - destruct bad; exact H2.
  Qed.
  Lemma imem_all_valid (l : list (rangei K)) : (forall r, In r l -> ri_exhausted r = false /\ valid r = true) ->
    fresh_sops (map SInsert l) /\ forall k, mem (map SInsert l) k = existsb (fun r => covers r k) l.
  Proof.
    intros H. split.
    - unfold fresh_sops. apply forallb_forall. intros o Ho. apply in_map_iff in Ho as (r & <- & Hr). cbn.
      destruct (H r Hr) as [-> _]. reflexivity.
    - apply mem_inserts. apply forallb_forall. intros r Hr. apply H, Hr.
  Qed.

  (** ** [|] and [&] *)
  Lemma isbitor a b : fresh_sops a -> fresh_sops b ->
    exists ops, fresh_sops ops /\ is_bitor cmp st (run a) (run b) = Ret (run ops) /\
    forall k, mem ops k = mem a k || mem b k.
  Proof.
    intros Ha Hb.
    destruct (isunion a b Ha Hb) as (us & H1 & (H2 & H3 & H4) & _ & H5).
    destruct (imem_all_valid us H2) as [G1 G2]. exists (map SInsert us). split; [exact G1|].
    unfold is_bitor. rewrite (drain_ok _ us) by (try exact H1; lia). cbn [obind].
    split.
    - rewrite <- (app_nil_r us) at 1. rewrite (isfrom_iter us []) by auto. reflexivity.
    - intros k. rewrite G2. apply (existsb_cov covers us (fun k => mem a k || mem b k)). apply H4.
  Qed.
  Lemma isbitand a b : fresh_sops a -> fresh_sops b ->
    exists ops, fresh_sops ops /\ is_bitand cmp st (run a) (run b) = Ret (run ops) /\
    forall k, mem ops k = mem a k && mem b k.
  Proof.
    intros Ha Hb.
    destruct (isintersection a b Ha Hb) as (us & H1 & (H2 & H3 & H4) & H5).
    destruct (imem_all_valid us H2) as [G1 G2]. exists (map SInsert us). split; [exact G1|].
    unfold is_bitand. rewrite (drain_ok _ us) by (try exact H1; lia). cbn [obind].
    split.
    - rewrite <- (app_nil_r us) at 1. rewrite (isfrom_iter us []) by auto. reflexivity.
    - intros k. rewrite G2. apply (existsb_cov covers us (fun k => mem a k && mem b k)). apply H4.
  Qed.
  Lemma iseval x : fresh_sexp x = true -> exists ops, fresh_sops ops /\ is_eval cmp st x = Ret (run ops) /\
    forall k, mem ops k = mem_sexp valid covers x k.
  Proof.
    induction x as [|x IH o|x IHx y IHy|x IHx y IHy]; cbn [fresh_sexp]; intros Hx;
      try (apply andb_prop in Hx as [Hx Hy]).
    - exists []. repeat split.
    - destruct (IH Hx) as (ops & H0 & H1 & H2). exists (ops ++ [o]). split; [apply fresh_snoc; auto|].
      cbn. rewrite H1. cbn. rewrite isrun_snoc. split; [reflexivity|]. intros k. rewrite mem_snoc. apply mem_op_ext. exact H2.
    - destruct (IHx Hx) as (a & A0 & A1 & A2), (IHy Hy) as (b & B0 & B1 & B2).
      destruct (isbitor a b A0 B0) as (c & C0 & C1 & C2).
      exists c. split; [exact C0|]. cbn. rewrite A1, B1. cbn. split; [exact C1|]. intros k. rewrite C2, A2, B2. reflexivity.
    - destruct (IHx Hx) as (a & A0 & A1 & A2), (IHy Hy) as (b & B0 & B1 & B2).
      destruct (isbitand a b A0 B0) as (c & C0 & C1 & C2).
      exists c. split; [exact C0|]. cbn. rewrite A1, B1. cbn. split; [exact C1|]. intros k. rewrite C2, A2, B2. reflexivity.
  Qed.
  Lemma iseval_eq x y : fresh_sexp x = true -> fresh_sexp y = true ->
    exists a b, is_eval cmp st x = Ret a /\ is_eval cmp st y = Ret b /\
    (is_eqb cmp a b = true <-> forall k, mem_sexp valid covers x k = mem_sexp valid covers y k).
  Proof.
    intros Hx Hy. destruct (iseval x Hx) as (a & A0 & A1 & A2), (iseval y Hy) as (b & B0 & B1 & B2).
    exists (run a), (run b). refine (conj A1 (conj B1 _)). rewrite iseqb_spec by assumption.
    split; intros H k; specialize (H k); rewrite ?A2, ?B2 in *; exact H.
  Qed.

  (** ** Queries *)
  Lemma isiter_schedule (l : list (rangei K * unit)) sched :
    sched_trace (both is_iter_next is_iter_next_back) is_iter_size_hint sched l =
    sched_trace deque_step (fun r => (length r, Some (length r))) sched (map fst l).
  Proof. exact (iter_schedule_map fst l sched). Qed.
  Lemma isoverlapping ops q sched : fresh_sops ops ->
    exists o, is_overlapping cmp (run ops) q = Ret o /\
      map fst (sched_trace (both (is_ov_next cmp) (is_ov_next_back cmp)) (fun _ => tt) sched o) =
      deque_run sched (filter (meetsi cmp q) (ranges (run ops))).
  Proof.
    intros Hf.
    destruct (ioverlapping HO HS HV (to_ops ops) q sched (fresh_to_ops _ Hf)) as (o & H1 & H2).
    rewrite <- irun_to_ops in H1, H2. exists o. split; [exact H1|].
    rewrite (sched_map fst (both (ovi_next cmp) (ovi_next_back cmp))).
    - rewrite map_map. cbn. rewrite filter_map, deque_map. unfold is_iter. rewrite <- H2, map_map.
      reflexivity.
    - intros d s. destruct d; cbn [both]; unfold is_ov_next, is_ov_next_back.
      + destruct (ovi_next cmp s); reflexivity.
      + destruct (ovi_next_back cmp s); reflexivity.
  Qed.
  Lemma isoverlaps ops q : fresh_sops ops ->
    is_overlaps cmp (run ops) q = Ret (existsb (meetsi cmp q) (ranges (run ops))).
  Proof.
    intros Hf. destruct (isoverlapping ops q [Front] Hf) as (o & H1 & H2). unfold is_overlaps. rewrite H1. cbn.
    f_equal. cbn in H2. destruct (is_ov_next cmp o) as [e o']. cbn in H2. unfold deque_run in H2. cbn in H2.
    generalize (ranges (run ops)) H2. clear. intros l H. cbn.
    destruct (filter (meetsi cmp q) l) as [|r l'] eqn:E; cbn in H; injection H as ->.
    - destruct (existsb _ l) eqn:X; [|reflexivity]. apply existsb_exists in X as (r & R1 & R2).
      assert (In r (filter (meetsi cmp q) l)) by (apply filter_In; auto). rewrite E in H. destruct H.
    - symmetry. apply existsb_exists. exists r. apply filter_In. rewrite E. left. reflexivity.
  Qed.
  Lemma isoverlaps_exact ops q : fresh_sops ops -> valid q = true ->
    exists b, is_overlaps cmp (run ops) q = Ret b /\
      (b = true <-> exists k, covers q k = true /\ mem ops k = true).
  Proof.
    intros Hf Hq. destruct (isrun_runs ops Hf) as (H1 & H2 & H3).
    eexists. split; [apply isoverlaps, Hf|]. rewrite existsb_exists. split.
    - intros (r & Hr & Hm). destruct (H1 _ Hr) as [_ Vr].
      apply (meets_share HC HO') in Hm as (k & K1 & K2); auto. exists k. split; [exact K1|]. apply H3. eauto.
    - intros (k & K1 & K2). apply H3 in K2 as (r & Hr & K2). destruct (H1 _ Hr) as [_ Vr].
      exists r. split; [exact Hr|]. apply (meets_share HC HO'); auto. exists k. auto.
  Qed.
  Lemma isgaps ops outer : fresh_sops ops -> exists g gs, is_gaps cmp (run ops) outer = Ret g /\
    (forall n, nexts_m (is_gaps_next cmp st) n g = map Ret (yields n gs)) /\
    runsi_of cmp (fun k => covers outer k && negb (mem ops k)) gs.
  Proof.
    intros Hf.
    destruct (irun_gaps HO HS HV (to_ops ops) outer (fresh_to_ops _ Hf)) as (g & gs & H1 & H2 & H3 & H4 & H5).
    rewrite <- irun_to_ops in H1. exists g, gs. split; [exact H1|]. split; [exact H2|]. unfold runsi_of. splits.
    - intros r Hr. destruct (H3 r Hr) as (Q1 & Q2 & _). auto.
    - exact H4.
    - intros k. rewrite H5, spec_mem, andb_true_iff. destruct (mem ops k); cbn; intuition discriminate.
  Qed.
  Lemma isgaps_collect ops outer : fresh_sops ops -> exists g gs c,
    is_gaps cmp (run ops) outer = Ret g /\ (forall n, nexts_m (is_gaps_next cmp st) n g = map Ret (yields n gs)) /\
    is_from_iter cmp st gs = Ret c /\
    forall k, is_contains cmp c k = Ret (covers outer k && negb (mem ops k)).
  Proof.
    intros Hf. destruct (isgaps ops outer Hf) as (g & gs & H1 & H2 & H3 & H4 & H5).
    destruct (imem_all_valid gs H3) as [G1 G2].
    exists g, gs, (run (map SInsert gs)). splits; auto.
    - rewrite <- (app_nil_r gs) at 1. rewrite (isfrom_iter gs []) by auto. reflexivity.
    - intros k. rewrite isrun_contains, G2 by exact G1. f_equal.
      apply (existsb_cov covers gs (fun k => covers outer k && negb (mem ops k))). apply H5.
  Qed.
  Lemma isfirst_last ops : fresh_sops ops ->
    match is_first (run ops), is_last (run ops) with
    | None, None => forall k, mem ops k = false
    | Some a, Some b =>
        In a (ranges (run ops)) /\ In b (ranges (run ops)) /\
        (forall r, In r (ranges (run ops)) ->
           (r = a \/ ltb cmp (ri_end a) (ri_start r) = true) /\
           (r = b \/ ltb cmp (ri_end r) (ri_start b) = true))
    | _, _ => False
    end.
  Proof.
    intros Hf. pose proof (isrun_runs ops Hf) as (H1 & H2 & H3).
    pose proof (ifirst_last HO HS HV (to_ops ops) (fresh_to_ops _ Hf)) as H. rewrite <- irun_to_ops in H.
    unfold is_first, is_last.
    destruct (im_first_range_value (run ops)) as [[a []]|]; destruct (im_last_range_value (run ops)) as [[b []]|];
      cbn [option_map fst]; try contradiction.
    - destruct H as (F1 & L1 & H & _).
      assert (F1' := in_map fst _ _ F1). assert (L1' := in_map fst _ _ L1). cbn in F1', L1'.
      splits; auto. intros r Hr. apply in_map_iff in Hr as ([r' []] & <- & Hin).
      cbn [fst] in *. destruct (H _ Hin) as [A B]. cbn [fst] in *. split.
      + destruct A as [A|A]; [injection A; auto|auto].
      + destruct B as [B|B]; [injection B; auto|auto].
    - intros k. destruct (mem ops k) eqn:E; [|reflexivity]. apply H3 in E as (r & R & _).
      unfold is_iter, im_iter in R. destruct (run ops); [destruct R|discriminate H].
  Qed.
  Lemma islen_empty ops : fresh_sops ops ->
    is_len (run ops) = length (ranges (run ops)) /\
    (is_is_empty (run ops) = true <-> forall k, mem ops k = false) /\
    run (ops ++ [SClear]) = is_new.
  Proof.
    intros Hf. split; [rewrite map_length; reflexivity|]. split; [|rewrite isrun_snoc; reflexivity].
    destruct (ilen_empty HO HS HV (to_ops ops) (fresh_to_ops _ Hf)) as (_ & _ & H & _). rewrite <- irun_to_ops in H.
    unfold is_is_empty. rewrite H. split; intros Hk k; specialize (Hk k);
      pose proof (isrun_contains ops k Hf) as Hc; unfold is_contains in Hc; congruence.
  Qed.

  (** ** serde *)
  Lemma ivisit_seq_map {E} (l : list (E + K * K)) : forall s,
    is_visit_seq cmp st l s =
    im_visit_seq cmp unit_eqb st (map (fun x => match x with inl e => inl e | inr p => inr (p, tt) end) l) s.
  Proof.
    induction l as [|[err|[a b]] l IH]; intros s; [reflexivity|reflexivity|]. cbn. unfold bind, is_insert.
    destruct (im_insert cmp unit_eqb st (incl a b) tt s) as [[u|p|] s']; auto.
  Qed.
  Lemma ideserialize_map {E} (l : list (E + K * K)) :
    is_deserialize cmp st l =
    im_deserialize cmp unit_eqb st (map (fun x => match x with inl e => inl e | inr p => inr (p, tt) end) l).
  Proof. unfold is_deserialize, im_deserialize. rewrite ivisit_seq_map. reflexivity. Qed.
  Lemma isround_trip (E : Type) ops : fresh_sops ops ->
    is_deserialize (E := E) cmp st (map inr (snd (is_serialize (run ops)))) = Ret (inr (run ops)) /\
    fst (is_serialize (run ops)) = Some (length (snd (is_serialize (run ops)))).
  Proof.
    intros Hf. split; [|cbn; rewrite map_length; reflexivity].
    destruct (irun_round_trip HO HS HV E (to_ops ops) (fresh_to_ops _ Hf)) as [H _]. rewrite <- irun_to_ops in H.
    etransitivity; [|exact H]. rewrite ideserialize_map. f_equal. unfold is_serialize, im_serialize, is_iter. cbn [snd].
    rewrite !map_map. apply map_ext. intros [r []]. reflexivity.
  Qed.
  Lemma isdeserialize (E : Type) good (rest : list (E + K * K)) :
    (forall s e, In (s, e) good -> leb cmp s e = true) ->
    match rest with inr (s, e) :: _ => leb cmp s e = false | _ => True end ->
    is_deserialize cmp st (map inr good ++ rest) =
    match rest with
    | [] => Ret (inr (run (map (fun p => SInsert (incl (fst p) (snd p))) good)))
    | inl err :: _ => Ret (inl err)
    | inr _ :: _ => Panicked PAssert
    end.
  Proof.
    intros H1 H2. rewrite ideserialize_map, map_app.
    replace (map _ (map inr good)) with (map (@inr E _) (map (fun p => (p, tt)) good))
      by (rewrite !map_map; reflexivity).
    rewrite (irun_deserialize HO HS HV).
    - rewrite irun_to_ops. unfold to_ops. destruct rest as [|[err|[a b]] rest]; try reflexivity.
      cbn [map]. do 2 f_equal. rewrite !map_map. reflexivity.
    - intros s e v He. apply in_map_iff in He as ([a b] & [= <- <- _] & Hp). apply (H1 a b Hp).
    - destruct rest as [|[err|[a b]] rest]; auto.
  Qed.
  Lemma ishash {T} (hk : K -> list T) (hb : bool -> list T) :
    (forall x y, eqb cmp x y = true -> hk x = hk y) ->
    forall a b, fresh_sops a -> fresh_sops b ->
    (forall k, mem a k = mem b k) -> is_hash hk hb (run a) = is_hash hk hb (run b).
  Proof.
    intros Hk a b Ha Hb H. apply iseqb_spec in H; try assumption. unfold is_hash.
    apply (ihash_eq (cmp := cmp) (veqb := unit_eqb)); auto.
  Qed.
  Lemma ishash_separates {T} (hk : K -> list T) (hb : bool -> list T) :
    (forall x y s t, hk x ++ s = hk y ++ t -> eqb cmp x y = true /\ hk x = hk y) ->
    (forall x y s t, hb x ++ s = hb y ++ t -> x = y) ->
    forall a b, fresh_sops a -> fresh_sops b ->
    forall s t, is_hash hk hb (run a) ++ s = is_hash hk hb (run b) ++ t -> (forall k, mem a k = mem b k) /\ s = t.
  Proof.
    intros Hk Hb a b Ha Hb' s t H.
    destruct (ihash_inj (cmp := cmp) (veqb := unit_eqb) hk hb (fun _ => []) _ _ Hk Hb (fun _ _ _ _ _ => conj eq_refl eq_refl) _ _ H) as [H1 H2].
    split; [apply iseqb_spec; assumption|]. unfold is_hash in H. rewrite H2 in H. apply app_inv_head in H. exact H.
  Qed.
End Props.
