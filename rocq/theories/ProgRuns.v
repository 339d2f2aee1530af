(** Programs that build maps and sets out of each other: whatever closures they
    call, they end in collections that a history of calls makes; and they depend
    on the keys only through their order (and the step functions). *)
From Coq Require Import List Bool Sorted Lia.
From Verif Require Import Order Outcome BTree Ranges History Spec SpecStep SpecProg MapModel IMapModel OpsModel SetModel ISetModel
  FuzzModel ProgModel ListLemmas IterFacts MapProofs MapRemove MapFacts MapIter MapMore MapProps OpsProofs SetFacts SetProps FuzzFacts
  Natural Cross INatural IMapProps ISetProps Exhausted ExhaustedAny ExhaustedSet OpsNatural
  ProgFacts ProgAny StepPanic StepPanicSet ProgPanic StepSub ProgSub.
Import ListNotations.

(** ** Closures that need not respect [==] *)
Section Closures.
  Context {K V R : Type} (valid : R -> bool) (covers : R -> K -> bool) (veqb : V -> V -> bool).
  Notation entry := (R * V)%type.
  Notation ins l := (map (fun e : entry => OInsert (fst e) (snd e)) l).
  Lemma applied g (la lb : list entry) :
    (forall e, In e la -> valid (fst e) = true) ->
    (forall k r v r' v', In (r, v) la -> In (r', v') la -> covers r k = true -> covers r' k = true -> (r, v) = (r', v')) ->
    represents covers veqb lb (spec_run valid covers (ins (map (fun e : entry => (fst e, g (snd e))) la))) ->
    (forall k r v, In (r, v) la -> covers r k = true ->
       exists r' v', In (r', v') lb /\ covers r' k = true /\ same_val veqb v' (g v)) /\
    (forall k r' v', In (r', v') lb -> covers r' k = true -> exists r v, In (r, v) la /\ covers r k = true).
  Proof.
    intros Hv Hu HR. set (l := map (fun e : entry => (fst e, g (snd e))) la) in *.
    assert (Hl : forallb (fun e => valid (fst e)) l = true).
    { apply forallb_forall. intros e He. apply in_map_iff in He as (e' & <- & He'). apply (Hv e' He'). }
    split.
    - intros k r v Hin Hc. specialize (HR k). unfold spec_run in HR. rewrite put_list in HR by exact Hl.
      destruct (find (fun e : entry => covers (fst e) k) (rev l)) as [e|] eqn:E.
      + apply find_some in E as [E1 E2]. apply in_rev in E1. apply in_map_iff in E1 as ([r2 v2] & <- & E1). cbn [fst snd] in *.
        pose proof (Hu k _ _ _ _ Hin E1 Hc E2) as X. injection X as -> ->. exact HR.
      + assert (I1 : In (r, g v) (rev l)) by (apply in_rev; rewrite rev_involutive; apply in_map_iff; exists (r, v); auto).
        pose proof (find_none _ _ E _ I1) as X. cbn in X. congruence.
    - intros k r' v' Hin Hc. specialize (HR k). unfold spec_run in HR. rewrite put_list in HR by exact Hl.
      destruct (find (fun e : entry => covers (fst e) k) (rev l)) as [e|] eqn:E.
      + apply find_some in E as [E1 E2]. apply in_rev in E1. apply in_map_iff in E1 as ([r2 v2] & <- & E1). exists r2, v2. auto.
      + specialize (HR r' v' Hin). congruence.
  Qed.
  Lemma selected p (la : list entry) k :
    existsb (fun r => covers r k) (map fst (filter (fun e : entry => p (snd e)) la)) = true <->
    exists r v, In (r, v) la /\ covers r k = true /\ p v = true.
  Proof.
    rewrite existsb_exists. split.
    - intros (r & R1 & R2). apply in_map_iff in R1 as ([r' v] & <- & Hin). apply filter_In in Hin as [Hin Hp]. eauto.
    - intros (r & v & Hin & Hc & Hp). exists r. split; [|exact Hc]. apply in_map_iff. exists (r, v).
      split; [reflexivity|]. apply filter_In. auto.
  Qed.
End Closures.

(** ** Half-open collections *)
Section Half.
  Context {K V : Type} {cmp : K -> K -> comparison} {veqb : V -> V -> bool}.
  Context (HO : TotalOrd cmp) (HV : PartialEquiv veqb).
  Notation run := (rm_run cmp veqb).
  Notation srun' := (rs_run cmp).
  Notation valid := (valid_range cmp).
  Lemma hmap_valid ops : forall e, In e (rm_into_iter (run ops)) -> valid (fst e) = true.
  Proof. intros [r v] Hin. apply (proj2 (iter_valid_ascending HO HV ops) r v Hin). Qed.

  Notation Rm x := (exists ops, mrun cmp veqb x = Ret (run ops)).
  Notation Rs x := (exists ops, srun cmp veqb x = Ret (srun' ops)).
  Lemma prog_runs : (forall x, Rm x) /\ (forall x, Rs x).
  Proof.
    apply (prog_mut (range K) V (fun x => Rm x) (fun x => Rs x));
      cbn [mrun srun]; fold (mrun cmp veqb); fold (srun cmp veqb).
    - exists []. reflexivity.
    - intros m (a & ->) o. exists (a ++ [o]). cbn. rewrite run_snoc. reflexivity.
    - intros m (a & ->) m' (b & ->). cbn [obind]. rewrite (extend_list HO HV a) by apply hmap_valid. eauto.
    - intros m (a & ->) s (b & ->). cbn [obind]. rewrite (remove_list HO HV a) by apply (ranges_valid HO b). eauto.
    - intros m (a & ->) outer v. cbn [obind]. destruct (all_gaps HO HV a outer) as (gs & G1 & _ & G2). rewrite G1. cbn [obind].
      rewrite (extend_list HO HV a); [eauto|]. intros e He. apply in_map_iff in He as (r & <- & Hin). apply (proj1 G2), Hin.
    - intros s (b & ->) v. cbn [obind]. rewrite (collect_list HO HV); [eauto|].
      intros e He. apply in_map_iff in He as (r & <- & Hin). apply (ranges_valid HO b), Hin.
    - intros g m (b & ->). cbn [obind]. rewrite (collect_list HO HV); [eauto|].
      intros e He. apply in_map_iff in He as (e' & <- & Hin). exact (hmap_valid b e' Hin).
    - exists []. reflexivity.
    - intros s (a & ->) o. exists (a ++ [o]). cbn. rewrite srun_snoc. reflexivity.
    - intros s (a & ->) s' (b & ->). cbn [obind]. destruct (sbitor HO a b) as (c & -> & _). eauto.
    - intros s (a & ->) s' (b & ->). cbn [obind]. destruct (sbitand HO a b) as (c & -> & _). eauto.
    - intros s (a & ->) s' (b & ->). cbn [obind]. rewrite (sextend_list HO a) by apply (ranges_valid HO b). eauto.
    - intros s (a & ->) s' (b & ->). cbn [obind]. rewrite (sremove_list HO a) by apply (ranges_valid HO b). eauto.
    - intros s (a & ->) outer. cbn [obind].
      destruct (sgaps HO a outer) as (g & gs & G1 & G2 & G3 & G4 & G5).
      assert (HL : length gs <= length (srun' a) + 1).
      { apply (gaps_len HO _ outer g gs (srun_WF HO a) G1 G2). }
      unfold rs_all_gaps. rewrite G1. cbn [obind].
      rewrite (drain_pure _ _ gs) by (try exact G2; unfold rset, rmap in *; lia). cbn [obind].
      rewrite (scollect_list HO gs G3). eauto.
    - intros p m (b & ->). cbn [obind]. rewrite (scollect_list HO); [eauto|].
      intros r Hr. apply in_map_iff in Hr as (e & <- & He). apply filter_In in He as [He _]. exact (hmap_valid b e He).
    - intros m (a & ->) outer. cbn [obind]. destruct (all_gaps HO HV a outer) as (gs & G1 & _ & G2). rewrite G1. cbn [obind].
      rewrite (scollect_list HO); [eauto|]. intros r Hin. apply (proj1 G2), Hin.
  Qed.
  Lemma prog_runs_map x : exists m ops, mrun cmp veqb x = Ret m /\ m = run ops /\
    ascending cmp (rm_iter m) /\ (forall r v, In (r, v) (rm_iter m) -> valid r = true) /\ coalesced cmp veqb (rm_iter m).
  Proof.
    destruct (proj1 prog_runs x) as (ops & E). exists (run ops), ops. destruct (iter_valid_ascending HO HV ops) as [H1 H2].
    exact (conj E (conj eq_refl (conj H1 (conj H2 (WF_coalesced HO _ (run_WF HO HV ops)))))).
  Qed.
  Lemma prog_runs_set x : exists s ops, srun cmp veqb x = Ret s /\ s = srun' ops /\
    runs_of cmp (mem_run valid (in_range cmp) ops) (map fst (rs_iter s)).
  Proof. destruct (proj2 prog_runs x) as (ops & E). exists (srun' ops), ops. exact (conj E (conj eq_refl (srun_runs HO ops))). Qed.
  Lemma apply_any g x : exists a b, mrun cmp veqb x = Ret a /\ mrun cmp veqb (PApply g x) = Ret b /\
    (forall k r v, In (r, v) (rm_iter a) -> in_range cmp r k = true ->
       exists r' v', In (r', v') (rm_iter b) /\ in_range cmp r' k = true /\ same_val veqb v' (g v)) /\
    (forall k r' v', In (r', v') (rm_iter b) -> in_range cmp r' k = true ->
       exists r v, In (r, v) (rm_iter a) /\ in_range cmp r k = true).
  Proof.
    destruct (proj1 prog_runs x) as (ops & E). cbn [mrun]. fold (mrun cmp veqb). rewrite E. cbn [obind].
    rewrite (collect_list HO HV).
    - do 2 eexists. refine (conj eq_refl (conj eq_refl _)).
      apply (applied valid (in_range cmp) veqb g).
      + exact (hmap_valid ops).
      + intros k r v r' v'. apply (iter_unique HO HV).
      + apply (iter_describes HO HV).
    - intros e He. apply in_map_iff in He as (e' & <- & Hin). exact (hmap_valid ops e' Hin).
  Qed.
  Lemma where_any p x : exists a s, mrun cmp veqb x = Ret a /\ srun cmp veqb (QWhere p x) = Ret s /\
    forall k, (exists r, In r (map fst (rs_iter s)) /\ in_range cmp r k = true) <->
      exists r v, In (r, v) (rm_iter a) /\ in_range cmp r k = true /\ p v = true.
  Proof.
    destruct (proj1 prog_runs x) as (ops & E). cbn [srun]. fold (mrun cmp veqb). rewrite E. cbn [obind].
    assert (Hv : forall r, In r (map fst (filter (fun e : range K * V => p (snd e)) (rm_into_iter (run ops)))) -> valid r = true).
    { intros r Hr. apply in_map_iff in Hr as (e & <- & He). apply filter_In in He as [He _]. exact (hmap_valid ops e He). }
    rewrite (scollect_list HO _ Hv). do 2 eexists. refine (conj eq_refl (conj eq_refl _)). intros k.
    rewrite <- (selected (in_range cmp) p), <- existsb_exists.
    match goal with |- context [rs_iter ?s] => change (rs_iter s) with (rs_into_iter s) end.
    rewrite (ranges_mem HO), mem_all_valid by exact Hv. reflexivity.
  Qed.
End Half.

(** ** Inclusive collections *)
Section Inclusive.
  Context {K V : Type} {cmp : K -> K -> comparison} {veqb : V -> V -> bool} {st : stepfns K}.
  Context (HO : TotalOrd cmp) (HS : StepLaws cmp st) (HV : PartialEquiv veqb).
  Notation run := (im_run cmp veqb st).
  Notation srun' := (is_run cmp st).
  Notation Rm x := (exists ops, imrun cmp veqb st x = Ret (run ops)).
  Notation Rs x := (exists ops, isrun cmp veqb st x = Ret (srun' ops)).
  Lemma iprog_runs : (forall x, Rm x) /\ (forall x, Rs x).
  Proof.
    apply (prog_mut (rangei K) V (fun x => Rm x) (fun x => Rs x));
      cbn [imrun isrun]; fold (imrun cmp veqb st); fold (isrun cmp veqb st).
    - exists []. reflexivity.
    - intros m (a & ->) o. exists (a ++ [o]). rewrite irun_app. reflexivity.
    - intros m (a & ->) m' (b & ->). cbn [obind]. rewrite (iextend_list' HO HS HV a) by apply (map_valid HO HS HV). eauto.
    - intros m (a & ->) s (b & ->). cbn [obind]. rewrite (iremove_list' HO HS HV a) by apply (iranges_valid' HO HS b). eauto.
    - intros m (a & ->) outer v. cbn [obind]. destruct (iall_gaps' HO HS HV a outer) as (gs & G1 & _ & G2). rewrite G1. cbn [obind].
      rewrite (iextend_list' HO HS HV a); [eauto|]. intros e He. apply in_map_iff in He as (r & <- & Hin). apply (proj1 G2), Hin.
    - intros s (b & ->) v. cbn [obind]. rewrite (icollect_list' HO HS HV); [eauto|].
      intros e He. apply in_map_iff in He as (r & <- & Hin). apply (iranges_valid' HO HS b), Hin.
    - intros g m (b & ->). cbn [obind]. rewrite (icollect_list' HO HS HV); [eauto|].
      intros e He. apply in_map_iff in He as (e' & <- & Hin). exact (map_valid HO HS HV b e' Hin).
    - exists []. reflexivity.
    - intros s (a & ->) o. exists (a ++ [o]). unfold is_run at 2, run_ops. rewrite fold_left_app. reflexivity.
    - intros s (a & ->) s' (b & ->). cbn [obind]. destruct (xs_bitor HO HS a b) as (c & -> & _). eauto.
    - intros s (a & ->) s' (b & ->). cbn [obind]. destruct (xs_bitand HO HS a b) as (c & -> & _). eauto.
    - intros s (a & ->) s' (b & ->). cbn [obind]. rewrite (isextend_list' HO HS a) by apply (iranges_valid' HO HS b). eauto.
    - intros s (a & ->) s' (b & ->). cbn [obind].
      exists (a ++ map SRemove (map fst (is_into_iter (srun' b)))). exact (isremove_list' HO HS a _ (iranges_valid' HO HS b)).
    - intros s (a & ->) outer. cbn [obind]. destruct (isall_gaps' HO HS a outer) as (gs & G1 & _ & G2 & _). rewrite G1. cbn [obind].
      rewrite (proj1 (iscollect_list' HO HS gs (fun r Hr => proj2 (G2 r Hr)))). eauto.
    - intros p m (b & ->). cbn [obind].
      rewrite (proj1 (iscollect_list' HO HS _ ltac:(intros r Hr; apply in_map_iff in Hr as (e & <- & He);
        apply filter_In in He as [He _]; exact (map_valid HO HS HV b e He)))). eauto.
    - intros m (a & ->) outer. cbn [obind]. destruct (iall_gaps' HO HS HV a outer) as (gs & G1 & _ & G2). rewrite G1. cbn [obind].
      rewrite (proj1 (iscollect_list' HO HS gs (fun r Hr => proj1 (proj2 (proj1 G2 r Hr))))). eauto.
  Qed.

  Lemma iprog_runs_map x : exists m ops, imrun cmp veqb st x = Ret m /\ m = run ops /\
    ascendingi cmp (im_iter m) /\ (forall r v, In (r, v) (im_iter m) -> valid_rangei cmp r = true) /\ coalescedi cmp veqb (im_iter m).
  Proof.
    destruct (proj1 iprog_runs x) as (ops & E). exists (run ops), ops. destruct (ExhaustedAny.any_valid HO HS HV ops) as [H1 H2].
    exact (conj E (conj eq_refl (conj H1 (conj (fun r v H => proj1 (H2 r v H)) (ExhaustedAny.any_coalesced HO HS HV ops))))).
  Qed.
  Lemma iprog_runs_set x : exists s ops, isrun cmp veqb st x = Ret s /\ s = srun' ops /\
    (forall r, In r (map fst (is_iter s)) -> valid_rangei cmp r = true) /\
    StronglySorted (fun a b => exists k, ltb cmp (ri_end a) k = true /\ ltb cmp k (ri_start b) = true) (map fst (is_iter s)).
  Proof.
    destruct (proj2 iprog_runs x) as (ops & E). exists (srun' ops), ops. destruct (xs_runs' HO HS ops) as (R1 & R2 & _).
    exact (conj E (conj eq_refl (conj R1 R2))).
  Qed.
  Lemma iapply_any g x : exists a b, imrun cmp veqb st x = Ret a /\ imrun cmp veqb st (PApply g x) = Ret b /\
    (forall k r v, In (r, v) (im_iter a) -> in_rangei cmp r k = true ->
       exists r' v', In (r', v') (im_iter b) /\ in_rangei cmp r' k = true /\ same_val veqb v' (g v)) /\
    (forall k r' v', In (r', v') (im_iter b) -> in_rangei cmp r' k = true ->
       exists r v, In (r, v) (im_iter a) /\ in_rangei cmp r k = true).
  Proof.
    destruct (proj1 iprog_runs x) as (ops & E). cbn [imrun]. fold (imrun cmp veqb st). rewrite E. cbn [obind].
    rewrite (icollect_list' HO HS HV).
    - do 2 eexists. refine (conj eq_refl (conj eq_refl _)).
      apply (applied (valid_rangei cmp) (in_rangei cmp) veqb g).
      + exact (map_valid HO HS HV ops).
      + intros k r v r' v'. apply (ExhaustedAny.any_unique HO HS HV).
      + apply (ExhaustedAny.any_describes HO HS HV).
    - intros e He. apply in_map_iff in He as (e' & <- & Hin). exact (map_valid HO HS HV ops e' Hin).
  Qed.
  Lemma iwhere_any p x : exists a s, imrun cmp veqb st x = Ret a /\ isrun cmp veqb st (QWhere p x) = Ret s /\
    forall k, (exists r, In r (map fst (is_iter s)) /\ in_rangei cmp r k = true) <->
      exists r v, In (r, v) (im_iter a) /\ in_rangei cmp r k = true /\ p v = true.
  Proof.
    destruct (proj1 iprog_runs x) as (ops & E). cbn [isrun]. fold (imrun cmp veqb st). rewrite E. cbn [obind].
    assert (Hv : forall r, In r (map fst (filter (fun e : rangei K * V => p (snd e)) (im_into_iter (run ops)))) -> valid_rangei cmp r = true).
    { intros r Hr. apply in_map_iff in Hr as (e & <- & He). apply filter_In in He as [He _]. exact (map_valid HO HS HV ops e He). }
    destruct (iscollect_list' HO HS _ Hv) as [C1 C2]. rewrite C1. do 2 eexists. refine (conj eq_refl (conj eq_refl _)). intros k.
    rewrite <- (selected (in_rangei cmp) p), <- existsb_exists.
    match goal with |- context [is_iter ?s] => change (is_iter s) with (is_into_iter s) end.
    rewrite (iranges_mem' HO HS), C2. reflexivity.
  Qed.

  Context {K' : Type} {cmp' : K' -> K' -> comparison} (f : K -> K') {st' : stepfns K'}.
  Context (Hf : forall a b, cmp' (f a) (f b) = cmp a b).
  Context (Hadd : forall a, add_one st a = None \/ add_one st' (f a) = option_map f (add_one st a)).
  Context (Hsub : forall a, sub_one st a = None \/ sub_one st' (f a) = option_map f (sub_one st a)).
  Lemma relabel_iprog (x : mprog (rangei K) V) :
    imrun cmp' veqb st' (fm (fri f) x) = omap (map (fei f (fun v => v))) (imrun cmp veqb st x).
  Proof.
    destruct (proj1 (n_prog f Hf Hadd Hsub HO HS HV) x) as [E|E]; [|exact E].
    destruct (proj1 iprog_runs x) as (ops & H). congruence.
  Qed.
  Lemma relabel_isprog (x : sprog (rangei K) V) :
    isrun cmp' veqb st' (fq (fri f) x) = omap (map (fei f (fun u => u))) (isrun cmp veqb st x).
  Proof.
    destruct (proj2 (n_prog f Hf Hadd Hsub HO HS HV) x) as [E|E]; [|exact E].
    destruct (proj2 iprog_runs x) as (ops & H). congruence.
  Qed.
End Inclusive.

(** ** Relabelling, half-open *)
Section NaturalHalf.
  Context {K K' V : Type} {cmp : K -> K -> comparison} {cmp' : K' -> K' -> comparison} (f : K -> K') {veqb : V -> V -> bool}.
  Context (Hf : forall a b, cmp' (f a) (f b) = cmp a b).
  Notation fr := (fr f).
  Notation idm W := (fun w : W => w).
  Notation fe W := (fe f (idm W)).

  Lemma nb {A B C D} (F : A -> B) (G : C -> D) (o : outcome A) (h : A -> outcome C) h' :
    (forall a, h' (F a) = omap G (h a)) -> obind (omap F o) h' = omap G (obind o h).
  Proof. intros H. destruct o; cbn; [apply H|reflexivity|reflexivity]. Qed.
  Lemma n_after {W} (c : M (rmap K W) unit) c' m : Natural.hom f (idm W) (fun u => u) c c' ->
    state_after c' (map (fe W) m) = omap (map (fe W)) (state_after c m).
  Proof. intros H. unfold state_after. rewrite H. destruct (c m) as [[u|p|] m']; reflexivity. Qed.
  Lemma h_extend l (m : rmap K V) : state_after (rm_extend cmp' veqb (map (fe V) l)) (map (fe V) m) =
    omap (map (fe V)) (state_after (rm_extend cmp veqb l) m).
  Proof. apply n_after. exact (n_extend (cmp := cmp) (veqb := veqb) f (idm V) Hf (fun _ _ => eq_refl) l). Qed.
  Lemma h_removes {W} l (m : rmap K W) : state_after (for_each (rm_remove cmp') (map fr l)) (map (fe W) m) =
    omap (map (fe W)) (state_after (for_each (rm_remove cmp) l) m).
  Proof.
    apply n_after. induction l as [|r l IH]; cbn [map for_each]; [exact (Natural.hom_ret f (idm W) (fun u => u) tt)|].
    eapply Natural.hom_bind; [exact (n_remove (cmp := cmp) f (idm W) Hf r)|]. intros _. exact IH.
  Qed.
  Lemma h_collect l : rm_from_iter cmp' veqb (map (fe V) l) = omap (map (fe V)) (rm_from_iter cmp veqb l).
  Proof.
    unfold rm_from_iter. change (@rm_new K' V) with (map (fe V) (@rm_new K V)).
    rewrite (n_extend (cmp := cmp) (veqb := veqb) f (idm V) Hf (fun _ _ => eq_refl) l rm_new).
    destruct (rm_extend cmp veqb l rm_new) as [[u|p|] m']; reflexivity.
  Qed.
  Lemma h_sextend l (s : rset K) : state_after (rs_extend cmp' (map fr l)) (map (fe unit) s) =
    omap (map (fe unit)) (state_after (rs_extend cmp l) s).
  Proof.
    unfold state_after. rewrite (n_rs_extend f Hf l s). destruct (rs_extend cmp l s) as [[u|p|] m']; reflexivity.
  Qed.
  Lemma h_drain {W} n : forall g : gaps K W,
    fst (drain (pnext (gp_next cmp')) n (Natural.fgp f (idm W) g)) = omap (map fr) (fst (drain (pnext (gp_next cmp)) n g)).
  Proof.
    induction n as [|n IH]; intros g; cbn [drain]; [reflexivity|]. unfold bind, pnext in *. rewrite (n_gp_next (cmp := cmp) f (idm W) Hf g).
    destruct (gp_next cmp g) as [[r|] g']; cbn [fst snd option_map]; [|reflexivity].
    specialize (IH g'). match goal with |- context [drain ?a n (Natural.fgp _ _ _)] => destruct (drain a n (Natural.fgp f (idm W) g')) as [o2 s2] end.
    match goal with |- context [drain ?a n g'] => destruct (drain a n g') as [o1 s1] end.
    cbn [fst] in *. subst o2. destruct o1; reflexivity.
  Qed.
  Lemma h_gaps {W} (m : rmap K W) outer : rm_all_gaps cmp' (map (fe W) m) (fr outer) = omap (map fr) (rm_all_gaps cmp m outer).
  Proof.
    unfold rm_all_gaps. rewrite (n_gaps (cmp := cmp) f (idm W) Hf), map_length. apply nb. intros g. apply h_drain.
  Qed.
  Lemma h_entries {W} (m : rmap K W) : map fst (map (fe W) m) = map fr (map fst m).
  Proof. rewrite !map_map. reflexivity. Qed.
  Lemma h_painted (v : V) l : map (fun r => (r, v)) (map fr l) = map (fe V) (map (fun r => (r, v)) l).
  Proof. rewrite !map_map. reflexivity. Qed.
  Lemma h_where p (m : rmap K V) : map fst (filter (fun e => p (snd e)) (map (fe V) m)) = map fr (map fst (filter (fun e => p (snd e)) m)).
  Proof. induction m as [|[r v] m IH]; [reflexivity|]. cbn. destruct (p v); cbn; rewrite IH; reflexivity. Qed.
  Lemma h_fmop o : fmop fr o = fop f (idm V) o.
  Proof. destruct o; reflexivity. Qed.
  Notation nm x := (mrun cmp' veqb (fm fr x) = omap (map (fe V)) (mrun cmp veqb x)).
  Notation ns x := (srun cmp' veqb (fq fr x) = omap (map (fe unit)) (srun cmp veqb x)).
  Lemma h_prog : (forall x : mprog (range K) V, nm x) /\ (forall x : sprog (range K) V, ns x).
  Proof.
    apply (prog_mut (range K) V (fun x => nm x) (fun x => ns x));
      cbn [mrun srun fm fq]; fold (mrun cmp veqb); fold (srun cmp veqb);
      fold (mrun cmp' veqb); fold (srun cmp' veqb); fold (@fm (range K) (range K') V fr); fold (@fq (range K) (range K') V fr).
    - reflexivity.
    - intros m -> o. rewrite h_fmop. destruct (mrun cmp veqb m) as [a|p|]; cbn; [|reflexivity|reflexivity].
      rewrite (n_exec (cmp := cmp) (veqb := veqb) f (idm V) Hf (fun _ _ => eq_refl) o a). reflexivity.
    - intros m -> m' ->. apply nb. intros a. apply nb. intros b. apply h_extend.
    - intros m -> m' ->. apply nb. intros a. apply nb. intros b. unfold rs_into_iter, rm_into_iter. rewrite h_entries. apply h_removes.
    - intros m -> outer v. apply nb. intros a. rewrite h_gaps. apply nb. intros b. rewrite h_painted. apply h_extend.
    - intros s -> v. apply nb. intros a. unfold rs_into_iter, rm_into_iter. rewrite h_entries, h_painted. apply h_collect.
    - intros g m ->. apply nb. intros a. unfold rm_into_iter.
      replace (map (fun e => (fst e, g (snd e))) (map (fe V) a)) with (map (fe V) (map (fun e => (fst e, g (snd e))) a))
        by (rewrite !map_map; reflexivity). apply h_collect.
    - reflexivity.
    - intros s -> o. destruct (srun cmp veqb s) as [a|p|]; cbn; [|reflexivity|reflexivity]. rewrite (n_rs_exec f Hf o a). reflexivity.
    - intros m -> m' ->. apply nb. intros a. apply nb. intros b. exact (n_rs_bitor f Hf a b).
    - intros m -> m' ->. apply nb. intros a. apply nb. intros b. exact (n_rs_bitand f Hf a b).
    - intros m -> m' ->. apply nb. intros a. apply nb. intros b. unfold rs_into_iter, rm_into_iter. rewrite h_entries. apply h_sextend.
    - intros m -> m' ->. apply nb. intros a. apply nb. intros b. unfold rs_into_iter, rm_into_iter. rewrite h_entries. exact (h_removes _ _).
    - intros s -> outer. apply nb. intros a. change (rs_all_gaps cmp' ?x) with (rm_all_gaps cmp' x).
      change (rs_all_gaps cmp a outer) with (rm_all_gaps cmp a outer). rewrite (h_gaps a outer). apply nb. intros b. exact (n_rs_from_iter f Hf b).
    - intros p m ->. apply nb. intros a. unfold rm_into_iter. rewrite h_where. exact (n_rs_from_iter f Hf _).
    - intros m -> outer. apply nb. intros a. rewrite h_gaps. apply nb. intros b. exact (n_rs_from_iter f Hf b).
  Qed.
End NaturalHalf.

(** ** Keys in use *)
Section Sub.
  Context {K V : Type} {cmp : K -> K -> comparison} {veqb : V -> V -> bool} {st : stepfns K} (P : K -> bool).
  Context (HO : TotalOrd cmp) (HP : lawful_on cmp st P) (HV : PartialEquiv veqb).
  Lemma on_prog_runs :
    (forall x, mprog_on P x -> exists ops, ops_on P ops /\ imrun cmp veqb st x = Ret (im_run cmp veqb st ops)) /\
    (forall x, sprog_on P x -> exists ops, sops_on P ops /\ isrun cmp veqb st x = Ret (is_run cmp st ops)).
  Proof.
    split; intros x H.
    - destruct (proj1 (lift_prog P) x H) as [y <-].
      destruct (proj1 (iprog_runs (korder P HO) (klaws P HP) HV) y) as (ops & E).
      exists (map (fopi (val P) (fun v : V => v)) ops). split.
      + intros o Ho. apply in_map_iff in Ho as (o' & <- & _). apply fop_on.
      + rewrite (relabel_iprog (korder P HO) (klaws P HP) HV (val P) (kcmp_val P) (kadd P) (ksub P)), E. cbn. f_equal.
        symmetry. apply (sub_run P HO HP HV).
    - destruct (proj2 (lift_prog P) x H) as [y <-].
      destruct (proj2 (iprog_runs (korder P HO) (klaws P HP) HV) y) as (ops & E).
      exists (map (fsop (fri (val P))) ops). split.
      + intros o Ho. apply in_map_iff in Ho as (o' & <- & _). apply fsop_on.
      + rewrite (relabel_isprog (korder P HO) (klaws P HP) HV (val P) (kcmp_val P) (kadd P) (ksub P)), E. cbn. f_equal.
        symmetry. apply (n_is_run (val P) (kcmp_val P) (kadd P) (ksub P) (korder P HO) (klaws P HP)).
  Qed.
  Lemma on_apply_any g x : mprog_on P x -> exists a b, imrun cmp veqb st x = Ret a /\ imrun cmp veqb st (PApply g x) = Ret b /\
    (forall k r v, P k = true -> In (r, v) (im_iter a) -> in_rangei cmp r k = true ->
       exists r' v', In (r', v') (im_iter b) /\ in_rangei cmp r' k = true /\ same_val veqb v' (g v)) /\
    (forall k r' v', P k = true -> In (r', v') (im_iter b) -> in_rangei cmp r' k = true ->
       exists r v, In (r, v) (im_iter a) /\ in_rangei cmp r k = true).
  Proof.
    intros H. destruct (proj1 (lift_prog P) x H) as [y <-].
    destruct (iapply_any (korder P HO) (klaws P HP) HV g y) as (a & b & A & B & H1 & H2).
    exists (map (fei (val P) (fun v : V => v)) a), (map (fei (val P) (fun v : V => v)) b).
    split; [rewrite (relabel_iprog (korder P HO) (klaws P HP) HV (val P) (kcmp_val P) (kadd P) (ksub P)), A; reflexivity|].
    split; [change (PApply g (fm (fri (val P)) y)) with (fm (fri (val P)) (PApply g y));
      rewrite (relabel_iprog (korder P HO) (klaws P HP) HV (val P) (kcmp_val P) (kadd P) (ksub P)), B; reflexivity|].
    unfold im_iter in *. split.
    - intros k r v Hk Hin Hc. destruct (within_in P k Hk) as (z & _ & <-).
      apply in_map_iff in Hin as ([r0 v0] & E & Hin). injection E as <- <-.
      destruct (H1 z r0 v0 Hin Hc) as (r' & v' & I & C & S). exists (fri (val P) r'), v'.
      split; [apply in_map_iff; exists (r', v'); split; [reflexivity|exact I]|]. split; [exact C|exact S].
    - intros k r v Hk Hin Hc. destruct (within_in P k Hk) as (z & _ & <-).
      apply in_map_iff in Hin as ([r0 v0] & E & Hin). injection E as <- <-.
      destruct (H2 z r0 v0 Hin Hc) as (r' & v' & I & C). exists (fri (val P) r'), v'.
      split; [apply in_map_iff; exists (r', v'); split; [reflexivity|exact I]|exact C].
  Qed.
  Lemma on_where_any p x : mprog_on P x -> exists a s, imrun cmp veqb st x = Ret a /\ isrun cmp veqb st (QWhere p x) = Ret s /\
    forall k, P k = true -> (exists r, In r (map fst (is_iter s)) /\ in_rangei cmp r k = true) <->
      exists r v, In (r, v) (im_iter a) /\ in_rangei cmp r k = true /\ p v = true.
  Proof.
    intros H. destruct (proj1 (lift_prog P) x H) as [y <-].
    destruct (iwhere_any (korder P HO) (klaws P HP) HV p y) as (a & s & A & B & H1).
    exists (map (fei (val P) (fun v : V => v)) a), (map (fei (val P) (fun u : unit => u)) s).
    split; [rewrite (relabel_iprog (korder P HO) (klaws P HP) HV (val P) (kcmp_val P) (kadd P) (ksub P)), A; reflexivity|].
    split; [change (QWhere p (fm (fri (val P)) y)) with (fq (fri (val P)) (QWhere p y));
      rewrite (relabel_isprog (korder P HO) (klaws P HP) HV (val P) (kcmp_val P) (kadd P) (ksub P)), B; reflexivity|].
    unfold is_iter, im_iter in *. intros k Hk. destruct (within_in P k Hk) as (z & _ & <-). specialize (H1 z). split.
    - intros (r & Hin & Hc). rewrite map_map in Hin. apply in_map_iff in Hin as ([r0 u] & <- & Hin).
      destruct (proj1 H1) as (r' & v & I & C & Q).
      + exists r0. split; [apply in_map_iff; exists (r0, u); auto|exact Hc].
      + exists (fri (val P) r'), v. split; [apply in_map_iff; exists (r', v); auto|]. auto.
    - intros (r & v & Hin & Hc & Q). apply in_map_iff in Hin as ([r0 v0] & E & Hin). injection E as <- <-.
      destruct (proj2 H1) as (r' & I & C); [exists r0, v0; auto|].
      exists (fri (val P) r'). split; [|exact C]. rewrite map_map. apply in_map_iff in I as ([r1 u] & <- & I).
      apply in_map_iff. exists (r1, u). auto.
  Qed.
End Sub.
