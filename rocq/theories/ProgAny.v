(** The facts behind the theorems of P_Prog.v about programs whose ranges may have
    been iterated to exhaustion. *)
From Coq Require Import List Bool Sorting.Sorted ZArith Lia.
From Verif Require Import Order Outcome BTree Ranges History Spec MapModel IMapModel OpsModel SetModel ISetModel FuzzModel
  ListLemmas IterFacts MapProofs MapRemove MapFacts MapIter MapMore MapProps OpsProofs SetFacts SetProps FuzzFacts
  ISim Cuts IFacts IMapProps ISetProps SpecProg ProgModel ProgFacts Exhausted ExhaustedAny ExhaustedSet.
Import ListNotations.

Section Any.
  Context {K V : Type} {cmp : K -> K -> comparison} {veqb : V -> V -> bool} {st : stepfns K}.
  Context (HO : TotalOrd cmp) (HS : StepLaws cmp st) (HV : PartialEquiv veqb).

  Notation run := (im_run cmp veqb st).
  Notation srun' := (is_run cmp st).
  Notation valid := (valid_rangei cmp).
  Notation covers := (in_rangei cmp).
  Notation spec := (spec_run (V := V) valid covers).
  Notation mem := (mem_run valid covers).
  Notation osame := (same_opt veqb).
  Notation entry := (rangei K * V)%type.
  Notation ins l := (map (fun e : entry => OInsert (fst e) (snd e)) l).
  Notation mval := (mval valid covers).
  Notation sval := (sval valid covers).
  Notation HC := (cuts cmp st HO HS).
  Notation HO' := (cut_order cmp st HO HS).

  Lemma iall_gaps' ops outer : exists gs, im_all_gaps cmp st (run ops) outer = Ret gs /\
    length gs <= length (run ops) + 1 /\ gapsi_of cmp (spec ops) outer gs.
  Proof.
    destruct (ExhaustedAny.any_gaps HO HS HV ops outer) as (g & gs & H1 & H2 & H3). exists gs.
    destruct (x_gaps_all (cmp := cmp) (veqb := veqb) (st := st) ops outer) as (g1 & g2 & G1 & G2 & G3).
    assert (HL : length gs <= length (run ops) + 1).
    { replace (length (run ops)) with (length (run (map freshen_op ops))) by (rewrite x_run; apply map_length).
      apply (igaps_len HC HO' _ _ _ _ (irun_WF HO HS HV _ (freshen_fresh ops)) G2).
      intros n. rewrite G3. rewrite H1 in G1. injection G1 as <-. apply H2. }
    splits; auto. unfold im_all_gaps. rewrite H1. cbn [obind]. apply drain_ok; [exact H2|]. unfold imap in *. lia.
  Qed.
  Lemma iremove_list' ops l : (forall r, In r l -> valid r = true) ->
    state_after (for_each (im_remove cmp st) l) (run ops) = Ret (run (ops ++ map ORemove l)).
  Proof.
    revert ops. induction l as [|r l IH]; intros ops H; [cbn; rewrite app_nil_r; auto|].
    pose proof (ExhaustedAny.any_remove HO HS HV ops r) as Hr. rewrite (H r (or_introl eq_refl)) in Hr.
    unfold state_after in *. cbn [for_each]. unfold bind. rewrite Hr.
    change (map ORemove (r :: l)) with ([@ORemove (rangei K) V r] ++ map ORemove l). rewrite app_assoc. apply IH.
    intros r' Hr'. apply H. right. exact Hr'.
  Qed.
  Lemma iextend_list' ops l : (forall e, In e l -> valid (fst e) = true) ->
    state_after (im_extend cmp veqb st l) (run ops) = Ret (run (ops ++ ins l)).
  Proof.
    intros H. unfold state_after. rewrite <- (app_nil_r l) at 1.
    rewrite (ExhaustedAny.any_extend HO HS HV l ops [] H); [reflexivity|exact Logic.I].
  Qed.
  Lemma icollect_list' l : (forall e, In e l -> valid (fst e) = true) ->
    im_from_iter cmp veqb st l = Ret (run (ins l)).
  Proof.
    intros H. rewrite <- (app_nil_r l) at 1.
    apply (ExhaustedAny.any_from_iter HO HS HV l [] H). exact Logic.I.
  Qed.
  Lemma isexec_list (f : rangei K -> sop (rangei K)) l : forall ops,
    (forall r, In r l -> forall ops, is_exec cmp st (f r) (srun' ops) = (Ret tt, srun' (ops ++ [f r]))) ->
    for_each (fun r => is_exec cmp st (f r)) l (srun' ops) = (Ret tt, srun' (ops ++ map f l)).
  Proof.
    induction l as [|r l IH]; intros ops H; [cbn; rewrite app_nil_r; auto|].
    cbn [for_each]. unfold bind. rewrite (H r (or_introl eq_refl)).
    cbn [map]. change (f r :: map f l) with ([f r] ++ map f l). rewrite app_assoc. apply IH.
    intros r' Hr'. apply H. right. exact Hr'.
  Qed.
  Lemma isremove_list' ops l : (forall r, In r l -> valid r = true) ->
    state_after (for_each (is_remove cmp st) l) (srun' ops) = Ret (srun' (ops ++ map SRemove l)).
  Proof.
    intros H. unfold state_after.
    change (for_each (is_remove cmp st) l) with (for_each (fun r => is_exec cmp st (SRemove r)) l).
    rewrite (isexec_list SRemove l ops); [reflexivity|]. cbn [is_exec].
    intros r Hr ops'. pose proof (ExhaustedAny.any_remove HO HS unit_per (to_ops ops') r) as X. rewrite (H r Hr) in X.
    rewrite !irun_to_ops. unfold is_remove. rewrite X. unfold to_ops. rewrite map_app. reflexivity.
  Qed.
  Lemma isextend_list' ops l : (forall r, In r l -> valid r = true) ->
    state_after (is_extend cmp st l) (srun' ops) = Ret (srun' (ops ++ map SInsert l)).
  Proof.
    intros H. unfold state_after, is_extend.
    change (for_each (is_insert cmp st) l) with (for_each (fun r => is_exec cmp st (SInsert r)) l).
    rewrite (isexec_list SInsert l ops); [reflexivity|]. cbn [is_exec].
    intros r Hr ops'. pose proof (ExhaustedAny.any_insert HO HS unit_per (to_ops ops') r tt) as X. rewrite (H r Hr) in X.
    rewrite !irun_to_ops. unfold is_insert. rewrite X. unfold to_ops. rewrite map_app. reflexivity.
  Qed.
  Lemma iscollect_list' l : (forall r, In r l -> valid r = true) ->
    is_from_iter cmp st l = Ret (srun' (map SInsert l)) /\
    forall k, mem (map SInsert l) k = existsb (fun r => covers r k) l.
  Proof. intros H. split; [apply (xs_from_iter HO HS), H|apply xmem_all_valid, H]. Qed.
  Lemma iranges_mem' ops k : existsb (fun r => covers r k) (map fst (is_into_iter (srun' ops))) = mem ops k.
  Proof. destruct (xs_runs' HO HS ops) as (_ & _ & H). apply (existsb_cov covers _ (mem ops)). apply H. Qed.
  Lemma iranges_valid' ops : forall r, In r (map fst (is_into_iter (srun' ops))) -> valid r = true.
  Proof. apply (xs_runs' HO HS ops). Qed.
  Lemma iall_valid' l : (forall r, In r l -> valid r = true) -> forallb valid l = true.
  Proof. intros H. apply forallb_forall. exact H. Qed.
  Lemma isall_gaps' ops outer : exists gs, is_all_gaps cmp st (srun' ops) outer = Ret gs /\
    length gs <= length (srun' ops) + 1 /\ runsi_of cmp (fun k => covers outer k && negb (mem ops k)) gs.
  Proof.
    destruct (xs_gaps HO HS ops outer) as (g & gs & H1 & H2 & H3). exists gs.
    destruct (x_gaps_all (cmp := cmp) (veqb := unit_eqb) (st := st) (to_ops ops) outer) as (g1 & g2 & G1 & G2 & G3).
    assert (HL : length gs <= length (srun' ops) + 1).
    { rewrite irun_to_ops.
      replace (length (im_run cmp unit_eqb st (to_ops ops))) with (length (im_run cmp unit_eqb st (map freshen_op (to_ops ops))))
        by (rewrite x_run; apply map_length).
      apply (igaps_len HC HO' _ _ _ _ (irun_WF HO HS unit_per _ (freshen_fresh (to_ops ops))) G2).
      intros n. rewrite G3. unfold is_gaps in H1. rewrite irun_to_ops, G1 in H1. injection H1 as <-. apply H2. }
    splits; auto. unfold is_all_gaps. rewrite H1. cbn [obind]. apply drain_ok; [exact H2|]. unfold iset, imap in *. lia.
  Qed.

  Notation Rm x := (exists ops, imrun cmp veqb st x = Ret (run ops) /\ forall k, osame (spec ops k) (mval x k)).
  Notation Rs x := (exists ops, isrun cmp veqb st x = Ret (srun' ops) /\ forall k, mem ops k = sval x k).

  Lemma iprog_any :
    (forall x, mrespects veqb x -> Rm x) /\ (forall x, srespects veqb x -> Rs x).
  Proof.
    apply (prog_mut (rangei K) V (fun x => mrespects veqb x -> Rm x)
      (fun x => srespects veqb x -> Rs x));
      cbn [mrespects srespects imrun isrun SpecProg.mval SpecProg.sval];
      fold (imrun cmp veqb st); fold (isrun cmp veqb st);
      fold (SpecProg.mval (V := V) valid covers); fold (SpecProg.sval (V := V) valid covers);
      fold (mrespects (R := rangei K) veqb); fold (srespects (R := rangei K) veqb).
    - exists []. split; [reflexivity|]. intros k. exact Logic.I.
    - intros m IH o Hr. destruct (IH Hr) as (ops & E & H). exists (ops ++ [o]). rewrite E. split.
      + unfold omap. cbn. rewrite irun_app. reflexivity.
      + rewrite spec_snoc. apply spec_op_same, H.
    - intros m IH m' IH' [Hr Hr']. destruct (IH Hr) as (a & A & HA), (IH' Hr') as (b & B & HB).
      rewrite A, B. cbn [obind]. destruct (ExhaustedAny.any_valid HO HS HV b) as [_ Hv0].
      assert (Hv : forall r v, In (r, v) (im_into_iter (run b)) -> valid r = true) by (intros r v Hin; apply (Hv0 r v Hin)).
      destruct (ExhaustedAny.any_describes HO HS HV b) as [_ Hd].
      unshelve epose proof (iextend_list' a (im_into_iter (run b)) _) as E; [intros [r v] Hin; apply (Hv0 r v Hin)|].
      eexists. refine (conj E _).
      + intros k. rewrite spec_cat. destruct (Hd k) as [D1 D2].
        pose proof (put_described valid covers veqb (im_into_iter (run b)) (spec b) (spec a) k Hv D1 D2) as P.
        eapply (osame_trans HV); [exact P|]. specialize (HA k). specialize (HB k).
        destruct (spec b k), (mval m' k); try destruct HB; auto.
        * subst. left; reflexivity.
        * right; assumption.
    - intros m IH s IH' [Hr Hr']. destruct (IH Hr) as (a & A & HA), (IH' Hr') as (b & B & HB).
      rewrite A, B. cbn [obind]. unshelve epose proof (iremove_list' a (map fst (is_into_iter (srun' b))) _) as E; [apply iranges_valid'|].
      eexists. refine (conj E _).
      + intros k. rewrite spec_cat, del_list by (apply iall_valid', iranges_valid').
        rewrite iranges_mem', HB. destruct (sval s k); [exact Logic.I|apply HA].
    - intros m IH outer v Hr. destruct (IH Hr) as (a & A & HA). rewrite A. cbn [obind].
      destruct (iall_gaps' a outer) as (gs & G1 & _ & G2). rewrite G1. cbn [obind].
      unshelve epose proof (iextend_list' a (map (fun r => (r, v)) gs) _) as E0.
      { intros e He. apply in_map_iff in He as (r & <- & Hin). apply (proj1 G2), Hin. }
      eexists. refine (conj E0 _).
      + intros k. rewrite spec_cat, put_list.
        * rewrite <- map_rev. pose proof (igaps_cover _ _ _ k G2) as G.
          assert (F : find (fun e : entry => covers (fst e) k) (map (fun r => (r, v)) (rev gs)) =
                    match find (fun r => covers r k) (rev gs) with Some r => Some (r, v) | None => None end).
          { clear. induction (rev gs) as [|r l IH]; [reflexivity|]. cbn. destruct (covers r k); auto. }
          rewrite F. specialize (HA k). destruct (find (fun r => covers r k) (rev gs)) as [r|] eqn:E.
          -- apply find_some in E as [E1 E2]. apply in_rev in E1.
             assert (existsb (fun r => covers r k) gs = true) as X by (apply existsb_exists; eauto).
             rewrite X in G. symmetry in G. apply andb_prop in G as [G3 G4].
             destruct (spec a k); [discriminate|]. destruct (mval m k); [destruct HA|]. rewrite G3. left; reflexivity.
          -- assert (existsb (fun r => covers r k) gs = false) as X.
             { destruct (existsb _ gs) eqn:X; [|reflexivity]. apply existsb_exists in X as (r & X1 & X2).
               apply in_rev in X1. pose proof (find_none _ _ E _ X1) as Y. cbn in Y. congruence. }
             rewrite X in G. destruct (spec a k), (mval m k); try destruct HA; auto.
             ++ subst; left; reflexivity.
             ++ right; assumption.
             ++ rewrite andb_true_r in G. rewrite <- G. exact Logic.I.
        * apply forallb_forall. intros e He. apply in_map_iff in He as (r & <- & Hin). apply (proj1 G2), Hin.
    - intros s IH v Hr. destruct (IH Hr) as (b & B & HB). rewrite B. cbn [obind]. 
      unshelve epose proof (icollect_list' (map (fun r => (r, v)) (map fst (is_into_iter (srun' b)))) _) as E0.
      { intros e He. apply in_map_iff in He as (r & <- & Hin). apply (iranges_valid' b), Hin. }
      eexists. refine (conj E0 _).
      + intros k. unfold spec_run. specialize (HB k). rewrite <- HB.
        set (l := map fst (is_into_iter (srun' b))).
        pose proof (put_described valid covers veqb (map (fun r => (r, v)) l)
          (fun k => if mem b k then Some v else None) (fun _ => None) k) as P.
        assert (Q : osame (fold_left (spec_op valid covers) (ins (map (fun r => (r, v)) l)) (fun _ => None) k)
          (match (if mem b k then Some v else None) with Some w => Some w | None => None end)).
        { apply P.
          - intros r w Hin. apply in_map_iff in Hin as (r' & [= -> _] & Hin). apply (iranges_valid' b), Hin.
          - intros r w Hin Hc. apply in_map_iff in Hin as (r' & [= -> <-] & Hin).
            assert (mem b k = true) as -> by (rewrite <- (iranges_mem' b k); apply existsb_exists; eauto). left; reflexivity.
          - intros Hn. destruct (mem b k) eqn:Em; [|congruence]. rewrite <- (iranges_mem' b k) in Em.
            apply existsb_exists in Em as (r & R1 & R2). exists r, v. split; [|exact R2]. apply in_map_iff. eauto. }
        destruct (mem b k); exact Q.
    - intros g m IH [Hg Hr]. destruct (IH Hr) as (b & B & HB). rewrite B. cbn [obind].
      destruct (ExhaustedAny.any_valid HO HS HV b) as [_ Hv]. destruct (ExhaustedAny.any_describes HO HS HV b) as [_ Hd].
      unshelve epose proof (icollect_list' (map (fun e : entry => (fst e, g (snd e))) (im_into_iter (run b))) _) as E0.
      { intros e He. apply in_map_iff in He as ([r v] & <- & Hin). apply (Hv r v Hin). }
      eexists. refine (conj E0 _).
      + intros k. unfold spec_run. specialize (HB k). destruct (Hd k) as [D1 D2].
        assert (Q : osame (fold_left (spec_op valid covers)
            (ins (map (fun e : entry => (fst e, g (snd e))) (im_into_iter (run b)))) (fun _ => None) k)
          (match option_map g (spec b k) with Some w => Some w | None => None end)).
        { apply put_described with (g := fun k => option_map g (spec b k)).
          - intros r w Hin. apply in_map_iff in Hin as ([r' w'] & [= -> _] & Hin). apply (Hv r w' Hin).
          - intros r w Hin Hc. apply in_map_iff in Hin as ([r' w'] & [= -> <-] & Hin).
            specialize (D1 r w' Hin Hc). cbn. destruct (spec b k); [|destruct D1]. cbn.
            destruct D1 as [-> | D1]; [left; reflexivity|right; apply Hg, D1].
          - intros Hn. destruct D2 as (r & w & I1 & I2); [destruct (spec b k); [discriminate|exact Hn]|].
            exists r, (g w). split; [|exact I2]. apply in_map_iff. exists (r, w). auto. }
        eapply (osame_trans HV); [exact Q|]. destruct (spec b k), (mval m k); try destruct HB; cbn; auto.
        * subst; left; reflexivity.
        * right. apply Hg. assumption.
    - exists []. repeat split.
    - intros s IH o Hr. destruct (IH Hr) as (ops & E & H). exists (ops ++ [o]). rewrite E. split.
      + unfold omap. cbn. rewrite isrun_snoc. reflexivity.
      + rewrite mem_snoc. apply mem_op_same, H.
    - intros s IH s' IH' [Hr Hr']. destruct (IH Hr) as (a & A & HA), (IH' Hr') as (b & B & HB).
      destruct (xs_bitor HO HS a b) as (c & C & HC). exists c. rewrite A, B. cbn [obind]. split; [exact C|].
      intros k. rewrite HC, HA, HB. reflexivity.
    - intros s IH s' IH' [Hr Hr']. destruct (IH Hr) as (a & A & HA), (IH' Hr') as (b & B & HB).
      destruct (xs_bitand HO HS a b) as (c & C & HC). exists c. rewrite A, B. cbn [obind]. split; [exact C|].
      intros k. rewrite HC, HA, HB. reflexivity.
    - intros s IH s' IH' [Hr Hr']. destruct (IH Hr) as (a & A & HA), (IH' Hr') as (b & B & HB).
      rewrite A, B. cbn [obind]. unshelve epose proof (isextend_list' a (map fst (is_into_iter (srun' b))) _) as E; [apply iranges_valid'|].
      eexists. refine (conj E _).
      + intros k. unfold mem_run. rewrite fold_left_app, add_list by (apply iall_valid', iranges_valid').
        rewrite iranges_mem', HB. f_equal. apply HA.
    - intros s IH s' IH' [Hr Hr']. destruct (IH Hr) as (a & A & HA), (IH' Hr') as (b & B & HB).
      rewrite A, B. cbn [obind]. unshelve epose proof (isremove_list' a (map fst (is_into_iter (srun' b))) _) as E; [apply iranges_valid'|].
      eexists. refine (conj E _).
      + intros k. unfold mem_run. rewrite fold_left_app, drop_list by (apply iall_valid', iranges_valid').
        rewrite iranges_mem', HB. f_equal. apply HA.
    - intros s IH outer Hr. destruct (IH Hr) as (a & A & HA). rewrite A. cbn [obind].
      destruct (isall_gaps' a outer) as (gs & G1 & _ & G3 & G4 & G5). rewrite G1. cbn [obind].
      destruct (iscollect_list' gs) as (E0 & M0); [intros r Hin; apply (G3 r Hin)|].
      eexists. refine (conj E0 _). intros k. rewrite M0. rewrite <- HA.
      apply (existsb_cov covers gs (fun k => covers outer k && negb (mem a k))). apply G5.
    - intros p m IH [Hp Hr]. destruct (IH Hr) as (b & B & HB). rewrite B. cbn [obind].
      destruct (ExhaustedAny.any_valid HO HS HV b) as [_ Hv]. destruct (ExhaustedAny.any_describes HO HS HV b) as [_ Hd].
      assert (Hv' : forall r, In r (map fst (filter (fun e : entry => p (snd e)) (im_into_iter (run b)))) -> valid r = true).
      { intros r Hin. apply in_map_iff in Hin as ([r' v] & <- & Hin). apply filter_In in Hin as [Hin _]. apply (Hv r' v Hin). }
      destruct (iscollect_list' _ Hv') as (E0 & M0).
      eexists. refine (conj E0 _). intros k. rewrite M0.
      specialize (HB k). destruct (Hd k) as [D1 D2].
      apply (existsb_cov covers _ (fun k => match mval m k with Some v => p v | None => false end)). split.
      + intros (r & R1 & R2). apply in_map_iff in R1 as ([r' v] & <- & Hin). apply filter_In in Hin as [Hin Hpv].
        cbn [fst snd] in *. specialize (D1 r' v Hin R2). pose proof (osame_trans HV _ _ _ D1 HB) as D.
        destruct (mval m k) as [w|]; [|destruct D]. destruct D as [<- | D]; [exact Hpv|]. rewrite <- (Hp _ _ D). exact Hpv.
      + intros Hpm. destruct (mval m k) as [w|] eqn:Em; [|discriminate]. destruct (spec b k) as [u|] eqn:Eb; [|destruct HB].
        destruct D2 as (r & v & I1 & I2); [discriminate|]. exists r. split; [|exact I2].
        apply in_map_iff. exists (r, v). split; [reflexivity|]. apply filter_In. split; [exact I1|]. cbn.
        specialize (D1 r v I1 I2). pose proof (osame_trans HV _ _ _ D1 HB) as D.
        destruct D as [-> | D]; [exact Hpm|]. rewrite (Hp _ _ D). exact Hpm.
    - intros m IH outer Hr. destruct (IH Hr) as (a & A & HA). rewrite A. cbn [obind].
      destruct (iall_gaps' a outer) as (gs & G1 & _ & G2). rewrite G1. cbn [obind].
      destruct (iscollect_list' gs) as (E0 & M0); [intros r Hin; apply (proj1 G2), Hin|].
      eexists. refine (conj E0 _). intros k. rewrite M0.
      rewrite (igaps_cover _ _ _ k G2). specialize (HA k). destruct (spec a k), (mval m k); try destruct HA; reflexivity.
  Qed.
End Any.

(** ** What programs give *)
Section AnswersAny.
  Context {K V : Type} {cmp : K -> K -> comparison} {veqb : V -> V -> bool} {st : stepfns K}.
  Context (HO : TotalOrd cmp) (HS : StepLaws cmp st) (HV : PartialEquiv veqb).
  Notation valid := (valid_rangei cmp).
  Notation covers := (in_rangei cmp).
  Notation mval := (mval (V := V) valid covers).
  Notation sval := (sval (V := V) valid covers).
  Notation osame := (same_opt veqb).
  Notation shows r k := (covers r k = true /\ (ri_exhausted r = true -> eqb cmp k (ri_end r) = false)).

  Lemma improg_any x : mrespects veqb x -> exists m, imrun cmp veqb st x = Ret m /\
    ascendingi cmp (im_iter m) /\ (forall r v, In (r, v) (im_iter m) -> valid r = true) /\
    coalescedi cmp veqb (im_iter m) /\ represents covers veqb (im_iter m) (mval x) /\
    (forall k r v, im_get_key_value cmp m k = Ret (Some (r, v)) <-> In (r, v) (im_iter m) /\ shows r k) /\
    (forall k, im_get_key_value cmp m k = Ret None <-> forall r v, In (r, v) (im_iter m) -> ~ shows r k).
  Proof.
    intros Hr. destruct (proj1 (iprog_any HO HS HV) x Hr) as (ops & E & H). exists (im_run cmp veqb st ops).
    destruct (ExhaustedAny.any_valid HO HS HV ops) as [H1 H2].
    refine (conj E (conj H1 (conj _ (conj (ExhaustedAny.any_coalesced HO HS HV ops) (conj _ (conj _ _)))))).
    - intros r v Hin. apply (H2 r v Hin).
    - intros k. specialize (H k). pose proof (proj1 (ExhaustedAny.any_describes HO HS HV ops) k) as D. unfold represents in D.
      destruct (spec_run _ _ ops k) as [v|] eqn:Es; destruct (mval x k) as [w|] eqn:Ew; try destruct H; try exact D.
      + subst. exact D.
      + destruct D as (r & u & D1 & D2 & D3). exists r, u. splits; auto.
        apply (osame_trans HV (Some u) (Some v) (Some w)); [exact D3|right; assumption].
    - intros k r v. apply (ExhaustedAny.any_lookup HO HS HV ops k r v).
    - intros k. apply (ExhaustedAny.any_lookup_none HO HS HV ops k).
  Qed.
  Lemma improg_cmp vcmp : TotalOrd vcmp -> (forall x y : V, vcmp x y = Eq <-> veqb x y = true) ->
    forall x y, mrespects veqb x -> mrespects veqb y ->
    exists a b, imrun cmp veqb st x = Ret a /\ imrun cmp veqb st y = Ret b /\
      (im_cmp cmp vcmp a b = Eq <-> forall k, osame (mval x k) (mval y k)).
  Proof.
    intros Hv Hve x y Hx Hy. destruct (proj1 (iprog_any HO HS HV) x Hx) as (a & A & HA).
    destruct (proj1 (iprog_any HO HS HV) y Hy) as (b & B & HB).
    exists (im_run cmp veqb st a), (im_run cmp veqb st b). refine (conj A (conj B _)).
    pose proof (proj2 (proj2 (irun_ord HO HS HV vcmp Hv Hve) _ _ (freshen_fresh a) (freshen_fresh b))) as X.
    rewrite !x_run, x_cmp, !spec_fresh in X. rewrite X.
    split; intros H k; specialize (H k); specialize (HA k); specialize (HB k).
    - eapply (osame_trans HV); [apply (osame_sym HV), HA|]. eapply (osame_trans HV); [exact H|exact HB].
    - eapply (osame_trans HV); [exact HA|]. eapply (osame_trans HV); [exact H|apply (osame_sym HV), HB].
  Qed.
  Lemma isprog_any x : srespects veqb x -> exists s, isrun cmp veqb st x = Ret s /\
    (forall r, In r (map fst (is_iter s)) -> valid r = true) /\
    StronglySorted (fun a b => exists k, ltb cmp (ri_end a) k = true /\ ltb cmp k (ri_start b) = true) (map fst (is_iter s)) /\
    (forall k, (exists r, In r (map fst (is_iter s)) /\ covers r k = true) <-> sval x k = true) /\
    (forall k r, is_get cmp s k = Ret (Some r) <-> In r (map fst (is_iter s)) /\ shows r k) /\
    (forall k, is_contains cmp s k = Ret true <-> exists r, In r (map fst (is_iter s)) /\ shows r k) /\
    (forall k, is_contains cmp s k = Ret false <-> ~ exists r, In r (map fst (is_iter s)) /\ shows r k).
  Proof.
    intros Hr. destruct (proj2 (iprog_any HO HS HV) x Hr) as (ops & E & H). exists (is_run cmp st ops).
    destruct (xs_runs' HO HS ops) as (R1 & R2 & R3). refine (conj E (conj R1 (conj R2 (conj _ (conj _ _))))).
    - intros k. rewrite <- H. apply R3.
    - intros k r. apply (xs_get_iff HO HS ops k r).
    - assert (X : forall k, exists b, is_contains cmp (is_run cmp st ops) k = Ret b /\
        (b = true <-> exists r, In r (map fst (is_iter (is_run cmp st ops))) /\ shows r k)).
      { intros k. destruct (ExhaustedAny.any_lookups_agree (cmp := cmp) (veqb := unit_eqb) (st := st) (to_ops ops) k) as (o & O1 & _ & O3).
        rewrite <- irun_to_ops in O1, O3. eexists. split; [exact O3|].
        assert (G : is_get cmp (is_run cmp st ops) k = Ret (option_map fst o)) by (unfold is_get; rewrite O1; reflexivity).
        destruct o as [[r u]|]; cbn in G.
        - split; [|reflexivity]. intros _. exists r. apply (xs_get_iff HO HS ops k r), G.
        - split; [discriminate|]. intros (r & Hs). apply (xs_get_iff HO HS ops k r) in Hs. discriminate (eq_trans (eq_sym G) Hs). }
      split; intros k; destruct (X k) as (b & -> & Hb); rewrite <- Hb; destruct b; intuition congruence.
  Qed.
  Lemma isprog_cmp x y : srespects veqb x -> srespects veqb y ->
    exists a b, isrun cmp veqb st x = Ret a /\ isrun cmp veqb st y = Ret b /\
      (is_cmp cmp a b = Eq <-> forall k, sval x k = sval y k).
  Proof.
    intros Hx Hy. destruct (proj2 (iprog_any HO HS HV) x Hx) as (a & A & HA).
    destruct (proj2 (iprog_any HO HS HV) y Hy) as (b & B & HB).
    exists (is_run cmp st a), (is_run cmp st b). refine (conj A (conj B _)). rewrite (xs_cmp HO HS a b).
    split; intros H k; specialize (H k); rewrite ?HA, ?HB in *; exact H.
  Qed.
End AnswersAny.
