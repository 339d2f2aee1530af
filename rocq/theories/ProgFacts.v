(** The facts behind P_Prog.v. *)
From Coq Require Import List Bool Sorting.Sorted ZArith Lia.
From Verif Require Import Order Outcome BTree Ranges History Spec MapModel IMapModel OpsModel SetModel ISetModel FuzzModel
  ListLemmas IterFacts MapProofs MapRemove MapFacts MapIter MapMore MapProps OpsProofs SetFacts SetProps FuzzFacts
  ISim Cuts IFacts IMapProps ISetProps SpecProg ProgModel.
Import ListNotations.

Lemma yields_inj {A} (a : list A) : forall b, (forall n, yields n a = yields n b) -> a = b.
Proof.
  induction a as [|x a IH]; intros [|y b] H; [reflexivity| | |].
  - specialize (H 1). discriminate H.
  - specialize (H 1). discriminate H.
  - pose proof (H 1) as H1. injection H1 as <-. f_equal. apply IH. intros n. specialize (H (S n)).
    rewrite !yields_cons in H. injection H as H. exact H.
Qed.
Lemma Forall2_len {A B} (R : A -> B -> Prop) l l' : Forall2 R l l' -> length l = length l'.
Proof. induction 1; cbn; congruence. Qed.

(** ** Lists of calls, key by key *)
Section Calls.
  Context {K V R : Type} (valid : R -> bool) (covers : R -> K -> bool).
  Notation sp := (spec_op (V := V) valid covers).
  Notation me := (mem_op valid covers).
  Notation ins l := (map (fun e : R * V => OInsert (fst e) (snd e)) l).

  Lemma spec_op_ext (f g : K -> option V) o : (forall k, f k = g k) -> forall k, sp f o k = sp g o k.
  Proof.
    intros H. destruct o as [r v|r| |l]; cbn; intros k.
    - destruct (valid r); [|apply H]. unfold put. rewrite H. reflexivity.
    - destruct (valid r); [|apply H]. unfold del. rewrite H. reflexivity.
    - reflexivity.
    - revert f g H. induction l as [|[r v] l IH]; intros f g H; cbn; [apply H|].
      destruct (valid r); [|apply H]. apply IH. intros k'. unfold put. rewrite H. reflexivity.
  Qed.
  Lemma spec_op_same (q : V -> V -> bool) (f g : K -> option V) o :
    (forall k, same_opt q (f k) (g k)) -> forall k, same_opt q (sp f o k) (sp g o k).
  Proof.
    intros H. assert (R0 : forall v, same_opt q (Some v) (Some v)) by (intros; left; reflexivity).
    destruct o as [r v|r| |l]; cbn; intros k.
    - destruct (valid r); [|apply H]. unfold put. destruct (covers r k); auto.
    - destruct (valid r); [|apply H]. unfold del. destruct (covers r k); [exact Logic.I|apply H].
    - exact Logic.I.
    - revert f g H. induction l as [|[r v] l IH]; intros f g H; cbn; [apply H|].
      destruct (valid r); [|apply H]. apply IH. intros k'. unfold put. destruct (covers r k'); auto.
  Qed.
  Lemma spec_snoc ops o : spec_run valid covers (ops ++ [o]) = sp (spec_run valid covers ops) o.
  Proof. unfold spec_run. rewrite fold_left_app. reflexivity. Qed.

  Lemma spec_cat a b : spec_run valid covers (a ++ b) = fold_left sp b (spec_run valid covers a).
  Proof. apply fold_left_app. Qed.
  Lemma put_list l : forallb (fun e => valid (fst e)) l = true -> forall f k,
    fold_left sp (ins l) f k =
    match find (fun e => covers (fst e) k) (rev l) with Some e => Some (snd e) | None => f k end.
  Proof.
    induction l as [|e l IH] using rev_ind; intros H f k; [reflexivity|].
    rewrite forallb_app in H. apply andb_prop in H as [H1 H2]. cbn in H2. rewrite andb_true_r in H2.
    rewrite map_app, fold_left_app, rev_app_distr. cbn. rewrite H2. unfold put.
    destruct (covers (fst e) k); [reflexivity|]. apply IH, H1.
  Qed.
  (** inserting entries that describe [g] *)
  Lemma put_described (q : V -> V -> bool) l g f k :
    (forall r v, In (r, v) l -> valid r = true) ->
    (forall r v, In (r, v) l -> covers r k = true -> same_opt q (Some v) (g k)) ->
    (g k <> None -> exists r v, In (r, v) l /\ covers r k = true) ->
    same_opt q (fold_left sp (ins l) f k) (match g k with Some v => Some v | None => f k end).
  Proof.
    intros H1 H2 H3. rewrite put_list.
    - destruct (find _ (rev l)) as [[r v]|] eqn:E.
      + apply find_some in E as [E1 E2]. apply in_rev in E1. specialize (H2 r v E1 E2). cbn.
        destruct (g k); [exact H2|destruct H2].
      + destruct (g k) as [w|] eqn:G.
        * destruct H3 as (r & v & I1 & I2); [discriminate|]. apply in_rev in I1.
          pose proof (find_none _ _ E _ I1) as X. cbn in X. congruence.
        * destruct (f k); [left; reflexivity|exact Logic.I].
    - apply forallb_forall. intros [r v] Hin. apply (H1 r v Hin).
  Qed.
  Lemma del_list l : forallb valid l = true -> forall f k,
    fold_left sp (map ORemove l) f k = if existsb (fun r => covers r k) l then None else f k.
  Proof.
    induction l as [|r l IH] using rev_ind; intros H f k; [reflexivity|].
    rewrite forallb_app in H. apply andb_prop in H as [H1 H2]. cbn in H2. rewrite andb_true_r in H2.
    rewrite map_app, fold_left_app, existsb_app. cbn. rewrite H2, orb_false_r. unfold del.
    destruct (covers r k); [rewrite orb_true_r; reflexivity|]. rewrite orb_false_r. apply IH, H1.
  Qed.
  Lemma add_list l : forallb valid l = true -> forall f k,
    fold_left me (map SInsert l) f k = f k || existsb (fun r => covers r k) l.
  Proof.
    induction l as [|r l IH] using rev_ind; intros H f k; [cbn; rewrite orb_false_r; reflexivity|].
    rewrite forallb_app in H. apply andb_prop in H as [H1 H2]. cbn in H2. rewrite andb_true_r in H2.
    rewrite map_app, fold_left_app, existsb_app. cbn. rewrite H2, orb_false_r, IH by exact H1.
    destruct (covers r k), (f k), (existsb _ l); reflexivity.
  Qed.
  Lemma drop_list l : forallb valid l = true -> forall f k,
    fold_left me (map SRemove l) f k = f k && negb (existsb (fun r => covers r k) l).
  Proof.
    induction l as [|r l IH] using rev_ind; intros H f k; [cbn; rewrite andb_true_r; reflexivity|].
    rewrite forallb_app in H. apply andb_prop in H as [H1 H2]. cbn in H2. rewrite andb_true_r in H2.
    rewrite map_app, fold_left_app, existsb_app. cbn. rewrite H2, orb_false_r, IH by exact H1.
    destruct (covers r k), (f k), (existsb _ l); reflexivity.
  Qed.
  Lemma mem_op_same (f g : K -> bool) o : (forall k, f k = g k) -> forall k, me f o k = me g o k.
  Proof.
    intros H. destruct o as [r|r| |l]; cbn; intros k.
    - destruct (valid r); [|apply H]. rewrite H. reflexivity.
    - destruct (valid r); [|apply H]. rewrite H. reflexivity.
    - reflexivity.
    - revert f g H. induction l as [|r l IH]; intros f g H; cbn; [apply H|].
      destruct (valid r); [|apply H]. apply IH. intros k'. rewrite H. reflexivity.
  Qed.
End Calls.

(** ** There is at most one gap more than there are entries *)
Section Count.
  Context {K V : Type} {cmp : K -> K -> comparison} {veqb : V -> V -> bool} (HO : TotalOrd cmp).
  Lemma glist_len l : forall c e, length (glist (cmp := cmp) (V := V) c e l) <= length l + 1.
  Proof.
    induction l as [|[o v] l IH]; intros c e; cbn.
    - destruct (ltb cmp c e); cbn; lia.
    - destruct (leb cmp e (r_start o)); [destruct (ltb cmp c e); cbn; lia|].
      rewrite app_length. specialize (IH (r_end o) e). destruct (ltb cmp c (r_start o)); cbn; lia.
  Qed.
  Lemma gaps_len m outer g gs : WF (cmp := cmp) (veqb := veqb) m -> rm_gaps cmp m outer = Ret g ->
    (forall n, nexts (gp_next cmp) n g = yields n gs) -> length gs <= length m + 1.
  Proof.
    intros HW Hg Hy. destruct (gaps_iter_ok HO m outer HW) as (g' & L & N & E & -> & HL & HN & HG).
    rewrite Hg in E. injection E as <-.
    assert (gs = glist (cmp := cmp) (r_start outer) (r_end outer) N) as ->.
    { apply yields_inj. intros n. rewrite <- Hy. apply (nexts_yields (gp_next cmp) (gp_rel (cmp := cmp) (veqb := veqb))); [apply (gp_step HO)|exact HG]. }
    pose proof (glist_len N (r_start outer) (r_end outer)). rewrite app_length. lia.
  Qed.
End Count.

(** ** Half-open collections *)
Section Half.
  Context {K V : Type} {cmp : K -> K -> comparison} {veqb : V -> V -> bool}.
  Context (HO : TotalOrd cmp) (HV : PartialEquiv veqb).

  Notation run := (rm_run cmp veqb).
  Notation srun' := (rs_run cmp).
  Notation valid := (valid_range cmp).
  Notation covers := (in_range cmp).
  Notation spec := (spec_run (V := V) valid covers).
  Notation mem := (mem_run valid covers).
  Notation osame := (same_opt veqb).
  Notation entry := (range K * V)%type.
  Notation ins l := (map (fun e : entry => OInsert (fst e) (snd e)) l).
  Notation mval := (mval valid covers).
  Notation sval := (sval valid covers).

  Lemma all_gaps ops outer : exists gs, rm_all_gaps cmp (run ops) outer = Ret gs /\
    length gs <= length (run ops) + 1 /\ gaps_of cmp (spec ops) outer gs.
  Proof.
    destruct (run_gaps HO HV ops outer) as (g & gs & H1 & H2 & H3). exists gs.
    pose proof (gaps_len HO _ _ _ _ (run_WF HO HV ops) H1 H2) as HL. splits; auto.
    unfold rm_all_gaps. rewrite H1. cbn [obind]. apply drain_pure; [exact H2|].
    unfold rmap in *. lia.
  Qed.
  Lemma gaps_cover f outer gs k : gaps_of (V := V) cmp f outer gs ->
    existsb (fun r => covers r k) gs = covers outer k && match f k with Some _ => false | None => true end.
  Proof.
    intros (_ & _ & H). apply (existsb_cov covers gs (fun k => covers outer k && match f k with Some _ => false | None => true end)).
    rewrite H, andb_true_iff. destruct (f k); intuition discriminate.
  Qed.
  Lemma remove_list ops l : (forall r, In r l -> valid r = true) ->
    state_after (for_each (rm_remove cmp) l) (run ops) = Ret (run (ops ++ map ORemove l)).
  Proof.
    revert ops. induction l as [|r l IH]; intros ops H; [cbn; rewrite app_nil_r; reflexivity|].
    pose proof (remove_outcome HO HV ops r) as Hr. rewrite (H r (or_introl eq_refl)) in Hr. destruct Hr as (m' & E & _).
    unfold state_after in *. cbn [for_each]. unfold bind. rewrite E.
    assert (m' = run (ops ++ [ORemove r])) as -> by (rewrite run_snoc; cbn; rewrite E; reflexivity).
    change (map ORemove (r :: l)) with ([@ORemove (range K) V r] ++ map ORemove l). rewrite app_assoc. apply IH.
    intros r' Hr'. apply H. right. exact Hr'.
  Qed.
  Lemma sremove_list ops l : (forall r, In r l -> valid r = true) ->
    state_after (for_each (rs_remove cmp) l) (srun' ops) = Ret (srun' (ops ++ map SRemove l)).
  Proof.
    revert ops. induction l as [|r l IH]; intros ops H; [cbn; rewrite app_nil_r; reflexivity|].
    pose proof (sremove_outcome HO ops r) as Hr. rewrite (H r (or_introl eq_refl)) in Hr. destruct Hr as (m' & E & _).
    unfold state_after in *. cbn [for_each]. unfold bind. rewrite E.
    assert (m' = srun' (ops ++ [SRemove r])) as -> by (rewrite srun_snoc; cbn; rewrite E; reflexivity).
    change (map SRemove (r :: l)) with ([@SRemove (range K) r] ++ map SRemove l). rewrite app_assoc. apply IH.
    intros r' Hr'. apply H. right. exact Hr'.
  Qed.
  Lemma extend_list ops l : (forall e, In e l -> valid (fst e) = true) ->
    state_after (rm_extend cmp veqb l) (run ops) = Ret (run (ops ++ ins l)).
  Proof.
    intros H. unfold state_after. rewrite <- (app_nil_r l) at 1. rewrite (run_extend HO HV ops l []) by auto. reflexivity.
  Qed.
  Lemma collect_list l : (forall e, In e l -> valid (fst e) = true) ->
    rm_from_iter cmp veqb l = Ret (run (ins l)).
  Proof. intros H. rewrite <- (app_nil_r l) at 1. apply (from_iter_prefix HO HV l []); auto. Qed.
  Lemma sextend_list ops l : (forall r, In r l -> valid r = true) ->
    state_after (rs_extend cmp l) (srun' ops) = Ret (srun' (ops ++ map SInsert l)).
  Proof.
    intros H. unfold state_after. rewrite <- (app_nil_r l) at 1. rewrite (sextend HO ops l []) by auto. reflexivity.
  Qed.
  Lemma scollect_list l : (forall r, In r l -> valid r = true) ->
    rs_from_iter cmp l = Ret (srun' (map SInsert l)).
  Proof. intros H. rewrite <- (app_nil_r l) at 1. apply (sfrom_iter HO l []); auto. Qed.
  Lemma ranges_mem ops k : existsb (fun r => covers r k) (map fst (rs_into_iter (srun' ops))) = mem ops k.
  Proof. destruct (srun_runs HO ops) as (_ & _ & H). apply (existsb_cov covers _ (mem ops)). apply H. Qed.
  Lemma ranges_valid ops r : In r (map fst (rs_into_iter (srun' ops))) -> valid r = true.
  Proof. destruct (srun_runs HO ops) as (H & _). apply H. Qed.
  Lemma all_valid l : (forall r, In r l -> valid r = true) -> forallb valid l = true.
  Proof. intros H. apply forallb_forall. exact H. Qed.

  Notation Rm x := (exists ops, mrun cmp veqb x = Ret (run ops) /\ forall k, osame (spec ops k) (mval x k)).
  Notation Rs x := (exists ops, srun cmp veqb x = Ret (srun' ops) /\ forall k, mem ops k = sval x k).

  Lemma prog_ok :
    (forall x, mrespects veqb x -> Rm x) /\ (forall x, srespects veqb x -> Rs x).
  Proof.
    apply (prog_mut (range K) V (fun x => mrespects veqb x -> Rm x) (fun x => srespects veqb x -> Rs x));
      cbn [mrespects srespects mrun srun SpecProg.mval SpecProg.sval];
      fold (mrun cmp veqb); fold (srun cmp veqb);
      fold (SpecProg.mval (V := V) valid covers); fold (SpecProg.sval (V := V) valid covers);
      fold (mrespects (R := range K) veqb); fold (srespects (R := range K) veqb).
    - exists []. split; [reflexivity|]. intros k. exact Logic.I.
    - intros m IH o Hr. destruct (IH Hr) as (ops & E & H). exists (ops ++ [o]). rewrite E. cbn [omap obind]. split.
      + unfold omap. cbn. rewrite run_snoc. reflexivity.
      + rewrite spec_snoc. apply spec_op_same, H.
    - intros m IH m' IH' [Hr Hr']. destruct (IH Hr) as (a & A & HA), (IH' Hr') as (b & B & HB).
      rewrite A, B. cbn [obind]. destruct (iter_valid_ascending HO HV b) as [_ Hv].
      destruct (iter_describes HO HV b) as [_ Hd].
      exists (a ++ ins (rm_into_iter (run b))). split.
      + apply extend_list. intros [r v] Hin. apply (Hv r v Hin).
      + intros k. rewrite spec_cat. destruct (Hd k) as [D1 D2].
        pose proof (put_described valid covers veqb (rm_into_iter (run b)) (spec b) (spec a) k Hv D1 D2) as P.
        eapply (osame_trans HV); [exact P|]. specialize (HA k). specialize (HB k).
        destruct (spec b k), (mval m' k); try destruct HB; auto.
        * subst. left; reflexivity.
        * right; assumption.
    - intros m IH s IH' [Hr Hr']. destruct (IH Hr) as (a & A & HA), (IH' Hr') as (b & B & HB).
      rewrite A, B. cbn [obind]. eexists. split.
      + apply remove_list. apply ranges_valid.
      + intros k. rewrite spec_cat, del_list by (apply all_valid, ranges_valid).
        rewrite ranges_mem, HB. destruct (sval s k); [exact Logic.I|apply HA].
    - intros m IH outer v Hr. destruct (IH Hr) as (a & A & HA). rewrite A. cbn [obind].
      destruct (all_gaps a outer) as (gs & G1 & _ & G2). rewrite G1. cbn [obind]. eexists. split.
      + apply extend_list. intros e He. apply in_map_iff in He as (r & <- & Hin). apply (proj1 G2), Hin.
      + intros k. rewrite spec_cat, put_list.
        * rewrite <- map_rev. pose proof (gaps_cover _ _ _ k G2) as G.
          assert (F : find (fun e : entry => covers (fst e) k) (map (fun r => (r, v)) (rev gs)) =
                    match find (fun r => covers r k) (rev gs) with Some r => Some (r, v) | None => None end).
          { clear. induction (rev gs) as [|r l IH]; [reflexivity|]. cbn. destruct (covers r k); auto. }
          rewrite F. specialize (HA k). destruct (find (fun r => covers r k) (rev gs)) as [r|] eqn:E.
          -- apply find_some in E as [E1 E2]. apply in_rev in E1.
             assert (existsb (fun r => covers r k) gs = true) as X by (apply existsb_exists; eauto).
             rewrite X in G. symmetry in G. apply andb_prop in G as [G3 G4].
             destruct (spec a k); [discriminate|]. destruct (mval m k); [destruct HA|]. rewrite G3. left; reflexivity.
          -- assert (existsb (fun r => covers r k) gs = false) as X.
             { destruct (existsb _ gs) eqn:X; [|reflexivity]. apply existsb_exists in X as (r & X1 & X2).
               apply in_rev in X1. pose proof (find_none _ _ E _ X1) as Y. cbn in Y. congruence. }
             rewrite X in G. destruct (spec a k), (mval m k); try destruct HA; auto.
             ++ subst; left; reflexivity.
             ++ right; assumption.
             ++ rewrite andb_true_r in G. rewrite <- G. exact Logic.I.
        * apply forallb_forall. intros e He. apply in_map_iff in He as (r & <- & Hin). apply (proj1 G2), Hin.
    - intros s IH v Hr. destruct (IH Hr) as (b & B & HB). rewrite B. cbn [obind]. eexists. split.
      + apply collect_list. intros e He. apply in_map_iff in He as (r & <- & Hin). apply (ranges_valid b), Hin.
      + intros k. unfold spec_run. specialize (HB k). rewrite <- HB.
        set (l := map fst (rs_into_iter (srun' b))).
        pose proof (put_described valid covers veqb (map (fun r => (r, v)) l)
          (fun k => if mem b k then Some v else None) (fun _ => None) k) as P.
        assert (Q : osame (fold_left (spec_op valid covers) (ins (map (fun r => (r, v)) l)) (fun _ => None) k)
          (match (if mem b k then Some v else None) with Some w => Some w | None => None end)).
        { apply P.
          - intros r w Hin. apply in_map_iff in Hin as (r' & [= -> _] & Hin). apply (ranges_valid b), Hin.
          - intros r w Hin Hc. apply in_map_iff in Hin as (r' & [= -> <-] & Hin).
            assert (mem b k = true) as -> by (rewrite <- ranges_mem; apply existsb_exists; eauto). left; reflexivity.
          - intros Hn. destruct (mem b k) eqn:Em; [|congruence]. rewrite <- ranges_mem in Em.
            apply existsb_exists in Em as (r & R1 & R2). exists r, v. split; [|exact R2]. apply in_map_iff. eauto. }
        destruct (mem b k); exact Q.
    - intros g m IH [Hg Hr]. destruct (IH Hr) as (b & B & HB). rewrite B. cbn [obind].
      destruct (iter_valid_ascending HO HV b) as [_ Hv]. destruct (iter_describes HO HV b) as [_ Hd].
      eexists. split.
      + apply collect_list. intros e He. apply in_map_iff in He as ([r v] & <- & Hin). apply (Hv r v Hin).
      + intros k. unfold spec_run. specialize (HB k). destruct (Hd k) as [D1 D2].
        assert (Q : osame (fold_left (spec_op valid covers)
            (ins (map (fun e : entry => (fst e, g (snd e))) (rm_into_iter (run b)))) (fun _ => None) k)
          (match option_map g (spec b k) with Some w => Some w | None => None end)).
        { apply put_described with (g := fun k => option_map g (spec b k)).
          - intros r w Hin. apply in_map_iff in Hin as ([r' w'] & [= -> _] & Hin). apply (Hv r w' Hin).
          - intros r w Hin Hc. apply in_map_iff in Hin as ([r' w'] & [= -> <-] & Hin).
            specialize (D1 r w' Hin Hc). cbn. destruct (spec b k); [|destruct D1]. cbn.
            destruct D1 as [-> | D1]; [left; reflexivity|right; apply Hg, D1].
          - intros Hn. destruct D2 as (r & w & I1 & I2); [destruct (spec b k); [discriminate|exact Hn]|].
            exists r, (g w). split; [|exact I2]. apply in_map_iff. exists (r, w). auto. }
        eapply (osame_trans HV); [exact Q|]. destruct (spec b k), (mval m k); try destruct HB; cbn; auto.
        * subst; left; reflexivity.
        * right. apply Hg. assumption.
    - exists []. auto.
    - intros s IH o Hr. destruct (IH Hr) as (ops & E & H). exists (ops ++ [o]). rewrite E. split.
      + unfold omap. cbn. rewrite srun_snoc. reflexivity.
      + rewrite mem_snoc. apply mem_op_same, H.
    - intros s IH s' IH' [Hr Hr']. destruct (IH Hr) as (a & A & HA), (IH' Hr') as (b & B & HB).
      destruct (sbitor HO a b) as (c & C & HC). exists c. rewrite A, B. cbn [obind]. split; [exact C|].
      intros k. rewrite HC, HA, HB. reflexivity.
    - intros s IH s' IH' [Hr Hr']. destruct (IH Hr) as (a & A & HA), (IH' Hr') as (b & B & HB).
      destruct (sbitand HO a b) as (c & C & HC). exists c. rewrite A, B. cbn [obind]. split; [exact C|].
      intros k. rewrite HC, HA, HB. reflexivity.
    - intros s IH s' IH' [Hr Hr']. destruct (IH Hr) as (a & A & HA), (IH' Hr') as (b & B & HB).
      rewrite A, B. cbn [obind]. eexists. split.
      + apply sextend_list. apply ranges_valid.
      + intros k. unfold mem_run. rewrite fold_left_app, add_list by (apply all_valid, ranges_valid).
        rewrite ranges_mem, HB. f_equal. apply HA.
    - intros s IH s' IH' [Hr Hr']. destruct (IH Hr) as (a & A & HA), (IH' Hr') as (b & B & HB).
      rewrite A, B. cbn [obind]. eexists. split.
      + apply sremove_list. apply ranges_valid.
      + intros k. unfold mem_run. rewrite fold_left_app, drop_list by (apply all_valid, ranges_valid).
        rewrite ranges_mem, HB. f_equal. apply HA.
    - intros s IH outer Hr. destruct (IH Hr) as (a & A & HA). rewrite A. cbn [obind].
      destruct (sgaps HO a outer) as (g & gs & G1 & G2 & G3 & G4 & G5).
      assert (HL : length gs <= length (srun' a) + 1).
      { apply (gaps_len HO _ outer g gs (srun_WF HO a) G1 G2). }
      unfold rs_all_gaps. rewrite G1. cbn [obind].
      rewrite (drain_pure _ _ gs) by (try exact G2; unfold rset, rmap in *; lia). cbn [obind].
      eexists. split; [apply scollect_list, G3|].
      intros k. rewrite mem_all_valid by exact G3. rewrite <- HA.
      apply (existsb_cov covers gs (fun k => covers outer k && negb (mem a k))). apply G5.
    - intros p m IH [Hp Hr]. destruct (IH Hr) as (b & B & HB). rewrite B. cbn [obind].
      destruct (iter_valid_ascending HO HV b) as [_ Hv]. destruct (iter_describes HO HV b) as [_ Hd].
      assert (Hv' : forall r, In r (map fst (filter (fun e : entry => p (snd e)) (rm_into_iter (run b)))) -> valid r = true).
      { intros r Hin. apply in_map_iff in Hin as ([r' v] & <- & Hin). apply filter_In in Hin as [Hin _]. apply (Hv r' v Hin). }
      eexists. split; [apply scollect_list, Hv'|]. intros k. rewrite mem_all_valid by exact Hv'.
      specialize (HB k). destruct (Hd k) as [D1 D2].
      apply (existsb_cov covers _ (fun k => match mval m k with Some v => p v | None => false end)). split.
      + intros (r & R1 & R2). apply in_map_iff in R1 as ([r' v] & <- & Hin). apply filter_In in Hin as [Hin Hpv].
        cbn [fst snd] in *. specialize (D1 r' v Hin R2). pose proof (osame_trans HV _ _ _ D1 HB) as D.
        destruct (mval m k) as [w|]; [|destruct D]. destruct D as [<- | D]; [exact Hpv|]. rewrite <- (Hp _ _ D). exact Hpv.
      + intros Hpm. destruct (mval m k) as [w|] eqn:Em; [|discriminate]. destruct (spec b k) as [u|] eqn:Eb; [|destruct HB].
        destruct D2 as (r & v & I1 & I2); [discriminate|]. exists r. split; [|exact I2].
        apply in_map_iff. exists (r, v). split; [reflexivity|]. apply filter_In. split; [exact I1|]. cbn.
        specialize (D1 r v I1 I2). pose proof (osame_trans HV _ _ _ D1 HB) as D.
        destruct D as [-> | D]; [exact Hpm|]. rewrite (Hp _ _ D). exact Hpm.
    - intros m IH outer Hr. destruct (IH Hr) as (a & A & HA). rewrite A. cbn [obind].
      destruct (all_gaps a outer) as (gs & G1 & _ & G2). rewrite G1. cbn [obind].
      assert (Hv : forall r, In r gs -> valid r = true) by (intros r Hin; apply (proj1 G2), Hin).
      eexists. split; [apply scollect_list, Hv|]. intros k. rewrite mem_all_valid by exact Hv.
      rewrite (gaps_cover _ _ _ k G2). specialize (HA k). destruct (spec a k), (mval m k); try destruct HA; reflexivity.
  Qed.
End Half.

(** ** Inclusive collections *)
Section CountInclusive.
  Context {K K' V : Type} {cmp : K -> K -> comparison} {cmp' : K' -> K' -> comparison}.
  Context {veqb : V -> V -> bool} {st : stepfns K} {lo hi : K -> K'}.
  Context (HC : Cuts cmp cmp' st lo hi) (HO : TotalOrd cmp').

  Notation encm := (@encm K K' V lo hi).
  Notation encr := (@encr K K' lo hi).
  Notation WFi := (@WFi K K' V cmp' veqb lo hi).

  Lemma igaps_len (m : imap K V) outer g gs : WFi m -> im_gaps cmp m outer = Ret g ->
    (forall n, nexts_m (gpi_next cmp st) n g = map Ret (yields n gs)) -> length gs <= length m + 1.
  Proof.
    intros HW Hg Hy. destruct (overlapping_enc HC HO m outer) as (o & E1 & E2 & E3 & _ & LL & E4).
    destruct (overlapping_split HO (encm m) (encr outer) (proj2 HW)) as (L & N & EN & HL & HN & HR).
    rewrite E3 in HR. unfold enco in HR. rewrite E2 in HR.
    assert (HR2 : encm (ovi_iter o) = N) by congruence. clear HR. rename HR2 into HR.
    unfold im_gaps, omap in Hg. rewrite E1 in Hg. cbn [obind] in Hg. injection Hg as <-.
    set (g := mkGapsI false (ri_start outer) (ri_end outer) (ovi_iter o)) in *.
    assert (HG : gi_rel (cmp := cmp) (veqb := veqb) (lo := lo) (hi := hi) (cmp' := cmp') g
                   (glist (cmp := cmp') (lo (ri_start outer)) (hi (ri_end outer)) N)).
    { unfold gi_rel, gcut, g. cbn. splits; [|discriminate|rewrite <- HR; reflexivity].
      split.
      - intros e He. apply (proj1 HW). rewrite E4. apply in_or_app; right; exact He.
      - pose proof (proj2 HW) as W. rewrite EN, <- HR in W. apply WF_app in W. apply W. }
    destruct (gi_yields HC HO _ g HG) as (gs' & HF & HY).
    assert (gs = gs') as ->.
    { apply yields_inj. intros n. pose proof (Hy n) as X. rewrite HY in X.
      apply (f_equal (map (fun x => match x with Ret a => a | _ => None end))) in X.
      rewrite !map_map in X. cbn in X. rewrite !map_id in X. symmetry. exact X. }
    rewrite (Forall2_len _ _ _ HF).
    pose proof (glist_len (cmp := cmp') N (lo (ri_start outer)) (hi (ri_end outer))) as G.
    assert (length (encm m) = length m) as Em by (unfold IFacts.encm; apply map_length).
    rewrite <- Em, EN, app_length. lia.
  Qed.
End CountInclusive.

Section Inclusive.
  Context {K V : Type} {cmp : K -> K -> comparison} {veqb : V -> V -> bool} {st : stepfns K}.
  Context (HO : TotalOrd cmp) (HS : StepLaws cmp st) (HV : PartialEquiv veqb).

  Notation run := (im_run cmp veqb st).
  Notation srun' := (is_run cmp st).
  Notation valid := (valid_rangei cmp).
  Notation covers := (in_rangei cmp).
  Notation spec := (spec_run (V := V) valid covers).
  Notation mem := (mem_run valid covers).
  Notation osame := (same_opt veqb).
  Notation entry := (rangei K * V)%type.
  Notation ins l := (map (fun e : entry => OInsert (fst e) (snd e)) l).
  Notation mval := (mval valid covers).
  Notation sval := (sval valid covers).
  Notation okr r := (valid r = true /\ ri_exhausted r = false).
  Notation HC := (cuts cmp st HO HS).
  Notation HO' := (cut_order cmp st HO HS).

  Lemma iall_gaps ops outer : fresh_ops ops -> exists gs, im_all_gaps cmp st (run ops) outer = Ret gs /\
    length gs <= length (run ops) + 1 /\ gapsi_of cmp (spec ops) outer gs.
  Proof.
    intros Hf. destruct (irun_gaps HO HS HV ops outer Hf) as (g & gs & H1 & H2 & H3). exists gs.
    pose proof (igaps_len HC HO' _ _ _ _ (irun_WF HO HS HV ops Hf) H1 H2) as HL. splits; auto.
    unfold im_all_gaps. rewrite H1. cbn [obind]. apply drain_ok; [exact H2|].
    unfold imap in *. lia.
  Qed.
  Lemma igaps_cover f outer gs k : gapsi_of (V := V) cmp f outer gs ->
    existsb (fun r => covers r k) gs = covers outer k && match f k with Some _ => false | None => true end.
  Proof.
    intros (_ & _ & H). apply (existsb_cov covers gs (fun k => covers outer k && match f k with Some _ => false | None => true end)).
    rewrite H, andb_true_iff. destruct (f k); intuition discriminate.
  Qed.
  Lemma fresh_removes (l : list (rangei K)) : fresh_ops (map (@ORemove _ V) l).
  Proof. unfold fresh_ops. apply forallb_forall. intros o Ho. apply in_map_iff in Ho as (r & <- & _). reflexivity. Qed.
  Lemma fresh_ins (l : list entry) : (forall e, In e l -> okr (fst e)) -> fresh_ops (ins l).
  Proof.
    intros H. unfold fresh_ops. apply forallb_forall. intros o Ho. apply in_map_iff in Ho as (e & <- & He). cbn.
    destruct (H e He) as [_ ->]. reflexivity.
  Qed.
  Lemma fresh_sins (l : list (rangei K)) : (forall r, In r l -> okr r) -> fresh_sops (map SInsert l).
  Proof.
    intros H. unfold fresh_sops. apply forallb_forall. intros o Ho. apply in_map_iff in Ho as (e & <- & He). cbn.
    destruct (H e He) as [_ ->]. reflexivity.
  Qed.
  Lemma fresh_sapp (a b : list (sop (rangei K))) : fresh_sops a -> fresh_sops b -> fresh_sops (a ++ b).
  Proof. unfold fresh_sops. rewrite forallb_app. intros -> ->. reflexivity. Qed.
  Lemma iremove_list ops l : fresh_ops ops -> (forall r, In r l -> okr r) -> fresh_ops (ops ++ map ORemove l) /\
    state_after (for_each (im_remove cmp st) l) (run ops) = Ret (run (ops ++ map ORemove l)).
  Proof.
    revert ops. induction l as [|r l IH]; intros ops Hf H; [cbn; rewrite app_nil_r; auto|].
    pose proof (iremove_outcome HO HS HV ops r Hf) as Hr. destruct (H r (or_introl eq_refl)) as [Hv _].
    rewrite Hv in Hr. destruct Hr as (m' & E & _).
    unfold state_after in *. cbn [for_each]. unfold bind. rewrite E.
    assert (m' = run (ops ++ [ORemove r])) as -> by (rewrite irun_app; cbn; rewrite E; reflexivity).
    change (map ORemove (r :: l)) with ([@ORemove (rangei K) V r] ++ map ORemove l). rewrite app_assoc. apply IH.
    - apply fresh_app. split; [exact Hf|reflexivity].
    - intros r' Hr'. apply H. right. exact Hr'.
  Qed.
  Lemma isremove_list ops l : fresh_sops ops -> (forall r, In r l -> okr r) -> fresh_sops (ops ++ map SRemove l) /\
    state_after (for_each (is_remove cmp st) l) (srun' ops) = Ret (srun' (ops ++ map SRemove l)).
  Proof.
    revert ops. induction l as [|r l IH]; intros ops Hf H; [cbn; rewrite app_nil_r; auto|].
    pose proof (isremove_outcome HO HS ops r Hf) as Hr. destruct (H r (or_introl eq_refl)) as [Hv _].
    rewrite Hv in Hr. destruct Hr as (m' & E & _).
    unfold state_after in *. cbn [for_each]. unfold bind. rewrite E.
    assert (m' = srun' (ops ++ [SRemove r])) as -> by (rewrite isrun_snoc; cbn; rewrite E; reflexivity).
    change (map SRemove (r :: l)) with ([@SRemove (rangei K) r] ++ map SRemove l). rewrite app_assoc. apply IH.
    - apply fresh_sapp; [exact Hf|reflexivity].
    - intros r' Hr'. apply H. right. exact Hr'.
  Qed.
  Lemma iextend_list ops l : fresh_ops ops -> (forall e, In e l -> okr (fst e)) -> fresh_ops (ops ++ ins l) /\
    state_after (im_extend cmp veqb st l) (run ops) = Ret (run (ops ++ ins l)).
  Proof.
    intros Hf H. split; [apply fresh_app; split; [exact Hf|apply fresh_ins, H]|].
    unfold state_after. rewrite <- (app_nil_r l) at 1.
    rewrite (irun_extend HO HS HV ops l [] Hf); [reflexivity| | |exact Logic.I]; intros e He; apply (H e He).
  Qed.
  Lemma icollect_list l : (forall e, In e l -> okr (fst e)) -> fresh_ops (ins l) /\
    im_from_iter cmp veqb st l = Ret (run (ins l)).
  Proof.
    intros H. split; [apply fresh_ins, H|]. rewrite <- (app_nil_r l) at 1.
    apply (irun_from_iter HO HS HV l []); try exact Logic.I; intros e He; apply (H e He).
  Qed.
  Lemma isextend_list ops l : fresh_sops ops -> (forall r, In r l -> okr r) -> fresh_sops (ops ++ map SInsert l) /\
    state_after (is_extend cmp st l) (srun' ops) = Ret (srun' (ops ++ map SInsert l)).
  Proof.
    intros Hf H. split; [apply fresh_sapp; [exact Hf|apply fresh_sins, H]|].
    unfold state_after. rewrite <- (app_nil_r l) at 1.
    rewrite (isextend HO HS ops l [] Hf); [reflexivity| |exact Logic.I]. intros r Hr. destruct (H r Hr). auto.
  Qed.
  Lemma iscollect_list l : (forall r, In r l -> okr r) -> fresh_sops (map SInsert l) /\
    is_from_iter cmp st l = Ret (srun' (map SInsert l)) /\
    forall k, mem (map SInsert l) k = existsb (fun r => covers r k) l.
  Proof.
    intros H. splits.
    - apply fresh_sins, H.
    - rewrite <- (app_nil_r l) at 1. apply (isfrom_iter HO HS l []); [|exact Logic.I]. intros r Hr. destruct (H r Hr). auto.
    - apply mem_inserts, forallb_forall. intros r Hr. apply (H r Hr).
  Qed.
  Lemma iranges_mem ops k : fresh_sops ops -> existsb (fun r => covers r k) (map fst (is_into_iter (srun' ops))) = mem ops k.
  Proof. intros Hf. destruct (isrun_runs HO HS ops Hf) as (_ & _ & H). apply (existsb_cov covers _ (mem ops)). apply H. Qed.
  Lemma iranges_valid ops : fresh_sops ops -> forall r, In r (map fst (is_into_iter (srun' ops))) -> okr r.
  Proof. intros Hf. destruct (isrun_runs HO HS ops Hf) as (H & _). intros r Hr. destruct (H r Hr). auto. Qed.
  Lemma iall_valid l : (forall r, In r l -> okr r) -> forallb valid l = true.
  Proof. intros H. apply forallb_forall. intros r Hr. apply (H r Hr). Qed.

  Notation Rm x := (exists ops, fresh_ops ops /\ imrun cmp veqb st x = Ret (run ops) /\ forall k, osame (spec ops k) (mval x k)).
  Notation Rs x := (exists ops, fresh_sops ops /\ isrun cmp veqb st x = Ret (srun' ops) /\ forall k, mem ops k = sval x k).

  Lemma iprog_ok :
    (forall x, mrespects veqb x -> mfresh x = true -> Rm x) /\ (forall x, srespects veqb x -> sfresh x = true -> Rs x).
  Proof.
    apply (prog_mut (rangei K) V (fun x => mrespects veqb x -> mfresh x = true -> Rm x)
      (fun x => srespects veqb x -> sfresh x = true -> Rs x));
      cbn [mrespects srespects mfresh sfresh imrun isrun SpecProg.mval SpecProg.sval];
      fold (imrun cmp veqb st); fold (isrun cmp veqb st);
      fold (@mfresh K V); fold (@sfresh K V);
      fold (SpecProg.mval (V := V) valid covers); fold (SpecProg.sval (V := V) valid covers);
      fold (mrespects (R := rangei K) veqb); fold (srespects (R := rangei K) veqb).
    - exists []. split; [reflexivity|]. split; [reflexivity|]. intros k. exact Logic.I.
    - intros m IH o Hr Hf. apply andb_prop in Hf as [Hf Hf']. destruct (IH Hr Hf) as (ops & F & E & H). exists (ops ++ [o]). split; [apply fresh_app; split; [exact F|]; unfold fresh_ops; cbn; rewrite Hf'; reflexivity|]. rewrite E. split.
      + unfold omap. cbn. rewrite irun_app. reflexivity.
      + rewrite spec_snoc. apply spec_op_same, H.
    - intros m IH m' IH' [Hr Hr'] Hf. apply andb_prop in Hf as [Hf Hf']. destruct (IH Hr Hf) as (a & FA & A & HA), (IH' Hr' Hf') as (b & FB & B & HB).
      rewrite A, B. cbn [obind]. destruct (iiter_valid_ascending HO HS HV b FB) as [_ Hv0].
      assert (Hv : forall r v, In (r, v) (im_into_iter (run b)) -> valid r = true) by (intros r v Hin; apply (Hv0 r v Hin)).
      destruct (iiter_describes HO HS HV b FB) as [_ Hd].
      destruct (iextend_list a (im_into_iter (run b)) FA) as [F E]; [intros [r v] Hin; apply (Hv0 r v Hin)|].
      eexists. refine (conj F (conj E _)).
      + intros k. rewrite spec_cat. destruct (Hd k) as [D1 D2].
        pose proof (put_described valid covers veqb (im_into_iter (run b)) (spec b) (spec a) k Hv D1 D2) as P.
        eapply (osame_trans HV); [exact P|]. specialize (HA k). specialize (HB k).
        destruct (spec b k), (mval m' k); try destruct HB; auto.
        * subst. left; reflexivity.
        * right; assumption.
    - intros m IH s IH' [Hr Hr'] Hf. apply andb_prop in Hf as [Hf Hf']. destruct (IH Hr Hf) as (a & FA & A & HA), (IH' Hr' Hf') as (b & FB & B & HB).
      rewrite A, B. cbn [obind]. destruct (iremove_list a (map fst (is_into_iter (srun' b))) FA) as [F E]; [apply iranges_valid, FB|].
      eexists. refine (conj F (conj E _)).
      + intros k. rewrite spec_cat, del_list by (apply iall_valid, iranges_valid, FB).
        rewrite iranges_mem, HB by exact FB. destruct (sval s k); [exact Logic.I|apply HA].
    - intros m IH outer v Hr Hf. destruct (IH Hr Hf) as (a & FA & A & HA). rewrite A. cbn [obind].
      destruct (iall_gaps a outer FA) as (gs & G1 & _ & G2). rewrite G1. cbn [obind].
      destruct (iextend_list a (map (fun r => (r, v)) gs) FA) as [F0 E0].
      { intros e He. apply in_map_iff in He as (r & <- & Hin). split; apply (proj1 G2), Hin. }
      eexists. refine (conj F0 (conj E0 _)).
      + intros k. rewrite spec_cat, put_list.
        * rewrite <- map_rev. pose proof (igaps_cover _ _ _ k G2) as G.
          assert (F : find (fun e : entry => covers (fst e) k) (map (fun r => (r, v)) (rev gs)) =
                    match find (fun r => covers r k) (rev gs) with Some r => Some (r, v) | None => None end).
          { clear. induction (rev gs) as [|r l IH]; [reflexivity|]. cbn. destruct (covers r k); auto. }
          rewrite F. specialize (HA k). destruct (find (fun r => covers r k) (rev gs)) as [r|] eqn:E.
          -- apply find_some in E as [E1 E2]. apply in_rev in E1.
             assert (existsb (fun r => covers r k) gs = true) as X by (apply existsb_exists; eauto).
             rewrite X in G. symmetry in G. apply andb_prop in G as [G3 G4].
             destruct (spec a k); [discriminate|]. destruct (mval m k); [destruct HA|]. rewrite G3. left; reflexivity.
          -- assert (existsb (fun r => covers r k) gs = false) as X.
             { destruct (existsb _ gs) eqn:X; [|reflexivity]. apply existsb_exists in X as (r & X1 & X2).
               apply in_rev in X1. pose proof (find_none _ _ E _ X1) as Y. cbn in Y. congruence. }
             rewrite X in G. destruct (spec a k), (mval m k); try destruct HA; auto.
             ++ subst; left; reflexivity.
             ++ right; assumption.
             ++ rewrite andb_true_r in G. rewrite <- G. exact Logic.I.
        * apply forallb_forall. intros e He. apply in_map_iff in He as (r & <- & Hin). apply (proj1 G2), Hin.
    - intros s IH v Hr Hf. destruct (IH Hr Hf) as (b & FB & B & HB). rewrite B. cbn [obind]. 
      destruct (icollect_list (map (fun r => (r, v)) (map fst (is_into_iter (srun' b))))) as [F0 E0].
      { intros e He. apply in_map_iff in He as (r & <- & Hin). apply (iranges_valid b FB), Hin. }
      eexists. refine (conj F0 (conj E0 _)).
      + intros k. unfold spec_run. specialize (HB k). rewrite <- HB.
        set (l := map fst (is_into_iter (srun' b))).
        pose proof (put_described valid covers veqb (map (fun r => (r, v)) l)
          (fun k => if mem b k then Some v else None) (fun _ => None) k) as P.
        assert (Q : osame (fold_left (spec_op valid covers) (ins (map (fun r => (r, v)) l)) (fun _ => None) k)
          (match (if mem b k then Some v else None) with Some w => Some w | None => None end)).
        { apply P.
          - intros r w Hin. apply in_map_iff in Hin as (r' & [= -> _] & Hin). apply (iranges_valid b FB), Hin.
          - intros r w Hin Hc. apply in_map_iff in Hin as (r' & [= -> <-] & Hin).
            assert (mem b k = true) as -> by (rewrite <- (iranges_mem b k FB); apply existsb_exists; eauto). left; reflexivity.
          - intros Hn. destruct (mem b k) eqn:Em; [|congruence]. rewrite <- (iranges_mem b k FB) in Em.
            apply existsb_exists in Em as (r & R1 & R2). exists r, v. split; [|exact R2]. apply in_map_iff. eauto. }
        destruct (mem b k); exact Q.
    - intros g m IH [Hg Hr] Hf. destruct (IH Hr Hf) as (b & FB & B & HB). rewrite B. cbn [obind].
      destruct (iiter_valid_ascending HO HS HV b FB) as [_ Hv]. destruct (iiter_describes HO HS HV b FB) as [_ Hd].
      destruct (icollect_list (map (fun e : entry => (fst e, g (snd e))) (im_into_iter (run b)))) as [F0 E0].
      { intros e He. apply in_map_iff in He as ([r v] & <- & Hin). apply (Hv r v Hin). }
      eexists. refine (conj F0 (conj E0 _)).
      + intros k. unfold spec_run. specialize (HB k). destruct (Hd k) as [D1 D2].
        assert (Q : osame (fold_left (spec_op valid covers)
            (ins (map (fun e : entry => (fst e, g (snd e))) (im_into_iter (run b)))) (fun _ => None) k)
          (match option_map g (spec b k) with Some w => Some w | None => None end)).
        { apply put_described with (g := fun k => option_map g (spec b k)).
          - intros r w Hin. apply in_map_iff in Hin as ([r' w'] & [= -> _] & Hin). apply (Hv r w' Hin).
          - intros r w Hin Hc. apply in_map_iff in Hin as ([r' w'] & [= -> <-] & Hin).
            specialize (D1 r w' Hin Hc). cbn. destruct (spec b k); [|destruct D1]. cbn.
            destruct D1 as [-> | D1]; [left; reflexivity|right; apply Hg, D1].
          - intros Hn. destruct D2 as (r & w & I1 & I2); [destruct (spec b k); [discriminate|exact Hn]|].
            exists r, (g w). split; [|exact I2]. apply in_map_iff. exists (r, w). auto. }
        eapply (osame_trans HV); [exact Q|]. destruct (spec b k), (mval m k); try destruct HB; cbn; auto.
        * subst; left; reflexivity.
        * right. apply Hg. assumption.
    - exists []. repeat split.
    - intros s IH o Hr Hf. apply andb_prop in Hf as [Hf Hf']. destruct (IH Hr Hf) as (ops & F & E & H). exists (ops ++ [o]). split; [apply fresh_snoc; auto|]. rewrite E. split.
      + unfold omap. cbn. rewrite isrun_snoc. reflexivity.
      + rewrite mem_snoc. apply mem_op_same, H.
    - intros s IH s' IH' [Hr Hr'] Hf. apply andb_prop in Hf as [Hf Hf']. destruct (IH Hr Hf) as (a & FA & A & HA), (IH' Hr' Hf') as (b & FB & B & HB).
      destruct (isbitor HO HS a b FA FB) as (c & FC & C & HC). exists c. split; [exact FC|]. rewrite A, B. cbn [obind]. split; [exact C|].
      intros k. rewrite HC, HA, HB. reflexivity.
    - intros s IH s' IH' [Hr Hr'] Hf. apply andb_prop in Hf as [Hf Hf']. destruct (IH Hr Hf) as (a & FA & A & HA), (IH' Hr' Hf') as (b & FB & B & HB).
      destruct (isbitand HO HS a b FA FB) as (c & FC & C & HC). exists c. split; [exact FC|]. rewrite A, B. cbn [obind]. split; [exact C|].
      intros k. rewrite HC, HA, HB. reflexivity.
    - intros s IH s' IH' [Hr Hr'] Hf. apply andb_prop in Hf as [Hf Hf']. destruct (IH Hr Hf) as (a & FA & A & HA), (IH' Hr' Hf') as (b & FB & B & HB).
      rewrite A, B. cbn [obind]. destruct (isextend_list a (map fst (is_into_iter (srun' b))) FA) as [F E]; [apply iranges_valid, FB|].
      eexists. refine (conj F (conj E _)).
      + intros k. unfold mem_run. rewrite fold_left_app, add_list by (apply iall_valid, iranges_valid, FB).
        rewrite iranges_mem, HB by exact FB. f_equal. apply HA.
    - intros s IH s' IH' [Hr Hr'] Hf. apply andb_prop in Hf as [Hf Hf']. destruct (IH Hr Hf) as (a & FA & A & HA), (IH' Hr' Hf') as (b & FB & B & HB).
      rewrite A, B. cbn [obind]. destruct (isremove_list a (map fst (is_into_iter (srun' b))) FA) as [F E]; [apply iranges_valid, FB|].
      eexists. refine (conj F (conj E _)).
      + intros k. unfold mem_run. rewrite fold_left_app, drop_list by (apply iall_valid, iranges_valid, FB).
        rewrite iranges_mem, HB by exact FB. f_equal. apply HA.
    - intros s IH outer Hr Hf. destruct (IH Hr Hf) as (a & FA & A & HA). rewrite A. cbn [obind].
      destruct (isgaps HO HS a outer FA) as (g & gs & G1 & G2 & G3 & G4 & G5).
      assert (HL : length gs <= length (srun' a) + 1).
      { apply (igaps_len HC HO' (veqb := unit_eqb) _ outer g gs); [|exact G1|exact G2].
        rewrite irun_to_ops. apply (irun_WF HO HS unit_per), fresh_to_ops, FA. }
      unfold is_all_gaps. rewrite G1. cbn [obind].
      rewrite (drain_ok _ gs) by (try exact G2; unfold iset, imap in *; lia). cbn [obind].
      destruct (iscollect_list gs) as (F0 & E0 & M0); [intros r Hin; split; apply (G3 r Hin)|].
      eexists. refine (conj F0 (conj E0 _)). intros k. rewrite M0. rewrite <- HA.
      apply (existsb_cov covers gs (fun k => covers outer k && negb (mem a k))). apply G5.
    - intros p m IH [Hp Hr] Hf. destruct (IH Hr Hf) as (b & FB & B & HB). rewrite B. cbn [obind].
      destruct (iiter_valid_ascending HO HS HV b FB) as [_ Hv]. destruct (iiter_describes HO HS HV b FB) as [_ Hd].
      assert (Hv' : forall r, In r (map fst (filter (fun e : entry => p (snd e)) (im_into_iter (run b)))) -> okr r).
      { intros r Hin. apply in_map_iff in Hin as ([r' v] & <- & Hin). apply filter_In in Hin as [Hin _]. apply (Hv r' v Hin). }
      destruct (iscollect_list _ Hv') as (F0 & E0 & M0).
      eexists. refine (conj F0 (conj E0 _)). intros k. rewrite M0.
      specialize (HB k). destruct (Hd k) as [D1 D2].
      apply (existsb_cov covers _ (fun k => match mval m k with Some v => p v | None => false end)). split.
      + intros (r & R1 & R2). apply in_map_iff in R1 as ([r' v] & <- & Hin). apply filter_In in Hin as [Hin Hpv].
        cbn [fst snd] in *. specialize (D1 r' v Hin R2). pose proof (osame_trans HV _ _ _ D1 HB) as D.
        destruct (mval m k) as [w|]; [|destruct D]. destruct D as [<- | D]; [exact Hpv|]. rewrite <- (Hp _ _ D). exact Hpv.
      + intros Hpm. destruct (mval m k) as [w|] eqn:Em; [|discriminate]. destruct (spec b k) as [u|] eqn:Eb; [|destruct HB].
        destruct D2 as (r & v & I1 & I2); [discriminate|]. exists r. split; [|exact I2].
        apply in_map_iff. exists (r, v). split; [reflexivity|]. apply filter_In. split; [exact I1|]. cbn.
        specialize (D1 r v I1 I2). pose proof (osame_trans HV _ _ _ D1 HB) as D.
        destruct D as [-> | D]; [exact Hpm|]. rewrite (Hp _ _ D). exact Hpm.
    - intros m IH outer Hr Hf. destruct (IH Hr Hf) as (a & FA & A & HA). rewrite A. cbn [obind].
      destruct (iall_gaps a outer FA) as (gs & G1 & _ & G2). rewrite G1. cbn [obind].
      destruct (iscollect_list gs) as (F0 & E0 & M0); [intros r Hin; split; apply (proj1 G2), Hin|].
      eexists. refine (conj F0 (conj E0 _)). intros k. rewrite M0.
      rewrite (igaps_cover _ _ _ k G2). specialize (HA k). destruct (spec a k), (mval m k); try destruct HA; reflexivity.
  Qed.
End Inclusive.

(** ** What a finished program answers *)
Section Answers.
  Context {K V : Type} {cmp : K -> K -> comparison} {veqb : V -> V -> bool}.
  Context (HO : TotalOrd cmp) (HV : PartialEquiv veqb).
  Notation covers := (in_range cmp).
  Notation mval := (mval (V := V) (valid_range cmp) covers).
  Notation sval := (sval (V := V) (valid_range cmp) covers).
  Notation osame := (same_opt veqb).

  Lemma mprog_answers x : mrespects veqb x -> exists m, mrun cmp veqb x = Ret m /\
    (forall k, exists o, rm_get cmp m k = Ret o /\ osame o (mval x k)) /\
    ascending cmp (rm_iter m) /\ coalesced cmp veqb (rm_iter m) /\ represents covers veqb (rm_iter m) (mval x).
  Proof.
    intros Hr. destruct (proj1 (prog_ok HO HV) x Hr) as (ops & E & H). exists (rm_run cmp veqb ops).
    pose proof (run_WF HO HV ops) as HW. splits.
    - exact E.
    - intros k. eexists. split; [apply (get_ok HO _ _ HW)|].
      eapply (osame_trans HV); [apply (run_lk HO HV)|apply H].
    - apply (iter_valid_ascending HO HV).
    - apply (WF_coalesced HO _ HW).
    - intros k. specialize (H k). pose proof (proj1 (iter_describes HO HV ops) k) as D. unfold represents in D.
      destruct (spec_run _ _ ops k) as [v|] eqn:Es; destruct (mval x k) as [w|] eqn:Ew; try destruct H; try exact D.
      + subst. exact D.
      + destruct D as (r & u & D1 & D2 & D3). exists r, u. splits; auto.
        apply (osame_trans HV (Some u) (Some v) (Some w)); [exact D3|right; assumption].
  Qed.
  Lemma mprog_eq (Hrefl : forall v, veqb v v = true) x y : mrespects veqb x -> mrespects veqb y ->
    exists a b, mrun cmp veqb x = Ret a /\ mrun cmp veqb y = Ret b /\
      (rm_eqb cmp veqb a b = true <-> forall k, osame (mval x k) (mval y k)).
  Proof.
    intros Hx Hy. destruct (proj1 (prog_ok HO HV) x Hx) as (a & A & HA), (proj1 (prog_ok HO HV) y Hy) as (b & B & HB).
    exists (rm_run cmp veqb a), (rm_run cmp veqb b). refine (conj A (conj B _)).
    rewrite (run_eqb_spec HO HV Hrefl). split; intros H k; specialize (H k); specialize (HA k); specialize (HB k).
    - eapply (osame_trans HV); [apply (osame_sym HV), HA|]. eapply (osame_trans HV); [exact H|exact HB].
    - eapply (osame_trans HV); [exact HA|]. eapply (osame_trans HV); [exact H|apply (osame_sym HV), HB].
  Qed.
  Lemma sprog_answers x : srespects veqb x -> exists s, srun cmp veqb x = Ret s /\
    (forall k, rs_contains cmp s k = Ret (sval x k)) /\ runs_of cmp (sval x) (map fst (rs_iter s)).
  Proof.
    intros Hr. destruct (proj2 (prog_ok HO HV) x Hr) as (ops & E & H). exists (rs_run cmp ops). splits.
    - exact E.
    - intros k. rewrite (srun_contains HO), H. reflexivity.
    - destruct (srun_runs HO ops) as (R1 & R2 & R3). unfold runs_of. splits; auto.
      intros k. rewrite R3, H. reflexivity.
  Qed.
  Lemma sprog_eq x y : srespects veqb x -> srespects veqb y ->
    exists a b, srun cmp veqb x = Ret a /\ srun cmp veqb y = Ret b /\
      (rs_eqb cmp a b = true <-> forall k, sval x k = sval y k).
  Proof.
    intros Hx Hy. destruct (proj2 (prog_ok HO HV) x Hx) as (a & A & HA), (proj2 (prog_ok HO HV) y Hy) as (b & B & HB).
    exists (rs_run cmp a), (rs_run cmp b). refine (conj A (conj B _)). rewrite (seqb_spec HO).
    split; intros H k; specialize (H k); rewrite ?HA, ?HB in *; exact H.
  Qed.
End Answers.
Section AnswersInclusive.
  Context {K V : Type} {cmp : K -> K -> comparison} {veqb : V -> V -> bool} {st : stepfns K}.
  Context (HO : TotalOrd cmp) (HS : StepLaws cmp st) (HV : PartialEquiv veqb).
  Notation covers := (in_rangei cmp).
  Notation mval := (mval (V := V) (valid_rangei cmp) covers).
  Notation sval := (sval (V := V) (valid_rangei cmp) covers).
  Notation osame := (same_opt veqb).

  Lemma improg_answers x : mrespects veqb x -> mfresh x = true -> exists m, imrun cmp veqb st x = Ret m /\
    (forall k, exists o, im_get cmp m k = Ret o /\ osame o (mval x k)) /\
    ascendingi cmp (im_iter m) /\ coalescedi cmp veqb (im_iter m) /\ represents covers veqb (im_iter m) (mval x).
  Proof.
    intros Hr Hf. destruct (proj1 (iprog_ok HO HS HV) x Hr Hf) as (ops & F & E & H). exists (im_run cmp veqb st ops).
    splits.
    - exact E.
    - intros k. destruct (irun_get_spec HO HS HV ops F k) as (o & G1 & G2). exists o. split; [exact G1|].
      eapply (osame_trans HV); [exact G2|apply H].
    - apply (iiter_valid_ascending HO HS HV ops F).
    - apply (iiter_coalesced HO HS HV ops F).
    - intros k. specialize (H k). pose proof (proj1 (iiter_describes HO HS HV ops F) k) as D. unfold represents in D.
      destruct (spec_run _ _ ops k) as [v|] eqn:Es; destruct (mval x k) as [w|] eqn:Ew; try destruct H; try exact D.
      + subst. exact D.
      + destruct D as (r & u & D1 & D2 & D3). exists r, u. splits; auto.
        apply (osame_trans HV (Some u) (Some v) (Some w)); [exact D3|right; assumption].
  Qed.
  Lemma improg_eq (Hrefl : forall v, veqb v v = true) x y : mrespects veqb x -> mrespects veqb y ->
    mfresh x = true -> mfresh y = true ->
    exists a b, imrun cmp veqb st x = Ret a /\ imrun cmp veqb st y = Ret b /\
      (im_eqb cmp veqb a b = true <-> forall k, osame (mval x k) (mval y k)).
  Proof.
    intros Hx Hy Fx Fy. destruct (proj1 (iprog_ok HO HS HV) x Hx Fx) as (a & FA & A & HA).
    destruct (proj1 (iprog_ok HO HS HV) y Hy Fy) as (b & FB & B & HB).
    exists (im_run cmp veqb st a), (im_run cmp veqb st b). refine (conj A (conj B _)).
    rewrite (irun_eqb_spec HO HS HV Hrefl a b FA FB).
    split; intros H k; specialize (H k); specialize (HA k); specialize (HB k).
    - eapply (osame_trans HV); [apply (osame_sym HV), HA|]. eapply (osame_trans HV); [exact H|exact HB].
    - eapply (osame_trans HV); [exact HA|]. eapply (osame_trans HV); [exact H|apply (osame_sym HV), HB].
  Qed.
  Lemma isprog_answers x : srespects veqb x -> sfresh x = true -> exists s, isrun cmp veqb st x = Ret s /\
    (forall k, is_contains cmp s k = Ret (sval x k)) /\ runsi_of cmp (sval x) (map fst (is_iter s)).
  Proof.
    intros Hr Hf. destruct (proj2 (iprog_ok HO HS HV) x Hr Hf) as (ops & F & E & H). exists (is_run cmp st ops). splits.
    - exact E.
    - intros k. rewrite (isrun_contains HO HS ops k F), H. reflexivity.
    - destruct (isrun_runs HO HS ops F) as (R1 & R2 & R3). unfold runsi_of. splits; auto.
      intros k. rewrite R3, H. reflexivity.
  Qed.
  Lemma isprog_eq x y : srespects veqb x -> srespects veqb y -> sfresh x = true -> sfresh y = true ->
    exists a b, isrun cmp veqb st x = Ret a /\ isrun cmp veqb st y = Ret b /\
      (is_eqb cmp a b = true <-> forall k, sval x k = sval y k).
  Proof.
    intros Hx Hy Fx Fy. destruct (proj2 (iprog_ok HO HS HV) x Hx Fx) as (a & FA & A & HA).
    destruct (proj2 (iprog_ok HO HS HV) y Hy Fy) as (b & FB & B & HB).
    exists (is_run cmp st a), (is_run cmp st b). refine (conj A (conj B _)). rewrite (iseqb_spec HO HS a b FA FB).
    split; intros H k; specialize (H k); rewrite ?HA, ?HB in *; exact H.
  Qed.
End AnswersInclusive.
