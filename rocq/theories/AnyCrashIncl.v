(** Interrupted [RangeInclusiveMap] updates with an arbitrary [==] on values and
    ranges that may be exhausted: AnyCrash.v carried over by the simulation of
    CrashSim.v. *)
From Coq Require Import List Bool Sorting.Sorted Lia.
From Verif Require Import Order Outcome BTree SearchTree Ranges History Spec SpecExact MapModel IMapModel StepModel
  ListLemmas MapProofs MapRemove AnyEq MapFacts MapIter ISim Cuts IFacts IMapProps CrashModel CrashFacts CrashSim
  CrashProps Exhausted ExhaustedCrash ExhaustedEq IExact CrashAny AnyFacts AnyCrash.
Import ListNotations.

Lemma Forall2_removelast {A B} (R : A -> B -> Prop) l l' :
  Forall2 R l l' -> Forall2 R (removelast l) (removelast l').
Proof.
  intros H. induction H as [|a b l l' H1 H2 IH]; [constructor|]. cbn [removelast].
  destruct H2; [constructor|]. constructor; [exact H1|exact IH].
Qed.

Section Incl.
  Context {K V : Type} {cmp : K -> K -> comparison} {veqb : V -> V -> bool} {st : stepfns K}.
  Context (HO : TotalOrd cmp) (HS : StepLaws cmp st).
  Notation never := (fun _ _ : V => false).
  Notation entry := (rangei K * V)%type.
  Notation s0 e := (ri_start (fst e)).
  Notation e0 e := (ri_end (fst e)).
  Notation fr := (@freshen K).
  Notation fe := (@freshen_entry K V).
  Notation covers := (in_rangei cmp).
  Notation xexec1 := (imx_exec cmp veqb st).
  Notation WWi := (@WFi K (cut K) V (cmp_cut cmp st) never Before After).
  Notation Rm := (@Rm K (cut K) V (cmp_cut cmp st) Before After).
  Notation enc_op := (@enc_op K (cut K) V Before After).
  Notation encr := (@ISim.encr K (cut K) Before After).
  Notation ence := (@ISim.ence K (cut K) V Before After).
  Notation HC := (cuts cmp st HO HS).
  Notation HO' := (cut_order cmp st HO HS).
  Notation no_more := (@no_more K V cmp).
  Notation alive x e :=
    (exists y, In y x /\ eqb cmp (s0 y) (s0 e) = true /\ eqb cmp (e0 y) (e0 e) = true /\ snd y = snd e).

  Lemma iexec_any_crash o m x : fresh_op o = true -> WWi m -> In x (crash_states (xexec1 o) m) -> WWi x.
  Proof.
    intros Hf HW Hx. destruct (WFi_sim HO' m HW) as [H1 H3].
    destruct (crash_sim _ _ _ _ _ _ H1 (xexec_any_sim HC HO' o m _ H1 H3 Hf) Hx) as (x' & Hx' & H2).
    eapply (Rm_WFi HO'); [exact H2|]. apply (exec_crash_any HO' _ _ _ H3 Hx').
  Qed.
  Lemma iexec_any_final o m : fresh_op o = true -> WWi m -> WWi (snd (snd (xexec1 o m))).
  Proof.
    intros Hf HW. destruct (WFi_sim HO' m HW) as [H1 H3].
    destruct (xexec_any_sim HC HO' (veqb := veqb) o m _ H1 H3 Hf) as [_ [_ H2]].
    eapply (Rm_WFi HO'); [exact H2|]. rewrite e_exec. apply (exec_any HO' _ _ H3).
  Qed.
  Lemma ixexec_any m y : fresh_op (xop_of y) = true -> WWi m -> WWi (xexec xexec1 m y).
  Proof.
    intros Hf HW. pose proof (iexec_any_final _ m Hf HW) as H.
    destruct y as [o|o n]; cbn [xexec xop_of] in *; [exact H|].
    destruct (nth_in_or_default n (crash_states (xexec1 o) m) (snd (snd (xexec1 o m)))) as [Hi | ->];
      [|exact H]. apply (iexec_any_crash o m _ Hf HW Hi).
  Qed.
  Notation xrun := (imx_run cmp veqb st).
  Lemma ixrun_any_fresh xs : fresh_ops (map xop_of xs) -> WWi (xrun xs).
  Proof.
    unfold imx_run, fresh_ops.
    assert (H : forall m, forallb fresh_op (map xop_of xs) = true -> WWi m -> WWi (fold_left (xexec xexec1) xs m)).
    { induction xs as [|y xs IH]; intros m Hf HW; cbn; [exact HW|].
      cbn in Hf. apply andb_prop in Hf as [Hf1 Hf2]. apply IH; [exact Hf2|]. apply ixexec_any; assumption. }
    intros Hf. apply H; [exact Hf|]. split; [intros e []|apply WF_nil].
  Qed.
  (** the invariant when ranges may be exhausted: that of the map with the flags cleared *)
  Notation J m := (WWi (map fe m)).
  Lemma ixrun_J xs : J (xrun xs).
  Proof. rewrite <- cx_run. apply ixrun_any_fresh, xfreshen_fresh. Qed.
  Lemma crash_J o m x : J m -> In x (crash_states (xexec1 o) m) -> J x.
  Proof.
    intros HW Hx. apply (iexec_any_crash (freshen_op o) (map fe m)); [|exact HW|rewrite cx_states; apply in_map, Hx].
    pose proof (freshen_fresh [o]) as H. unfold fresh_ops in H. cbn in H. rewrite andb_true_r in H. exact H.
  Qed.
  Lemma J_valid m : J m -> ascendingi cmp m /\ (forall e, In e m -> valid_rangei cmp (fst e) = true) /\
    coalescedi cmp never m.
  Proof.
    intros HW. destruct (WFi_reachable HO HS (veqb := never) _ HW) as (ops & Hf & E).
    destruct (iany_iter (veqb := never) HO HS ops Hf) as (H1 & H2 & _). unfold im_iter in *.
    rewrite <- E in H1, H2. split; [exact (asc_map _ H1)|]. split.
    - intros [r v] He. exact (proj1 (H2 (fr r) v (in_map fe _ _ He))).
    - intros a b _ _ _ X. discriminate X.
  Qed.
  Lemma J_reachable m : J m -> exists ops, m = im_run cmp never st ops.
  Proof. intros HW. eexists. symmetry. exact (rebuild (veqb := never) HO HS _ (J_valid m HW)). Qed.
  Lemma J_IWF m : J m -> @IWF K V cmp never st m.
  Proof. intros HW. destruct (J_reachable m HW) as (ops & ->). apply (run_IWF HO HS never_per). Qed.

  (** ** An insertion *)
  Notation far y r :=
    ((exists k, ltb cmp (e0 y) k = true /\ ltb cmp k (ri_start r) = true) \/
     (exists k, ltb cmp (ri_end r) k = true /\ ltb cmp k (s0 y) = true)).
  Lemma far_touch (y : entry) r : far y r -> leb cmp (ri_start r) (ri_end r) = true -> leb cmp (s0 y) (e0 y) = true ->
    touch (cmp := cmp_cut cmp st) (encr r) (encr (fst y)) = false.
  Proof.
    intros H Hr Hy. pose proof (cut_order cmp st HO HS) as HO''. unfold touch. cbn [ISim.encr r_start r_end].
    destruct H as [(k & K1 & K2)|(k & K1 & K2)]; rewrite (lohi_le HC HO') in K1; rewrite (lo_lt HC) in K2; ord_by HO''.
  Qed.
  Lemma near_far m r v (e : entry) : WWi m -> In e m -> leb cmp (ri_start r) (ri_end r) = true -> far e r ->
    (forall y, In y m -> veqb (snd y) v = true -> far y r \/ far e (fst y)) ->
    near_hit (veqb := veqb) (cmp := cmp_cut cmp st) (map ence m) (encr r) v (ence e) = false.
  Proof.
    intros HW He Hr H1 H2.
    destruct (WFi_reachable HO HS (veqb := never) _ HW) as (ops & Hf & E).
    destruct (iany_iter (veqb := never) HO HS ops Hf) as (_ & G & _). unfold im_iter in G. rewrite <- E in G.
    assert (Hv : forall y, In y m -> leb cmp (s0 y) (e0 y) = true).
    { intros [a b] Hy. destruct (G a b Hy) as [X _]. unfold valid_rangei in X. cbn [fst]. ord_by HO. }
    unfold near_hit. rewrite (far_touch e r H1 Hr (Hv e He) : touch (encr r) (fst (ence e)) = false). cbn [orb].
    destruct (existsb _ _) eqn:X; [exfalso|reflexivity]. apply existsb_exists in X as (y' & Hy & X).
    apply in_map_iff in Hy as (y & <- & Hy). apply andb_prop in X as [X X3]. apply andb_prop in X as [X1 X2].
    destruct (H2 y Hy X2) as [F|F].
    - rewrite (far_touch y r F Hr (Hv y Hy) : touch (encr r) (fst (ence y)) = false) in X1. discriminate.
    - rewrite (far_touch e (fst y) F (Hv y Hy) (Hv e He) : touch (fst (ence y)) (fst (ence e)) = false) in X3. discriminate.
  Qed.

  Lemma iinsert_before_any m r v x : WWi m -> ri_exhausted r = false ->
    In x (removelast (crash_states (imx_insert cmp veqb st r v) m)) ->
    WWi x /\ (forall k, im_get cmp x k = im_get cmp m k \/ im_get cmp x k = Ret None).
  Proof.
    intros HW Hfr Hx. assert (Hf1 : fresh_op (OInsert r v) = true) by (cbn; rewrite Hfr; reflexivity).
    destruct (WFi_sim HO' _ HW) as [S1 S2].
    destruct (xexec_any_sim HC HO' (veqb := veqb) (OInsert r v) _ _ S1 S2 Hf1) as [T1 _].
    cbn [imx_exec rmx_exec ISim.enc_op] in T1.
    pose proof (Forall2_removelast _ _ _ (Forall2_cons _ _ S1 T1)) as T.
    apply (Forall2_In_l _ _ _ _ T) in Hx as (x' & Hx' & Hr).
    pose proof (insert_before_any HO' _ _ _ _ S2 Hx') as HP.
    destruct (part_incl HO HS _ _ _ _ HW Hr HP) as (H0 & H1 & _). auto.
  Qed.
  Lemma iinsert_frame_any m r v x e : WWi m -> ri_exhausted r = false -> In e m -> far e r ->
    (forall y, In y m -> veqb (snd y) v = true -> far y r \/ far e (fst y)) ->
    In x (crash_states (imx_insert cmp veqb st r v) m) -> alive x e.
  Proof.
    intros HW Hfr He H1 H2 Hx. assert (Hf1 : fresh_op (OInsert r v) = true) by (cbn; rewrite Hfr; reflexivity).
    destruct (leb cmp (ri_start r) (ri_end r)) eqn:Hr.
    2:{ unfold imx_insert in Hx. unfold crash_states, cbind, cassert, assert_ in Hx. cbn in Hx. rewrite Hr in Hx.
        cbn in Hx. destruct Hx as [<-|[]]. exists e. splits; auto; ord. }
    destruct (WFi_sim HO' _ HW) as [S1 S2].
    destruct (crash_sim _ _ _ _ _ _ S1 (xexec_any_sim HC HO' (veqb := veqb) (OInsert r v) _ _ S1 S2 Hf1) Hx) as (x' & Hx' & Hm).
    destruct (insert_crash_any HO' _ _ _ _ S2 Hx') as (_ & _ & H3).
    specialize (H3 (ence e) (in_map ence m e He) (near_far m r v e HW He Hr H1 H2)).
    apply (Forall2_In_r _ _ _ _ Hm) in H3 as (y & Hy & [[[Y1 Y2] _] Y3]). exists y. split; [exact Hy|].
    cbn [ISim.ence ISim.encr fst snd r_start r_end] in Y1, Y2, Y3.
    rewrite (lo_eq HC), (hi_eq HC). unfold eqb. rewrite Y1, Y2. auto.
  Qed.
  Lemma get_no_more_any x m : WWi x -> WWi m ->
    (forall k, im_get cmp x k = im_get cmp m k \/ im_get cmp x k = Ret None) -> no_more x m.
  Proof.
    intros Hx Hm. destruct (WFi_reachable HO HS (veqb := never) _ Hm) as (ops & Hf & ->).
    destruct (WFi_reachable HO HS (veqb := never) _ Hx) as (ops' & Hf' & ->).
    apply (get_no_more HO HS never_per (im_run cmp never st ops') ops); eauto.
  Qed.
  Lemma alive_fe x e : alive (map fe x) (fe e) -> alive x e.
  Proof.
    intros (y & Hy & H). apply in_map_iff in Hy as (y' & <- & Hy). exists y'. split; [exact Hy|exact H].
  Qed.
  Lemma ix_insert_from m r v x : J m -> In x (crash_states (xexec1 (OInsert r v)) m) ->
    (x = snd (im_insert cmp veqb st r v m) \/ no_more x m) /\
    (forall e, In e m -> far e r ->
       (forall y, In y m -> veqb (snd y) v = true -> far y r \/ far e (fst y)) -> In e x).
  Proof.
    intros HW Hx. split.
    - destruct (last_or _ m _ Hx) as [H|H].
      + left. rewrite (proj2 (irecord_faithful cmp veqb st _ _)) in H. exact H.
      + right. apply no_more_flags.
        assert (H' : In (map fe x) (removelast (crash_states (imx_insert cmp veqb st (fr r) v) (map fe m)))).
        { change (imx_insert cmp veqb st (fr r) v) with (xexec1 (freshen_op (OInsert r v))).
          rewrite cx_states, removelast_map. apply in_map, H. }
        destruct (iinsert_before_any _ (fr r) v _ HW eq_refl H') as [H1 H2]. apply get_no_more_any; assumption.
    - intros e He H1 H2. revert x Hx. apply (keeps_itself_any HO (veqb := never) (st := st)).
      + apply ch_iinsert.
      + apply J_IWF, HW.
      + intros x Hx. split; [apply J_IWF, (crash_J (OInsert r v) m x HW Hx)|]. apply alive_fe.
        apply (iinsert_frame_any (map fe m) (fr r) v (map fe x) (fe e) HW eq_refl).
        * apply in_map, He.
        * exact H1.
        * intros y Hy Hv. apply in_map_iff in Hy as (y' & <- & Hy). exact (H2 y' Hy Hv).
        * change (imx_insert cmp veqb st (fr r) v) with (xexec1 (freshen_op (OInsert r v))).
          rewrite cx_states. apply in_map, Hx.
      + exact He.
  Qed.
  (** ** After any interruptions *)
  Lemma ix_reachable xs : exists ops, xrun xs = im_run cmp never st ops.
  Proof. apply J_reachable, ixrun_J. Qed.
  Lemma ixrun_snoc xs o : xrun (xs ++ [XDone o]) = snd (im_exec cmp veqb st o (xrun xs)).
  Proof. unfold imx_run. rewrite fold_left_app. cbn. rewrite e_iexec. reflexivity. Qed.
  Lemma ix_insert_interrupted xs r v x : In x (crash_states (xexec1 (OInsert r v)) (xrun xs)) ->
    (x = xrun (xs ++ [XDone (OInsert r v)]) \/ no_more x (xrun xs)) /\
    (forall e, In e (xrun xs) -> far e r ->
       (forall y, In y (xrun xs) -> veqb (snd y) v = true -> far y r \/ far e (fst y)) -> In e x).
  Proof. intros Hx. rewrite ixrun_snoc. exact (ix_insert_from _ r v x (ixrun_J xs) Hx). Qed.
  Lemma ix_remove_interrupted xs r x : In x (crash_states (xexec1 (ORemove r)) (xrun xs)) ->
    no_more x (xrun xs) /\
    (forall e, In e (xrun xs) -> ltb cmp (e0 e) (ri_start r) = true \/ ltb cmp (ri_end r) (s0 e) = true -> In e x).
  Proof. destruct (ix_reachable xs) as (ops & ->). exact (iremove_interrupted_any HO HS never_per ops r x). Qed.
  Lemma ix_insert xs r v :
    if valid_rangei cmp r
    then exists m', im_insert cmp veqb st r v (xrun xs) = (Ret tt, m') /\ length m' <= length (xrun xs) + 2 /\
      exists n, In (n, v) (im_iter m') /\ (forall k, covers r k = true -> covers n k = true) /\
      forall k, exists o o', im_get cmp (map fe (xrun xs)) k = Ret o /\ im_get cmp (map fe m') k = Ret o' /\
        if covers r k then o' = Some v
        else o' = o \/ covers n k = true /\ exists w, o = Some w /\ veqb w v = true /\ o' = Some v
    else im_insert cmp veqb st r v (xrun xs) = (Panicked PAssert, xrun xs).
  Proof. apply (e_insert_from HO HS), ixrun_J. Qed.
  Lemma ix_remove xs r :
    if valid_rangei cmp r
    then exists m', im_remove cmp st r (xrun xs) = (Ret tt, m') /\ length m' <= length (xrun xs) + 1 /\
      forall k, im_get cmp (map fe m') k = if covers r k then Ret None else im_get cmp (map fe (xrun xs)) k
    else im_remove cmp st r (xrun xs) = (Panicked PAssert, xrun xs).
  Proof. destruct (ix_reachable xs) as (ops & ->). exact (e_remove HO HS (veqb := never) ops r). Qed.
  Lemma ix_iter xs :
    ascendingi cmp (im_iter (xrun xs)) /\
    (forall r v, In (r, v) (im_iter (xrun xs)) -> valid_rangei cmp r = true) /\
    (forall k r v, im_get_key_value cmp (xrun xs) k = Ret (Some (r, v)) <->
       In (r, v) (im_iter (xrun xs)) /\ covers r k = true /\ (ri_exhausted r = true -> eqb cmp k (ri_end r) = false)) /\
    (forall k, im_get_key_value cmp (xrun xs) k = Ret None <->
       (forall r v, In (r, v) (im_iter (xrun xs)) ->
          ~ (covers r k = true /\ (ri_exhausted r = true -> eqb cmp k (ri_end r) = false)))).
  Proof.
    destruct (ix_reachable xs) as (ops & ->). destruct (e_iter HO HS (veqb := never) ops) as (H1 & H2 & H3 & H4).
    splits; auto. intros r v H. apply (H2 r v H).
  Qed.
End Incl.
