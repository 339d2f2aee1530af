(** Interrupted [RangeInclusiveMap] updates when ranges may be exhausted (C63):
    what CrashProps.v says of the maps left behind, without the restriction to
    ranges that are not exhausted. *)
From Coq Require Import List Bool Sorting.Sorted Lia.
From Verif Require Import Order Outcome BTree Ranges History Spec SpecExact MapModel IMapModel StepModel ListLemmas
  MapProofs MapRemove MapFacts MapIter ISim Cuts IFacts IMapProps CrashModel CrashFacts CrashSim CrashProps
  Exhausted ExhaustedCrash IExact.
Import ListNotations.

Section Any.
  Context {K V : Type} {cmp : K -> K -> comparison} {veqb : V -> V -> bool} {st : stepfns K}.
  Context (HO : TotalOrd cmp) (HS : StepLaws cmp st) (HV : PartialEquiv veqb).
  Notation run := (im_run cmp veqb st).
  Notation xexec1 := (imx_exec cmp veqb st).
  Notation fe := (@freshen_entry K V).
  Notation covers := (in_rangei cmp).
  Notation s0 e := (ri_start (fst e)).
  Notation e0 e := (ri_end (fst e)).
  Notation IWF := (@IWF K V cmp veqb st).

  Lemma valid_IWF m : ascendingi cmp m -> (forall r v, In (r, v) m -> valid_rangei cmp r = true) ->
    coalescedi cmp veqb m -> IWF m.
  Proof.
    intros H1 H2 H3. split.
    - eapply SS_impl; [|exact H1]. intros a b Ha Hb H. split; [exact H|]. intros Hr.
      destruct (veqb (snd a) (snd b)) eqn:E; [|reflexivity].
      destruct (H3 a b Ha Hb H E) as (k & K1 & K2).
      rewrite (reaches_between HO HS _ _ k K1 K2) in Hr. discriminate.
    - intros [r v] He. specialize (H2 r v He). unfold valid_rangei in H2. cbn [fst]. ord.
  Qed.
  Lemma IWF_reachable m : IWF m -> exists ops, m = run ops.
  Proof.
    intros H. exists [OExtend m].
    pose proof (irebuild_from HO HS HV m [] m H (Permutation.Permutation_refl _)) as E.
    change (run [OExtend m]) with (snd (im_extend cmp veqb st m (run []))). unfold im_extend. rewrite E. reflexivity.
  Qed.
  Lemma ixrun_reachable_any xs : exists ops, imx_run cmp veqb st xs = run ops.
  Proof. apply IWF_reachable. destruct (ixrun_valid_any HO HS HV xs) as (H1 & H2 & H3). apply valid_IWF; assumption. Qed.
  Lemma icrash_reachable ops o x : In x (crash_states (xexec1 o) (run ops)) -> exists ops', x = run ops'.
  Proof.
    intros Hx. apply (In_nth _ _ (snd (snd (xexec1 o (run ops))))) in Hx as (n & Hn & E).
    destruct (ixrun_reachable_any (map XDone ops ++ [XCrash o n])) as (ops' & H). exists ops'. rewrite <- H.
    unfold imx_run. rewrite fold_left_app. cbn [fold_left xexec].
    change (fold_left (xexec xexec1) (map XDone ops) []) with (imx_run cmp veqb st (map XDone ops)).
    rewrite ixrun_done. symmetry. exact E.
  Qed.

  (** the last state, or an earlier one *)
  Lemma last_or {A} (l : list A) d x : In x l -> x = last l d \/ In x (removelast l).
  Proof.
    intros H. destruct l as [|a l] using rev_ind; [destruct H|]. rewrite last_last, removelast_last.
    apply in_app_or in H as [H|[<-|[]]]; auto.
  Qed.
  Lemma removelast_map {A B} (f : A -> B) l : removelast (map f l) = map f (removelast l).
  Proof. induction l as [|a [|b l] IH]; cbn in *; [reflexivity|reflexivity|]. rewrite IH. reflexivity. Qed.
  Notation WFi := (@WFi K (cut K) V (cmp_cut cmp st) veqb Before After).
  Notation Rm := (@Rm K (cut K) V (cmp_cut cmp st) Before After).
  Notation encr := (@ISim.encr K (cut K) Before After).
  Notation ence := (@ISim.ence K (cut K) V Before After).
  Notation HC := (cuts cmp st HO HS).
  Notation HO' := (cut_order cmp st HO HS).
  Notation alive x e :=
    (exists y, In y x /\ eqb cmp (s0 y) (s0 e) = true /\ eqb cmp (e0 y) (e0 e) = true /\ snd y = snd e).
  Lemma iinsert_before ops r v x : fresh_ops ops -> ri_exhausted r = false ->
    In x (removelast (crash_states (imx_insert cmp veqb st r v) (run ops))) ->
    WFi x /\ (forall k, im_get cmp x k = im_get cmp (run ops) k \/ im_get cmp x k = Ret None).
  Proof.
    intros Hf Hfr Hx. pose proof (irun_WF HO HS HV ops Hf) as HW.
    assert (Hf1 : fresh_op (OInsert r v) = true) by (cbn; rewrite Hfr; reflexivity).
    destruct (WFi_sim HO' _ HW) as [S1 S2].
    pose proof (goodL_insert HO' HV _ (encr r) v S2) as HL.
    destruct (xexec_sim HC HO' HV (OInsert r v) _ _ S1 S2 Hf1) as [T1 T2].
    cbn [imx_exec rmx_exec ISim.enc_op] in T1, T2.
    assert (HF : exists x', part (cmp := cmp_cut cmp st) (veqb := veqb)
                   (hit (cmp := cmp_cut cmp st) (veqb := veqb) (encr r) v)
                   (map ence (run ops)) x' /\ Rm x x').
    { unfold crash_states in Hx.
      destruct (fst (imx_insert cmp veqb st r v (run ops))) as [|y0 l0] eqn:E0; [destruct Hx|].
      destruct (exists_last (l := y0 :: l0)) as (l & z & El); [discriminate|]. rewrite El in Hx, T1.
      rewrite app_comm_cons, removelast_last in Hx. destruct Hx as [<-|Hx].
      { exists (map ence (run ops)). split; [apply part_refl; exact S2|exact S1]. }
      destruct HL as (T & HT & HF). rewrite Forall_forall in HF.
      destruct HT as [HT | [y HT]]; rewrite HT in T1.
      - assert (Hx2 : In x (l ++ [z])) by (apply in_or_app; auto).
        apply (Forall2_In_l _ _ _ _ T1) in Hx2 as (x' & Hx' & Hr). exists x'. auto.
      - apply Forall2_app_inv_l in T1 as (t1 & t2 & U1 & U2 & U3).
        inversion U2 as [|y1 y2 l1 l2 Hy Hn]; subst. inversion Hn; subst.
        apply app_inj_tail in U3 as [-> _].
        apply (Forall2_In_l _ _ _ _ U1) in Hx as (x' & Hx' & Hr). exists x'. auto. }
    destruct HF as (x' & HP & Hr). destruct (part_incl HO HS _ _ _ _ HW Hr HP) as (H0 & H1 & _). auto.
  Qed.

  (** what the entries say of a key *)
  Definition no_more (x m : imap K V) : Prop :=
    forall e k, In e x -> covers (fst e) k = true -> exists e', In e' m /\ covers (fst e') k = true /\ snd e' = snd e.
  Lemma get_no_more x ops : (exists ops', fresh_ops ops' /\ x = run ops') -> fresh_ops ops ->
    (forall k, im_get cmp x k = im_get cmp (run ops) k \/ im_get cmp x k = Ret None) -> no_more x (run ops).
  Proof.
    intros (ops' & Hf' & ->) Hf H [r v] k He Hk. cbn [fst snd] in *.
    assert (G : im_get cmp (run ops') k = Ret (Some v)).
    { unfold im_get. rewrite (proj2 (iget_iff HO HS HV ops' k r v Hf') (conj He Hk)). reflexivity. }
    destruct (H k) as [E|E]; rewrite G in E; [|discriminate]. symmetry in E. unfold im_get in E.
    destruct (im_get_key_value cmp (run ops) k) as [[[r' v']|]|p|] eqn:E'; try discriminate E. cbn in E.
    apply (iget_iff HO HS HV ops k r' v' Hf) in E' as [E1 E2]. exists (r', v'). cbn [fst snd]. splits; auto. congruence.
  Qed.
  Lemma no_more_flags x m : no_more (map fe x) (map fe m) -> no_more x m.
  Proof.
    intros H e k He Hk. destruct (H (fe e) k (in_map fe _ _ He) Hk) as (e' & He' & H1 & H2).
    apply in_map_iff in He' as (e1 & <- & He1). exists e1. auto.
  Qed.
  (** an entry whose bounds and value are in every recorded state is there itself *)
  Lemma keeps_itself_any {A} (c : C (imap K V) A) m e :
    chained (bt_step (cmpi_start cmp)) c -> IWF m ->
    (forall x, In x (crash_states c m) -> IWF x /\ alive x e) -> In e m ->
    forall x, In x (crash_states c m) -> In e x.
  Proof.
    intros Hc HW Hl Hi. destruct (Hc m) as [Hc1 _].
    assert (HS' : forall x, IWF x -> StronglySorted (fun a b => cmpi_start cmp (fst a) (fst b) = Lt) x).
    { intros x [H1 H2]. eapply SS_impl; [|exact H1]. intros a b Ha Hb [Hab _].
      specialize (H2 a Ha). unfold cmpi_start. ord. }
    apply (chain_keeps (cmpi_start cmp)); auto.
    - split; unfold cmpi_start; [intros a; ord|intros a b; apply (ord_dual _ HO)|].
      intros o a b d. apply (ord_trans _ HO).
    - intros x Hx. destruct (Hl x (or_intror Hx)) as [H1 (y & Y1 & Y2 & _ & Y3)]. split; [auto|].
      exists y. splits; auto. unfold eqb in Y2. unfold cmpi_start. destruct (cmp (s0 y) (s0 e)); congruence.
  Qed.
  Lemma alive_flags x e : In (fe e) (map fe x) -> alive x e.
  Proof.
    intros H. apply in_map_iff in H as (y & E & Hy). exists y. split; [exact Hy|].
    destruct y as [[a b f] w], e as [[a' b' f'] w']. unfold freshen_entry, freshen in E. cbn in *.
    injection E as -> -> ->. splits; auto; ord.
  Qed.
  Lemma crash_IWF ops o x : In x (crash_states (xexec1 o) (run ops)) -> IWF x.
  Proof. intros H. destruct (icrash_reachable ops o x H) as (ops' & ->). apply (run_IWF HO HS HV). Qed.

  Lemma iinsert_interrupted_any ops r v x :
    In x (crash_states (xexec1 (OInsert r v)) (run ops)) ->
    (x = run (ops ++ [OInsert r v]) \/ no_more x (run ops)) /\
    (forall e, In e (run ops) -> apart (cmp := cmp) (veqb := veqb) r v e -> In e x).
  Proof.
    intros Hx. split.
    - destruct (last_or _ (run ops) _ Hx) as [H|H].
      + left. rewrite (proj2 (irecord_faithful cmp veqb st _ _)) in H. rewrite run_isnoc. exact H.
      + right. apply no_more_flags. rewrite <- x_run.
        assert (H' : In (map fe x) (removelast (crash_states (imx_insert cmp veqb st (freshen r) v) (run (map freshen_op ops))))).
        { change (imx_insert cmp veqb st (freshen r) v) with (xexec1 (freshen_op (OInsert r v))).
          rewrite x_run, cx_states, removelast_map. apply in_map, H. }
        destruct (iinsert_before _ (freshen r) v _ (freshen_fresh ops) eq_refl H') as [H1 H2].
        apply get_no_more; [|apply freshen_fresh|exact H2].
        destruct (WFi_reachable HO HS _ H1) as (ops' & Hf & E). eauto.
    - intros e He Ha. revert x Hx. apply keeps_itself_any.
      + apply ch_iinsert.
      + apply (run_IWF HO HS HV).
      + intros x Hx. split; [apply (crash_IWF ops _ _ Hx)|]. apply alive_flags.
        apply (iinsert_keeps HO HS HV (map freshen_op ops) (freshen r) v (fe e)); auto.
        * apply freshen_fresh.
        * rewrite x_run. apply in_map, He.
        * change (imx_insert cmp veqb st (freshen r) v) with (xexec1 (freshen_op (OInsert r v))).
          rewrite x_run, cx_states. apply in_map, Hx.
      + exact He.
  Qed.
  Lemma iremove_interrupted_any ops r x :
    In x (crash_states (xexec1 (ORemove r)) (run ops)) ->
    no_more x (run ops) /\
    (forall e, In e (run ops) ->
       ltb cmp (e0 e) (ri_start r) = true \/ ltb cmp (ri_end r) (s0 e) = true -> In e x).
  Proof.
    assert (HF : forall x, In x (crash_states (xexec1 (ORemove r)) (run ops)) ->
      In (map fe x) (crash_states (imx_remove cmp st (freshen r)) (run (map freshen_op ops)))).
    { intros y Hy. change (imx_remove cmp st (freshen r)) with (xexec1 (freshen_op (ORemove r))).
      rewrite x_run, cx_states. apply in_map, Hy. }
    intros Hx. split.
    - apply no_more_flags. rewrite <- x_run.
      destruct (iremove_crash HO HS HV _ _ _ (freshen_fresh ops) (HF x Hx)) as (H1 & H2 & _).
      apply get_no_more; [exact H1|apply freshen_fresh|exact H2].
    - intros e He Ha. revert x Hx. apply keeps_itself_any.
      + apply ch_iremove.
      + apply (run_IWF HO HS HV).
      + intros x Hx. split; [apply (crash_IWF ops _ _ Hx)|]. apply alive_flags.
        destruct (iremove_crash HO HS HV _ _ _ (freshen_fresh ops) (HF x Hx)) as (_ & _ & H3).
        apply H3; [rewrite x_run; apply in_map, He|exact Ha].
      + exact He.
  Qed.
End Any.
