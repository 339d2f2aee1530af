(** Interrupted [RangeInclusiveMap] updates: consequences of CrashSim.v. *)
From Coq Require Import List Bool Sorting.Sorted Lia.
From Verif Require Import Order Outcome BTree Ranges History Spec MapModel IMapModel StepModel ListLemmas
  MapProofs MapRemove MapFacts MapIter ISim Cuts IFacts IMapProps CrashModel CrashFacts CrashSim.
Import ListNotations.

Section Props.
  Context {K V : Type} {cmp : K -> K -> comparison} {veqb : V -> V -> bool} {st : stepfns K}.
  Context (HO : TotalOrd cmp) (HS : StepLaws cmp st) (HV : PartialEquiv veqb).

  Notation run := (im_run cmp veqb st).
  Notation entry := (rangei K * V)%type.
  Notation s0 e := (ri_start (fst e)).
  Notation e0 e := (ri_end (fst e)).
  Notation xexec1 := (imx_exec cmp veqb st).
  Notation xrexec := (rmx_exec (cmp_cut cmp st) veqb).
  Notation WFi := (@WFi K (cut K) V (cmp_cut cmp st) veqb Before After).
  Notation WF' := (@WF (cut K) V (cmp_cut cmp st) veqb).
  Notation Rm := (@Rm K (cut K) V (cmp_cut cmp st) Before After).
  Notation enc_op := (@enc_op K (cut K) V Before After).
  Notation encr := (@encr K (cut K) Before After).
  Notation ence := (@ence K (cut K) V Before After).
  Notation HC := (cuts cmp st HO HS).
  Notation HO' := (cut_order cmp st HO HS).

  Lemma crash_sim {A B} (R : A -> B -> Prop) (c : C (imap K V) A) (c' : C (rmap (cut K) V) B) m m' x :
    Rm m m' -> xres (cmp' := cmp_cut cmp st) (lo := Before) (hi := After) R (c m) (c' m') ->
    In x (crash_states c m) -> exists x', In x' (crash_states c' m') /\ Rm x x'.
  Proof.
    intros Hm [H _] [<-|Hx]; [exists m'; split; [left; reflexivity|exact Hm]|].
    apply (Forall2_In_l _ _ _ _ H) in Hx as (y & Hy & Hr). exists y. split; [right; exact Hy|exact Hr].
  Qed.
  Lemma iexec_crash o m x : fresh_op o = true -> WFi m -> In x (crash_states (xexec1 o) m) ->
    exists x', In x' (crash_states (xrexec (enc_op o)) (map ence m)) /\ Rm x x'.
  Proof.
    intros Hf HW Hx. destruct (WFi_sim HO' m HW) as [H1 H2].
    eapply crash_sim; [exact H1|apply (xexec_sim HC HO' HV); eassumption|exact Hx].
  Qed.
  Lemma iexec_crash_WF o m x : fresh_op o = true -> WFi m -> In x (crash_states (xexec1 o) m) -> WFi x.
  Proof.
    intros Hf HW Hx. destruct (iexec_crash o m x Hf HW Hx) as (x' & H1 & H2).
    destruct (WFi_sim HO' m HW) as [_ H3].
    eapply (Rm_WFi HO'); [exact H2|]. apply (exec_crash_WF HO' HV _ _ _ H3 H1).
  Qed.
  Lemma iexec_final_WF o m : fresh_op o = true -> WFi m -> WFi (snd (im_exec cmp veqb st o m)).
  Proof.
    intros Hf HW. destruct (WFi_sim HO' m HW) as [H1 H2].
    destruct (exec_sim HC HO' HV o m _ H1 H2 Hf) as [_ H3].
    eapply (Rm_WFi HO'); [exact H3|]. apply (exec_ok HO' HV _ _ H2).
  Qed.
  Lemma ixexec_WF m y : fresh_op (xop_of y) = true -> WFi m -> WFi (xexec xexec1 m y).
  Proof.
    intros Hf HW. assert (H : WFi (snd (snd (xexec1 (xop_of y) m)))).
    { rewrite e_iexec. apply iexec_final_WF; assumption. }
    destruct y as [o|o n]; cbn [xexec xop_of] in *; [exact H|].
    destruct (nth_in_or_default n (crash_states (xexec1 o) m) (snd (snd (xexec1 o m)))) as [Hi | ->];
      [|exact H]. apply (iexec_crash_WF o m _ Hf HW Hi).
  Qed.
  Lemma ixrun_WF xs : fresh_ops (map xop_of xs) -> WFi (imx_run cmp veqb st xs).
  Proof.
    unfold imx_run, fresh_ops.
    assert (H : forall m, forallb fresh_op (map xop_of xs) = true -> WFi m ->
      WFi (fold_left (xexec xexec1) xs m)).
    { induction xs as [|y xs IH]; intros m Hf HW; cbn; [exact HW|].
      cbn in Hf. apply andb_prop in Hf as [Hf1 Hf2]. apply IH; [exact Hf2|]. apply ixexec_WF; assumption. }
    intros Hf. apply H; [exact Hf|]. split; [intros e []|apply WF_nil].
  Qed.
  Lemma WFi_reachable m : WFi m -> exists ops, fresh_ops ops /\ m = run ops.
  Proof.
    intros HW. exists (map (fun e => OInsert (fst e) (snd e)) m). split.
    - unfold fresh_ops. apply forallb_forall. intros o Ho. apply in_map_iff in Ho as (e & <- & He).
      cbn. apply negb_true_iff. apply (proj1 HW e He).
    - symmetry. apply (iinsert_all_app HO HS m []). exact HW.
  Qed.
  Lemma ixrun_reachable xs : fresh_ops (map xop_of xs) ->
    exists ops, fresh_ops ops /\ imx_run cmp veqb st xs = run ops.
  Proof. intros H. apply WFi_reachable, ixrun_WF, H. Qed.
  Lemma ixrun_done ops : imx_run cmp veqb st (map XDone ops) = run ops.
  Proof.
    unfold imx_run, im_run, run_ops, im_new.
    assert (H : forall m, fold_left (xexec xexec1) (map XDone ops) m =
      fold_left (fun s o => snd (im_exec cmp veqb st o s)) ops m); [|apply H].
    induction ops as [|o ops IH]; intros m; cbn; [reflexivity|]. rewrite e_iexec. apply IH.
  Qed.

  Lemma ixrun_valid xs : fresh_ops (map xop_of xs) ->
    ascendingi cmp (im_iter (imx_run cmp veqb st xs)) /\
    (forall r v, In (r, v) (im_iter (imx_run cmp veqb st xs)) ->
       valid_rangei cmp r = true /\ ri_exhausted r = false) /\
    coalescedi cmp veqb (im_iter (imx_run cmp veqb st xs)).
  Proof.
    intros H. destruct (ixrun_reachable xs H) as (ops & Hf & ->).
    destruct (iiter_valid_ascending HO HS HV ops Hf). splits; auto.
    exact (iiter_coalesced HO HS HV ops Hf).
  Qed.

  (** part of a map, in inclusive terms *)
  Notation alive x e :=
    (exists y, In y x /\ eqb cmp (s0 y) (s0 e) = true /\ eqb cmp (e0 y) (e0 e) = true /\ snd y = snd e).
  Lemma part_incl P m x x' : WFi m -> Rm x x' ->
    part (cmp := cmp_cut cmp st) (veqb := veqb) P (map ence m) x' ->
    WFi x /\ (forall k, im_get cmp x k = im_get cmp m k \/ im_get cmp x k = Ret None) /\
    (forall e, In e m -> P (ence e) = false -> alive x e).
  Proof.
    intros HW Hr (P1 & P2 & P3). destruct (WFi_sim HO' m HW) as [H1 _].
    assert (HWx : WFi x) by (eapply (Rm_WFi HO'); [exact Hr|exact P1]).
    split; [exact HWx|]. split.
    - intros k. rewrite (get_iok HC HO' m k HW), (get_iok HC HO' x k HWx).
      rewrite (lki_sim HC HO' _ _ k H1), (lki_sim HC HO' _ _ k Hr). destruct (P2 (Before k)) as [-> | ->]; auto.
    - intros e He HP. specialize (P3 (ence e) (in_map ence m e He) HP).
      apply (Forall2_In_r _ _ _ _ Hr) in P3 as (y & Hy & [[[Y1 Y2] _] Y3]). exists y. split; [exact Hy|].
      cbn [ence encr fst snd r_start r_end] in Y1, Y2, Y3.
      rewrite (lo_eq HC), (hi_eq HC). unfold eqb. rewrite Y1, Y2. auto.
  Qed.

  (** an entry alive in every recorded state is there itself *)
  Lemma keeps_itself {A} (c : C (imap K V) A) m e :
    chained (bt_step (cmpi_start cmp)) c -> WFi m ->
    (forall x, In x (crash_states c m) -> WFi x /\ alive x e) -> In e m ->
    forall x, In x (crash_states c m) -> In e x.
  Proof.
    intros Hc HW Hl Hi. destruct (Hc m) as [Hc1 _].
    assert (HS' : forall x, WFi x -> StronglySorted (fun a b : entry => cmpi_start cmp (fst a) (fst b) = Lt) x).
    { intros x Hx. destruct (WFi_reachable x Hx) as (ops & Hf & ->).
      destruct (iiter_valid_ascending HO HS HV ops Hf) as [H1 H2].
      eapply SS_impl; [|exact H1]. intros [a av] [b bv] Ha Hb Hab. cbn in *.
      destruct (H2 a av Ha) as [Q _]. unfold valid_rangei in Q. unfold cmpi_start. cbn. ord. }
    apply (chain_keeps (cmpi_start cmp)); auto.
    - split; unfold cmpi_start; [intros a; ord|intros a b; apply (ord_dual _ HO)|].
      intros o a b d. apply (ord_trans _ HO).
    - intros x Hx. destruct (Hl x (or_intror Hx)) as [H1 (y & Y1 & Y2 & _ & Y3)]. split; [auto|].
      exists y. splits; auto. unfold eqb in Y2. unfold cmpi_start. destruct (cmp (s0 y) (s0 e)); congruence.
  Qed.

  (** entries an insertion of [r] with [v] has no business with *)
  Definition apart (r : rangei K) (v : V) (e : entry) : Prop :=
    (ltb cmp (e0 e) (ri_start r) = true /\
       (veqb (snd e) v = false \/ exists k, ltb cmp (e0 e) k = true /\ ltb cmp k (ri_start r) = true)) \/
    (ltb cmp (ri_end r) (s0 e) = true /\
       (veqb (snd e) v = false \/ exists k, ltb cmp (ri_end r) k = true /\ ltb cmp k (s0 e) = true)).
  Lemma apart_hit m r v e : WFi m -> In e m -> apart r v e ->
    hit (cmp := cmp_cut cmp st) (veqb := veqb) (encr r) v (ence e) = false.
  Proof.
    intros HW He Hd. pose proof (cut_order cmp st HO HS) as HO''.
    destruct (WFi_sim HO' m HW) as [_ S2].
    pose proof (proj2 S2 (ence e) (in_map ence m e He)) as Hv. cbn [ISim.ence ISim.encr fst snd r_start r_end] in Hv.
    unfold hit, touch. cbn [ISim.ence ISim.encr fst snd r_start r_end].
    assert (E1 : meets (cmp_cut cmp st) (encr r) (encr (fst e)) = false).
    { unfold meets. cbn [ISim.encr r_start r_end].
      destruct Hd as [[Hd _]|[Hd _]]; rewrite (lohi_le HC HO') in Hd; ord_by HO''. }
    rewrite E1. cbn [orb].
    destruct Hd as [[H1 [H2|(k & K1 & K2)]]|[H1 [H2|(k & K1 & K2)]]]; try (rewrite H2; apply andb_false_r).
    - rewrite (lohi_le HC HO') in K1; rewrite (lo_lt HC) in K2.
      apply andb_false_intro1. ord_by HO''.
    - rewrite (lohi_le HC HO') in K1; rewrite (lo_lt HC) in K2.
      apply andb_false_intro1. ord_by HO''.
  Qed.

  Lemma iinsert_states ops r v x : fresh_ops ops -> ri_exhausted r = false ->
    In x (crash_states (imx_insert cmp veqb st r v) (run ops)) ->
    x = run (ops ++ [OInsert r v]) \/
    (forall k, im_get cmp x k = im_get cmp (run ops) k \/ im_get cmp x k = Ret None) /\
    (forall e, In e (run ops) -> apart r v e -> alive x e).
  Proof.
    intros Hf Hfr Hx. pose proof (irun_WF HO HS HV ops Hf) as HW.
    assert (Hf1 : fresh_op (OInsert r v) = true) by (cbn; rewrite Hfr; reflexivity).
    destruct (WFi_sim HO' _ HW) as [S1 S2].
    (* the final state, or a state before it *)
    pose proof (goodL_insert HO' HV _ (encr r) v S2) as HL.
    destruct (xexec_sim HC HO' HV (OInsert r v) _ _ S1 S2 Hf1) as [T1 T2].
    cbn [imx_exec rmx_exec ISim.enc_op] in T1, T2.
    assert (HF : x = snd (snd (imx_insert cmp veqb st r v (run ops))) \/
      exists x', part (cmp := cmp_cut cmp st) (veqb := veqb)
                   (hit (cmp := cmp_cut cmp st) (veqb := veqb) (encr r) v)
                   (map ence (run ops)) x' /\ Rm x x').
    { destruct Hx as [<-|Hx].
      { right. exists (map ence (run ops)). split; [apply part_refl; exact S2|exact S1]. }
      pose proof (t_iinsert cmp veqb st r v (run ops)) as Hl.
      destruct HL as (T & HT & HF). rewrite Forall_forall in HF.
      destruct HT as [HT | [y HT]]; rewrite HT in T1.
      - right. apply (Forall2_In_l _ _ _ _ T1) in Hx as (x' & Hx' & Hr). exists x'. auto.
      - apply Forall2_app_inv_r in T1 as (t1 & t2 & U1 & U2 & U3).
        inversion U2 as [|y1 y2 l1 l2 Hy Hn]; subst. inversion Hn; subst. rewrite U3 in Hl, Hx.
        rewrite last_last in Hl. apply in_app_or in Hx as [Hx|[<-|[]]]; [right|left; exact Hl].
        apply (Forall2_In_l _ _ _ _ U1) in Hx as (x' & Hx' & Hr). exists x'. auto. }
    destruct HF as [HF|(x' & HP & Hr)].
    { left. rewrite HF, e_iinsert, run_isnoc. reflexivity. }
    right. destruct (part_incl _ _ _ _ HW Hr HP) as (_ & H1 & H2). split; [exact H1|].
    intros e He Hd. apply H2; [exact He|]. apply (apart_hit _ r v e HW He Hd).
  Qed.

  (** an insertion, interrupted or not, leaves such entries themselves in place *)
  Lemma iinsert_keeps ops r v e x : fresh_ops ops -> ri_exhausted r = false ->
    In e (run ops) -> apart r v e ->
    In x (crash_states (imx_insert cmp veqb st r v) (run ops)) -> In e x.
  Proof.
    intros Hf Hfr He Ha Hx. pose proof (irun_WF HO HS HV ops Hf) as HW.
    assert (Hf1 : fresh_op (OInsert r v) = true) by (cbn; rewrite Hfr; reflexivity).
    assert (Hself : alive (run ops) e) by (exists e; splits; auto; ord).
    apply (keeps_itself (imx_insert cmp veqb st r v) (run ops)); auto; [apply ch_iinsert|].
    intros y Hy. split; [apply (iexec_crash_WF (OInsert r v) (run ops) y Hf1 HW Hy)|].
    destruct (iinsert_states ops r v y Hf Hfr Hy) as [-> |[_ H]]; [|auto].
    destruct (valid_rangei cmp r) eqn:Ev.
    - apply (iinsert_frame HO HS HV ops r v e Hf Hfr Ev He).
      destruct Ha as [Ha|[H1 H2]]; [left; exact Ha|right]. split; [exact H1|].
      destruct H2 as [H2|H2]; [left|right; exact H2].
      destruct (veqb v (snd e)) eqn:E; [|reflexivity]. apply (veq_sym _ HV) in E. congruence.
    - rewrite run_isnoc. cbn [im_exec]. unfold im_insert, bind, assert_, valid_rangei in *.
      assert (E : leb cmp (ri_start r) (ri_end r) = false) by ord.
      rewrite E. exact Hself.
  Qed.
  Lemma iinsert_crash ops r v x : fresh_ops ops -> ri_exhausted r = false ->
    In x (crash_states (imx_insert cmp veqb st r v) (run ops)) ->
    (exists ops', fresh_ops ops' /\ x = run ops') /\
    (x = run (ops ++ [OInsert r v]) \/
     (forall k, im_get cmp x k = im_get cmp (run ops) k \/ im_get cmp x k = Ret None)) /\
    (forall e, In e (run ops) -> apart r v e -> In e x).
  Proof.
    intros Hf Hfr Hx. pose proof (irun_WF HO HS HV ops Hf) as HW.
    assert (Hf1 : fresh_op (OInsert r v) = true) by (cbn; rewrite Hfr; reflexivity).
    splits.
    - apply WFi_reachable. apply (iexec_crash_WF (OInsert r v) (run ops) x Hf1 HW Hx).
    - destruct (iinsert_states ops r v x Hf Hfr Hx) as [H|[H _]]; auto.
    - intros e He Ha. apply (iinsert_keeps ops r v e x); assumption.
  Qed.
  Lemma iinsert_frame_exact ops r v e : fresh_ops ops -> ri_exhausted r = false ->
    In e (im_iter (run ops)) -> apart r v e ->
    In e (im_iter (run (ops ++ [OInsert r v]))).
  Proof.
    intros Hf Hfr He Ha. unfold im_iter in *. rewrite run_isnoc.
    pose proof (irecord_faithful cmp veqb st (OInsert r v) (run ops)) as [_ H]. rewrite <- H.
    apply (iinsert_keeps ops r v e); auto.
    unfold crash_states. cbn [imx_exec].
    destruct (exists_last (l := run ops :: fst (imx_insert cmp veqb st r v (run ops)))) as (l & a & E);
      [discriminate|]. rewrite E, last_last. apply in_or_app. right; left; reflexivity.
  Qed.

  Lemma iremove_states ops r x : fresh_ops ops ->
    In x (crash_states (imx_remove cmp st r) (run ops)) ->
    WFi x /\
    (forall k, im_get cmp x k = im_get cmp (run ops) k \/ im_get cmp x k = Ret None) /\
    (forall e, In e (run ops) ->
       ltb cmp (e0 e) (ri_start r) = true \/ ltb cmp (ri_end r) (s0 e) = true -> alive x e).
  Proof.
    intros Hf Hx. pose proof (irun_WF HO HS HV ops Hf) as HW.
    destruct (iexec_crash (ORemove r) (run ops) x eq_refl HW Hx) as (x' & H1 & H2).
    destruct (WFi_sim HO' _ HW) as [_ S2]. cbn [rmx_exec ISim.enc_op] in H1.
    pose proof (remove_crash HO' (encr r) _ x' S2 H1) as HP.
    destruct (part_incl _ _ _ _ HW H2 HP) as (Q1 & Q2 & Q3).
    splits; [exact Q1|exact Q2|].
    intros e He Hd. apply Q3; [exact He|]. pose proof (cut_order cmp st HO HS) as HO''.
    unfold hits, meets. cbn [ISim.ence ISim.encr fst snd r_start r_end].
    destruct Hd as [Hd|Hd]; rewrite (lohi_le HC HO') in Hd; ord_by HO''.
  Qed.
  Lemma iremove_crash ops r x : fresh_ops ops ->
    In x (crash_states (imx_remove cmp st r) (run ops)) ->
    (exists ops', fresh_ops ops' /\ x = run ops') /\
    (forall k, im_get cmp x k = im_get cmp (run ops) k \/ im_get cmp x k = Ret None) /\
    (forall e, In e (run ops) ->
       ltb cmp (e0 e) (ri_start r) = true \/ ltb cmp (ri_end r) (s0 e) = true -> In e x).
  Proof.
    intros Hf Hx. pose proof (irun_WF HO HS HV ops Hf) as HW.
    destruct (iremove_states ops r x Hf Hx) as (H1 & H2 & _).
    splits; [apply WFi_reachable; exact H1|exact H2|]. intros e He Hd.
    apply (keeps_itself (imx_remove cmp st r) (run ops)); auto; [apply ch_iremove|].
    intros y Hy. destruct (iremove_states ops r y Hf Hy) as (Y1 & _ & Y3). auto.
  Qed.
  Lemma iremove_frame_exact ops r e : fresh_ops ops -> In e (im_iter (run ops)) ->
    ltb cmp (e0 e) (ri_start r) = true \/ ltb cmp (ri_end r) (s0 e) = true ->
    In e (im_iter (run (ops ++ [ORemove r]))).
  Proof.
    intros Hf He Hd. unfold im_iter in *. rewrite run_isnoc.
    pose proof (irecord_faithful cmp veqb st (ORemove r) (run ops)) as [_ H]. rewrite <- H.
    apply (iremove_crash ops r); auto.
    unfold crash_states. cbn [imx_exec].
    destruct (exists_last (l := run ops :: fst (imx_remove cmp st r (run ops)))) as (l & a & E);
      [discriminate|]. rewrite E, last_last. apply in_or_app. right; left; reflexivity.
  Qed.
End Props.
