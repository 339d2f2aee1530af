(** Relabelling the keys and values of a [RangeInclusiveMap] along an embedding
    of one key order in another: exhausted ranges included. *)
From Coq Require Import List Bool Lia Sorted.
From Verif Require Import Order Outcome BTree Ranges History Spec SpecExact MapModel IMapModel ListLemmas
  IExact IterFacts CloneFacts Cross.
Import ListNotations.

Section Relabel.
  Context {K K' V V' : Type} {cmp : K -> K -> comparison} {cmp' : K' -> K' -> comparison}.
  Context {st : stepfns K} {st' : stepfns K'}.
  Context {veqb : V -> V -> bool} {veqb' : V' -> V' -> bool} (f : K -> K') (g : V -> V').
  Context (HO' : TotalOrd cmp') (HS' : StepLaws cmp' st') (HV : PartialEquiv veqb) (HV' : PartialEquiv veqb').
  Context (Hf : forall a b, cmp' (f a) (f b) = cmp a b).
  Context (Hg : forall a b, veqb' (g a) (g b) = veqb a b).
  Context (Hadd : forall a b, ltb cmp a b = true ->
    exists s s', add_one st a = Some s /\ add_one st' (f a) = Some s' /\ cmp' s' (f s) = Eq).
  Context (Hsub : forall a b, ltb cmp b a = true ->
    exists s s', sub_one st a = Some s /\ sub_one st' (f a) = Some s' /\ cmp' s' (f s) = Eq).

  Lemma rl_order : TotalOrd cmp.
  Proof.
    split; intros; rewrite <- ?Hf in *.
    - apply (ord_refl _ HO').
    - apply (ord_dual _ HO').
    - eapply (ord_trans _ HO'); eassumption.
  Qed.
  Lemma f_ltb a b : ltb cmp' (f a) (f b) = ltb cmp a b.
  Proof. unfold ltb. rewrite Hf. reflexivity. Qed.
  Lemma f_leb a b : leb cmp' (f a) (f b) = leb cmp a b.
  Proof. unfold leb. rewrite Hf. reflexivity. Qed.

  Definition RK (a : K) (a' : K') : Prop := cmp' (f a) a' = Eq.
  Definition Rr (r : rangei K) (r' : rangei K') : Prop :=
    RK (ri_start r) (ri_start r') /\ RK (ri_end r) (ri_end r') /\ ri_exhausted r' = ri_exhausted r.
  Definition Re (e : rangei K * V) (e' : rangei K' * V') : Prop := Rr (fst e) (fst e') /\ snd e' = g (snd e).
  Definition Ro (o : op (rangei K) V) (o' : op (rangei K') V') : Prop :=
    match o, o' with
    | OInsert r v, OInsert r' v' => Re (r, v) (r', v')
    | ORemove r, ORemove r' => Rr r r'
    | OClear, OClear => True
    | OExtend l, OExtend l' => Forall2 Re l l'
    | _, _ => False
    end.
  Lemma RK_refl a : RK a (f a).
  Proof. apply (ord_refl _ HO'). Qed.
  Lemma r_cmp a b a' b' : RK a a' -> RK b b' -> cmp' a' b' = cmp a b.
  Proof.
    unfold RK. rewrite <- Hf. intros H1 H2. destruct (cmp' (f a) (f b)) eqn:E.
    - apply (cmp_Eq_sym HO') in H1. exact (ord_trans _ HO' Eq _ _ _ H1 (ord_trans _ HO' Eq _ _ _ E H2)).
    - apply (cmp_Eq_sym HO') in H1. eapply (cmp_Eq_Lt HO'); [exact H1|]. eapply (cmp_Lt_Eq HO'); eassumption.
    - rewrite (ord_dual _ HO'). rewrite (ord_dual _ HO') in E. apply (cmp_Eq_sym HO') in H2.
      destruct (cmp' (f b) (f a)) eqn:E'; try discriminate E.
      assert (X : cmp' b' a' = Lt); [|rewrite X; reflexivity].
      eapply (cmp_Eq_Lt HO'); [exact H2|]. eapply (cmp_Lt_Eq HO'); eassumption.
  Qed.
  Lemma r_ltb a b a' b' : RK a a' -> RK b b' -> ltb cmp' a' b' = ltb cmp a b.
  Proof. intros H1 H2. unfold ltb. rewrite (r_cmp a b a' b' H1 H2). reflexivity. Qed.
  Lemma r_leb a b a' b' : RK a a' -> RK b b' -> leb cmp' a' b' = leb cmp a b.
  Proof. intros H1 H2. unfold leb. rewrite (r_cmp a b a' b' H1 H2). reflexivity. Qed.
  Lemma r_eqb a b a' b' : RK a a' -> RK b b' -> eqb cmp' a' b' = eqb cmp a b.
  Proof. intros H1 H2. unfold eqb. rewrite (r_cmp a b a' b' H1 H2). reflexivity. Qed.
  Lemma r_add a b a' : RK a a' -> ltb cmp a b = true ->
    exists s s', add_one st a = Some s /\ add_one st' a' = Some s' /\ RK s s'.
  Proof.
    intros H E. destruct (Hadd a b E) as (s & s1 & E1 & E2 & E3).
    pose proof (r_ltb _ _ _ _ H (RK_refl b)) as El. rewrite E in El.
    destruct (step_succ _ _ HS' _ _ El) as (s' & F1 & F2 & _).
    assert (G1 : ltb cmp' (f a) (f b) = true) by (rewrite f_ltb; exact E).
    destruct (step_succ _ _ HS' _ _ G1) as (s2 & X1 & X2 & _). rewrite E2 in X1. injection X1 as <-.
    assert (A1 : ltb cmp' a' s1 = true) by (unfold RK in H; clear -H X2 HO'; ord).
    assert (A2 : ltb cmp' (f a) s' = true) by (unfold RK in H; clear -H F2 HO'; ord).
    destruct (step_succ _ _ HS' _ _ A1) as (x & Y1 & _ & Y2). rewrite F1 in Y1. injection Y1 as <-.
    destruct (step_succ _ _ HS' _ _ A2) as (x & Z1 & _ & Z2). rewrite E2 in Z1. injection Z1 as <-.
    exists s, s'. split; [exact E1|]. split; [exact F1|]. unfold RK. clear -E3 Y2 Z2 HO'. ord.
  Qed.
  Lemma r_sub a b a' : RK a a' -> ltb cmp b a = true ->
    exists s s', sub_one st a = Some s /\ sub_one st' a' = Some s' /\ RK s s'.
  Proof.
    intros H E. destruct (Hsub a b E) as (s & s1 & E1 & E2 & E3).
    pose proof (r_ltb _ _ _ _ (RK_refl b) H) as El. rewrite E in El.
    destruct (step_pred _ _ HS' _ _ El) as (s' & F1 & F2 & _).
    assert (G1 : ltb cmp' (f b) (f a) = true) by (rewrite f_ltb; exact E).
    destruct (step_pred _ _ HS' _ _ G1) as (s2 & X1 & X2 & _). rewrite E2 in X1. injection X1 as <-.
    assert (A1 : ltb cmp' s1 a' = true) by (unfold RK in H; clear -H X2 HO'; ord).
    assert (A2 : ltb cmp' s' (f a) = true) by (unfold RK in H; clear -H F2 HO'; ord).
    destruct (step_pred _ _ HS' _ _ A1) as (x & Y1 & _ & Y2). rewrite F1 in Y1. injection Y1 as <-.
    destruct (step_pred _ _ HS' _ _ A2) as (x & Z1 & _ & Z2). rewrite E2 in Z1. injection Z1 as <-.
    exists s, s'. split; [exact E1|]. split; [exact F1|]. unfold RK. clear -E3 Y2 Z2 HO'. ord.
  Qed.
  Lemma rl_steps : StepLaws cmp st.
  Proof.
    split; intros x y H.
    - destruct (Hadd _ _ H) as (s & s' & E1 & E2 & E3). exists s. split; [exact E1|].
      rewrite <- f_ltb in H. destruct (step_succ _ _ HS' _ _ H) as (s2 & X1 & X2 & X3).
      rewrite E2 in X1. injection X1 as <-. rewrite <- f_ltb, <- f_leb. clear -E3 X2 X3 HO'. split; ord.
    - destruct (Hsub _ _ H) as (s & s' & E1 & E2 & E3). exists s. split; [exact E1|].
      rewrite <- f_ltb in H. destruct (step_pred _ _ HS' _ _ H) as (s2 & X1 & X2 & X3).
      rewrite E2 in X1. injection X1 as <-. rewrite <- f_ltb, <- f_leb. clear -E3 X2 X3 HO'. split; ord.
  Qed.
  Notation HO := rl_order.
  Notation HS := rl_steps.

  Lemma r_valid r r' : Rr r r' -> valid_rangei cmp' r' = valid_rangei cmp r.
  Proof. intros (H1 & H2 & _). unfold valid_rangei. rewrite (r_ltb _ _ _ _ H2 H1). reflexivity. Qed.
  Lemma r_kmin a b a' b' : RK a a' -> RK b b' -> RK (kmin cmp a b) (kmin cmp' a' b').
  Proof. intros H1 H2. unfold kmin. rewrite (r_ltb _ _ _ _ H2 H1). destruct (ltb cmp b a); assumption. Qed.
  Lemma r_kmax a b a' b' : RK a a' -> RK b b' -> RK (kmax cmp a b) (kmax cmp' a' b').
  Proof. intros H1 H2. unfold kmax. rewrite (r_ltb _ _ _ _ H2 H1). destruct (ltb cmp b a); assumption. Qed.
  Lemma r_reaches a b a' b' : RK a a' -> RK b b' -> reaches cmp' st' a' b' = reaches cmp st a b.
  Proof.
    intros H1 H2. unfold reaches. rewrite (r_leb _ _ _ _ H2 H1). destruct (leb cmp b a) eqn:E; [reflexivity|].
    assert (El : ltb cmp a b = true) by (pose proof HO as Ho; clear -E Ho; ord).
    destruct (r_add a b a' H1 El) as (s & s' & E1 & E2 & E3). unfold key_after. rewrite E1, E2. cbn.
    exact (r_leb _ _ _ _ H2 E3).
  Qed.
  Lemma r_joins r r' v e e' : Rr r r' -> Re e e' -> joinsi cmp' veqb' st' r' (g v) e' = joinsi cmp veqb st r v e.
  Proof.
    intros (R1 & R2 & _) ((E1 & E2 & _) & E3). unfold joinsi.
    rewrite E3, Hg, (r_reaches _ _ _ _ E2 R1), (r_reaches _ _ _ _ R2 E1). reflexivity.
  Qed.
  Lemma r_before x x' e e' : RK x x' -> Re e e' ->
    Forall2 Re (part_beforei cmp st x e) (part_beforei cmp' st' x' e').
  Proof.
    intros Hx ((E1 & E2 & E3) & E4). unfold part_beforei.
    rewrite (r_ltb _ _ _ _ E1 Hx), (r_ltb _ _ _ _ E2 Hx).
    destruct (ltb cmp (ri_start (fst e)) x) eqn:El; [|constructor]. constructor; [|constructor].
    destruct (ltb cmp (ri_end (fst e)) x); [repeat split; assumption|].
    destruct (r_sub _ _ _ Hx El) as (s & s' & F1 & F2 & F3). unfold key_before. rewrite F1, F2.
    repeat split; cbn; assumption.
  Qed.
  Lemma r_after x x' e e' : RK x x' -> Re e e' ->
    Forall2 Re (part_afteri cmp st x e) (part_afteri cmp' st' x' e').
  Proof.
    intros Hx ((E1 & E2 & E3) & E4). unfold part_afteri.
    rewrite (r_ltb _ _ _ _ Hx E1), (r_ltb _ _ _ _ Hx E2).
    destruct (ltb cmp x (ri_end (fst e))) eqn:El; [|constructor]. constructor; [|constructor].
    destruct (ltb cmp x (ri_start (fst e))); [repeat split; assumption|].
    destruct (r_add _ _ _ Hx El) as (s & s' & F1 & F2 & F3). unfold key_after. rewrite F1, F2.
    repeat split; cbn; assumption.
  Qed.
  Lemma f2_flat {A B C D : Type} (R : A -> B -> Prop) (S : C -> D -> Prop) (h : A -> list C) (h' : B -> list D) l l' :
    (forall a b, R a b -> Forall2 S (h a) (h' b)) -> Forall2 R l l' -> Forall2 S (flat_map h l) (flat_map h' l').
  Proof. intros H. induction 1; cbn; [constructor|]. apply Forall2_app; auto. Qed.
  Lemma r_widened r r' l l' : Rr r r' -> Forall2 Re l l' -> Rr (widenedi cmp r l) (widenedi cmp' r' l').
  Proof.
    intros (R1 & R2 & R3) H. unfold widenedi. split; [|split]; cbn.
    - destruct H as [|e e' l l' He H]; [exact R1|]. apply r_kmin; [exact R1|]. apply He.
    - destruct (f2_rev _ _ H) as [|e e' t t' He Ht]; [exact R2|]. apply r_kmax; [exact R2|]. apply He.
    - destruct H; [exact R3|reflexivity].
  Qed.
  Lemma r_put r v r' v' l l' : Re (r, v) (r', v') -> Forall2 Re l l' ->
    Forall2 Re (puti_entries cmp veqb st r v l) (puti_entries cmp' veqb' st' r' v' l').
  Proof.
    intros [HR Hv] H. cbn in HR, Hv. subst v'. unfold puti_entries.
    assert (H1 : Forall2 Re (filter (joinsi cmp veqb st r v) l) (filter (joinsi cmp' veqb' st' r' (g v)) l')).
    { eapply f2_filter; [|exact H]. intros a b Hab. exact (r_joins r r' v a b HR Hab). }
    assert (H2 : Forall2 Re (filter (fun e => negb (joinsi cmp veqb st r v e)) l)
                            (filter (fun e => negb (joinsi cmp' veqb' st' r' (g v) e)) l')).
    { eapply f2_filter; [|exact H]. intros a b Hab. cbn. rewrite (r_joins r r' v a b HR Hab). reflexivity. }
    apply Forall2_app; [|constructor].
    - eapply f2_flat; [|exact H2]. intros a b Hab. apply r_before; [apply HR|exact Hab].
    - split; [|reflexivity]. cbn. apply r_widened; assumption.
    - eapply f2_flat; [|exact H2]. intros a b Hab. apply r_after; [apply HR|exact Hab].
  Qed.
  Lemma r_del r r' l l' : Rr r r' -> Forall2 Re l l' ->
    Forall2 Re (deli_entries cmp st r l) (deli_entries cmp' st' r' l').
  Proof.
    intros HR H. unfold deli_entries. apply Forall2_app; (eapply f2_flat; [|exact H]); intros a b Hab.
    - apply r_before; [apply HR|exact Hab].
    - apply r_after; [apply HR|exact Hab].
  Qed.
  Notation run := (im_run cmp veqb st).
  Notation run' := (im_run cmp' veqb' st').
  Lemma r_entries_op o o' l l' : Ro o o' -> Forall2 Re l l' ->
    Forall2 Re (entries_op (valid_rangei cmp) (puti_entries cmp veqb st) (deli_entries cmp st) l o)
      (entries_op (valid_rangei cmp') (puti_entries cmp' veqb' st') (deli_entries cmp' st') l' o').
  Proof.
    destruct o as [r v|r| |ents], o' as [r' v'|r'| |ents']; intros Hoo H; try contradiction Hoo; cbn in *.
    - rewrite (r_valid r r' (proj1 Hoo)). destruct (valid_rangei cmp r); [apply r_put|]; assumption.
    - rewrite (r_valid r r' Hoo). destruct (valid_rangei cmp r); [apply r_del|]; assumption.
    - constructor.
    - revert l l' H. induction Hoo as [|[r v] [r' v'] t t' He Ht IH]; intros l l' H; [exact H|].
      cbn. rewrite (r_valid r r' (proj1 He)). destruct (valid_rangei cmp r); [|exact H].
      apply IH, r_put; assumption.
  Qed.
  Lemma rl_run_from ops ops' : Forall2 Ro ops ops' -> Forall2 Re (run ops) (run' ops').
  Proof.
    intros H. rewrite (exact_irun HO HS HV), (exact_irun HO' HS' HV'). unfold entries_run.
    assert (H0 : Forall2 Re (@nil (rangei K * V)) (@nil (rangei K' * V'))) by constructor. revert H0.
    generalize (@nil (rangei K' * V')), (@nil (rangei K * V)).
    induction H as [|o o' ops ops' Ho _ IH]; intros l' l Hl; cbn; [exact Hl|]. apply IH, r_entries_op; assumption.
  Qed.
  Lemma Ro_fopi ops : Forall2 Ro ops (map (fopi f g) ops).
  Proof.
    induction ops as [|o ops IH]; cbn; constructor; [|exact IH].
    destruct o as [r v|r| |l]; cbn; try (repeat split; apply RK_refl).
    induction l as [|[r v] l IHl]; cbn; constructor; [repeat split; apply RK_refl|exact IHl].
  Qed.
  Lemma rl_run ops : Forall2 Re (run ops) (run' (map (fopi f g) ops)).
  Proof. apply rl_run_from, Ro_fopi. Qed.

  (** ** Outcomes of the calls *)
  Definition call_ok {K0 V0} (valid : rangei K0 -> bool) (o : op (rangei K0) V0) : bool :=
    match o with
    | OInsert r _ | ORemove r => valid r
    | OClear => true
    | OExtend l => forallb (fun e => valid (fst e)) l
    end.
  Lemma r_call_ok o o' : Ro o o' -> call_ok (valid_rangei cmp') o' = call_ok (valid_rangei cmp) o.
  Proof.
    destruct o as [r v|r| |l], o' as [r' v'|r'| |l']; intros H; try contradiction H; cbn in *.
    - apply r_valid, H.
    - apply r_valid, H.
    - reflexivity.
    - induction H as [|e e' l l' He _ IH]; cbn; [reflexivity|]. rewrite IH, (r_valid _ _ (proj1 He)). reflexivity.
  Qed.
End Relabel.

Section Outcomes.
  Context {K V : Type} {cmp : K -> K -> comparison} {st : stepfns K} {veqb : V -> V -> bool}.
  Context (HO : TotalOrd cmp) (HS : StepLaws cmp st) (HV : PartialEquiv veqb).
  Notation run := (im_run cmp veqb st).
  Lemma insert_refused r v m : valid_rangei cmp r = false -> im_insert cmp veqb st r v m = (Panicked PAssert, m).
  Proof. rewrite (valid_le HO). intros E. unfold im_insert, bind at 1, assert_. rewrite E. reflexivity. Qed.
  Lemma exec_outcome o : forall ops, fst (im_exec cmp veqb st o (run ops)) =
    if call_ok (valid_rangei cmp) o then Ret tt else Panicked PAssert.
  Proof.
    destruct o as [r v|r| |l]; intros ops; cbn [im_exec call_ok].
    - destruct (valid_rangei cmp r) eqn:E; [rewrite (exact_iinsert HO HS HV) by exact E; reflexivity|].
      rewrite insert_refused by exact E. reflexivity.
    - destruct (valid_rangei cmp r) eqn:E; [rewrite (exact_iremove HO HS HV) by exact E; reflexivity|].
      unfold im_remove, bind at 1, assert_. rewrite (valid_le HO) in E. rewrite E. reflexivity.
    - reflexivity.
    - unfold im_extend. revert ops. induction l as [|[r v] l IH]; intros ops; cbn [for_each forallb fst snd]; [reflexivity|].
      unfold bind at 1. destruct (valid_rangei cmp r) eqn:E.
      + specialize (IH (ops ++ [OInsert r v])). rewrite run_snoc in IH. cbn [im_exec] in IH.
        rewrite (exact_iinsert HO HS HV) in IH |- * by exact E. exact IH.
      + rewrite insert_refused by exact E. reflexivity.
  Qed.
End Outcomes.

Section Queries.
  Context {K K' V V' : Type} {cmp : K -> K -> comparison} {cmp' : K' -> K' -> comparison}.
  Context {st : stepfns K} {st' : stepfns K'}.
  Context {veqb : V -> V -> bool} {veqb' : V' -> V' -> bool} (f : K -> K') (g : V -> V').
  Context (HO' : TotalOrd cmp') (HS' : StepLaws cmp' st') (HV : PartialEquiv veqb) (HV' : PartialEquiv veqb').
  Context (Hf : forall a b, cmp' (f a) (f b) = cmp a b).
  Context (Hg : forall a b, veqb' (g a) (g b) = veqb a b).
  Context (Hadd : forall a b, ltb cmp a b = true ->
    exists s s', add_one st a = Some s /\ add_one st' (f a) = Some s' /\ cmp' s' (f s) = Eq).
  Context (Hsub : forall a b, ltb cmp b a = true ->
    exists s s', sub_one st a = Some s /\ sub_one st' (f a) = Some s' /\ cmp' s' (f s) = Eq).
  Notation run := (im_run cmp veqb st).
  Notation run' := (im_run cmp' veqb' st').
  Notation RK := (RK (cmp' := cmp') f).
  Notation Rr := (Rr (cmp' := cmp') f).
  Notation Re := (Re (cmp' := cmp') f g).
  Notation HO := (rl_order f HO' Hf).
  Notation HS := (rl_steps f HO' HS' Hf Hadd Hsub).
  Notation rlrun := (rl_run f g HO' HS' HV HV' Hf Hg Hadd Hsub).

  Lemma rl_outcome ops o :
    fst (im_exec cmp' veqb' st' (fopi f g o) (run' (map (fopi f g) ops))) = fst (im_exec cmp veqb st o (run ops)).
  Proof.
    rewrite (exec_outcome HO' HS' HV'), (exec_outcome HO HS HV).
    pose proof (Ro_fopi f g HO' [o]) as H. inversion H as [|? ? ? ? Ho _]; subst.
    rewrite (r_call_ok f g HO' Hf _ _ Ho). reflexivity.
  Qed.
  Lemma r_contains r r' k k' : Rr r r' -> RK k k' -> ri_contains cmp' r' k' = ri_contains cmp r k.
  Proof.
    intros (H1 & H2 & H3) Hk. unfold ri_contains. rewrite H3.
    rewrite (r_leb f HO' Hf _ _ _ _ H1 Hk), (r_leb f HO' Hf _ _ _ _ Hk H2), ?(r_ltb f HO' Hf _ _ _ _ Hk H2). reflexivity.
  Qed.
  Lemma r_get_kv m m' k k' : Forall2 Re m m' -> RK k k' ->
    orel (optrel Re) (im_get_key_value cmp m k) (im_get_key_value cmp' m' k').
  Proof.
    intros Hm Hk. unfold im_get_key_value, bt_range. cbn. constructor.
    assert (Hl : Forall2 Re (take_while (fun e => negb (above (cmpi_start cmp) (Included (incl k k)) (fst e)))
                        (drop_while (fun e => below (cmpi_start cmp) Unbounded (fst e)) m))
                     (take_while (fun e => negb (above (cmpi_start cmp') (Included (incl k' k')) (fst e)))
                        (drop_while (fun e => below (cmpi_start cmp') Unbounded (fst e)) m'))).
    { eapply f2_take; [|eapply f2_drop; [|exact Hm]]; intros a b ((E1 & _) & _); cbn; [|reflexivity].
      unfold cmpi_start. cbn. rewrite (r_cmp f HO' Hf _ _ _ _ E1 Hk). reflexivity. }
    pose proof (f2_last _ _ Hl) as Hn. cbn in Hn. revert Hn.
    match goal with |- optrel _ ?a ?b -> _ => generalize b, a end.
    intros [e'|] [e|] Hn; try contradiction Hn; [|exact I].
    rewrite (r_contains _ _ _ _ (proj1 Hn) Hk). destruct (ri_contains cmp (fst e) k); [exact Hn|exact I].
  Qed.
  Lemma rl_get_kv ops k :
    orel (optrel Re) (im_get_key_value cmp (run ops) k) (im_get_key_value cmp' (run' (map (fopi f g) ops)) (f k)).
  Proof. apply r_get_kv; [apply rlrun|apply (RK_refl f HO')]. Qed.
  Lemma rl_get ops k :
    im_get cmp' (run' (map (fopi f g) ops)) (f k) = omap (option_map g) (im_get cmp (run ops) k).
  Proof.
    unfold im_get. pose proof (rl_get_kv ops k) as H. destruct H as [a b H|p|]; cbn; try reflexivity.
    destruct a as [e|], b as [e'|]; try contradiction H; cbn; [|reflexivity]. rewrite (proj2 H). reflexivity.
  Qed.
  (** ** overlapping *)
  Definition Rov (o : overlappingi K V) (o' : overlappingi K' V') : Prop :=
    Rr (ovi_query o) (ovi_query o') /\ Forall2 Re (ovi_iter o) (ovi_iter o').
  Lemma r_overlapping m m' q q' : Forall2 Re m m' -> Rr q q' ->
    exists o o', im_overlapping cmp m q = Ret o /\ im_overlapping cmp' m' q' = Ret o' /\ Rov o o'.
  Proof.
    intros Hm Hq. unfold im_overlapping, bt_range. cbn. eexists _, _. split; [reflexivity|]. split; [reflexivity|].
    split; cbn; [exact Hq|]. eapply f2_take; [|eapply f2_drop; [|exact Hm]]; [reflexivity|].
    intros a b ((_ & E2 & _) & _). cbn. unfold cmpi_end. cbn.
    rewrite (r_cmp f HO' Hf _ _ _ _ E2 (proj1 Hq)). reflexivity.
  Qed.
  Lemma r_ov_next o o' : Rov o o' ->
    optrel Re (fst (ovi_next cmp o)) (fst (ovi_next cmp' o')) /\ Rov (snd (ovi_next cmp o)) (snd (ovi_next cmp' o')).
  Proof.
    intros [Hq Hl]. unfold ovi_next. destruct Hl as [|e e' l l' He Hl]; cbn.
    - split; [exact I|]. split; [exact Hq|constructor].
    - rewrite (r_leb f HO' Hf _ _ _ _ (proj1 (proj1 He)) (proj1 (proj2 Hq))).
      destruct (leb cmp _ _); (split; [|split; cbn; assumption]); [exact He|exact I].
  Qed.
  Lemma r_ov_back q q' : Rr q q' -> forall l l', Forall2 Re l l' ->
    optrel Re (fst (ovi_back_loop cmp q l)) (fst (ovi_back_loop cmp' q' l')) /\
    Forall2 Re (snd (ovi_back_loop cmp q l)) (snd (ovi_back_loop cmp' q' l')).
  Proof.
    intros Hq l l' H. induction H as [|e e' l l' He Hl IH]; cbn; [split; [exact I|constructor]|].
    rewrite (r_leb f HO' Hf _ _ _ _ (proj1 (proj1 He)) (proj1 (proj2 Hq))).
    destruct (leb cmp _ _); [split; cbn; assumption|exact IH].
  Qed.
  Lemma r_ov_next_back o o' : Rov o o' ->
    optrel Re (fst (ovi_next_back cmp o)) (fst (ovi_next_back cmp' o')) /\
    Rov (snd (ovi_next_back cmp o)) (snd (ovi_next_back cmp' o')).
  Proof.
    intros [Hq Hl]. unfold ovi_next_back. destruct (r_ov_back _ _ Hq _ _ (f2_rev _ _ Hl)) as [H1 H2].
    destruct (ovi_back_loop cmp (ovi_query o) (rev (ovi_iter o))) as [x t].
    destruct (ovi_back_loop cmp' (ovi_query o') (rev (ovi_iter o'))) as [x' t']. cbn in *.
    split; [exact H1|]. split; cbn; [exact Hq|]. apply f2_rev, H2.
  Qed.
  Lemma r_ov_sched sched : forall o o', Rov o o' ->
    Forall2 (optrel Re) (map fst (sched_trace (both (ovi_next cmp) (ovi_next_back cmp)) (fun _ => tt) sched o))
      (map fst (sched_trace (both (ovi_next cmp') (ovi_next_back cmp')) (fun _ => tt) sched o')).
  Proof.
    induction sched as [|d sched IH]; intros o o' H; [constructor|]. cbn [sched_trace].
    destruct d; cbn [both].
    - destruct (r_ov_next o o' H) as [H1 H2].
      destruct (ovi_next cmp o) as [x t], (ovi_next cmp' o') as [x' t']. cbn in *. constructor; [exact H1|exact (IH _ _ H2)].
    - destruct (r_ov_next_back o o' H) as [H1 H2].
      destruct (ovi_next_back cmp o) as [x t], (ovi_next_back cmp' o') as [x' t']. cbn in *. constructor; [exact H1|exact (IH _ _ H2)].
  Qed.
  Lemma Rr_fri q : Rr q (fri f q).
  Proof. repeat split; apply (RK_refl f HO'). Qed.
  Lemma rl_overlapping ops q : exists o o', im_overlapping cmp (run ops) q = Ret o /\
    im_overlapping cmp' (run' (map (fopi f g) ops)) (fri f q) = Ret o' /\
    forall sched, Forall2 (optrel Re)
      (map fst (sched_trace (both (ovi_next cmp) (ovi_next_back cmp)) (fun _ => tt) sched o))
      (map fst (sched_trace (both (ovi_next cmp') (ovi_next_back cmp')) (fun _ => tt) sched o')).
  Proof.
    destruct (r_overlapping _ _ q (fri f q) (rlrun ops) (Rr_fri q)) as (o & o' & H1 & H2 & H3).
    exists o, o'. split; [exact H1|]. split; [exact H2|]. intros sched. apply r_ov_sched, H3.
  Qed.
  Lemma rl_overlaps ops q :
    im_overlaps cmp' (run' (map (fopi f g) ops)) (fri f q) = im_overlaps cmp (run ops) q.
  Proof.
    unfold im_overlaps. destruct (r_overlapping _ _ q (fri f q) (rlrun ops) (Rr_fri q)) as (o & o' & -> & -> & H3).
    cbn. destruct (r_ov_next o o' H3) as [H _].
    destruct (fst (ovi_next cmp o)), (fst (ovi_next cmp' o')); try contradiction H; reflexivity.
  Qed.
  (** ** gaps: the entries left are ascending, and beyond the candidate if that
      needs a step *)
  Notation beyond c := (Forall (fun e : rangei K * V => ltb cmp c (ri_start (fst e)) = true)).
  Definition gfine (gp : gapsi K V) : Prop :=
    asc (cmp := cmp) (gpi_iter gp) /\ (gpi_needs_plus_one gp = true -> beyond (gpi_candidate_start gp) (gpi_iter gp)).
  Definition Rgp (gp : gapsi K V) (gp' : gapsi K' V') : Prop :=
    gpi_needs_plus_one gp' = gpi_needs_plus_one gp /\ RK (gpi_candidate_start gp) (gpi_candidate_start gp') /\
    RK (gpi_query_end gp) (gpi_query_end gp') /\ Forall2 Re (gpi_iter gp) (gpi_iter gp').
  Lemma r_incl a b a' b' : RK a a' -> RK b b' -> Rr (incl a b) (incl a' b').
  Proof. intros H1 H2. repeat split; assumption. Qed.
  Lemma r_gp_loop qe qe' : RK qe qe' -> forall l l', Forall2 Re l l' -> asc (cmp := cmp) l ->
    forall needs cand cand', RK cand cand' -> (needs = true -> beyond cand l) ->
    exists x x' needs1 cand1 cand1' l1 l1',
      gpi_loop cmp st needs cand qe l = (Ret x, needs1, cand1, l1) /\
      gpi_loop cmp' st' needs cand' qe' l' = (Ret x', needs1, cand1', l1') /\
      optrel Rr x x' /\ RK cand1 cand1' /\ Forall2 Re l1 l1' /\ asc (cmp := cmp) l1 /\
      (needs1 = true -> beyond cand1 l1) /\ (x = None -> beyond qe l1).
  Proof.
    intros Hq l l' H. induction H as [|[o v] [o' v'] l l' [(Ho1 & Ho2 & _) _] Hl IH];
      intros Ha needs cand cand' Hc Hn.
    - cbn. do 7 eexists. split; [reflexivity|]. split; [reflexivity|].
      splits; try exact I; try assumption; try (intros _); constructor.
    - cbn in Ho1, Ho2. destruct Ha as (Hval & Hasc1 & Hasc2). cbn [gpi_loop].
      rewrite (r_ltb f HO' Hf _ _ _ _ Hq Ho1). destruct (ltb cmp qe (ri_start o)) eqn:Eq.
      { do 7 eexists. split; [reflexivity|]. split; [reflexivity|]. splits; try exact I; try assumption.
        - intros E. specialize (Hn E). inversion Hn; assumption.
        - intros _. pose proof HO as Ho. eapply Forall_impl; [|exact Hasc1]. cbn. intros e He. clear -He Eq Hval Ho. ord. }
      assert (Hcur : exists c c', (if needs then step_o (add_one st cand) else Ret cand) = Ret c /\
          (if needs then step_o (add_one st' cand') else Ret cand') = Ret c' /\ RK c c').
      { destruct needs; [|exists cand, cand'; auto]. specialize (Hn eq_refl). inversion Hn as [|? ? Hlt _]; subst.
        destruct (r_add f HO' HS' Hf Hadd _ _ _ Hc Hlt) as (s & s' & -> & -> & Hs). exists s, s'. auto. }
      destruct Hcur as (c & c' & -> & -> & Hcc).
      rewrite (r_ltb f HO' Hf _ _ _ _ Hcc Ho1). destruct (ltb cmp c (ri_start o)) eqn:El.
      + destruct (r_sub f HO' HS' Hf Hsub _ _ _ Ho1 El) as (s & s' & -> & -> & Hs). cbn.
        do 7 eexists. split; [reflexivity|]. split; [reflexivity|].
        splits; [apply r_incl; assumption|exact Ho2|exact Hl|exact Hasc2|intros _; exact Hasc1|discriminate].
      + apply (IH Hasc2 true _ _ Ho2). intros _. exact Hasc1.
  Qed.
  Lemma r_gp_next gp gp' : Rgp gp gp' -> gfine gp ->
    exists x x', fst (gpi_next cmp st gp) = Ret x /\ fst (gpi_next cmp' st' gp') = Ret x' /\ optrel Rr x x' /\
      Rgp (snd (gpi_next cmp st gp)) (snd (gpi_next cmp' st' gp')) /\ gfine (snd (gpi_next cmp st gp)).
  Proof.
    destruct gp as [needs cand qe l], gp' as [needs' cand' qe' l'].
    intros (En & Hc & Hq & Hl) [Ha Hn]. cbn in En, Hc, Hq, Hl, Ha, Hn. subst needs'.
    destruct (r_gp_loop _ _ Hq _ _ Hl Ha needs cand cand' Hc Hn)
      as (x & x' & n1 & c1 & c1' & l1 & l1' & E1 & E2 & Hx & Hc1 & Hl1 & Ha1 & Hn1 & HN).
    unfold gpi_next. cbn [gpi_query_end gpi_needs_plus_one gpi_candidate_start gpi_iter]. rewrite E1, E2.
    destruct x as [gap|], x' as [gap'|]; try contradiction Hx.
    { do 2 eexists. split; [reflexivity|]. split; [reflexivity|]. split; [exact Hx|]. split; [repeat split; assumption|].
      split; assumption. }
    specialize (HN eq_refl).
    assert (HG : gfine (mkGapsI true qe qe l1)) by (split; [exact Ha1|intros _; exact HN]).
    assert (HR : Rgp (mkGapsI true qe qe l1) (mkGapsI true qe' qe' l1')) by (repeat split; assumption).
    destruct n1.
    - rewrite (r_ltb f HO' Hf _ _ _ _ Hc1 Hq). destruct (ltb cmp c1 qe) eqn:El.
      + destruct (r_add f HO' HS' Hf Hadd _ _ _ Hc1 El) as (s & s' & -> & -> & Hs). cbn.
        do 2 eexists. split; [reflexivity|]. split; [reflexivity|]. split; [apply r_incl; assumption|auto].
      + do 2 eexists. split; [reflexivity|]. split; [reflexivity|]. split; [exact I|auto].
    - rewrite (r_leb f HO' Hf _ _ _ _ Hc1 Hq). destruct (leb cmp c1 qe) eqn:El.
      + do 2 eexists. split; [reflexivity|]. split; [reflexivity|]. split; [apply r_incl; assumption|auto].
      + do 2 eexists. split; [reflexivity|]. split; [reflexivity|]. split; [exact I|auto].
  Qed.
  Lemma r_gp_nexts n : forall gp gp', Rgp gp gp' -> gfine gp ->
    exists xs xs', nexts_m (gpi_next cmp st) n gp = map Ret xs /\ nexts_m (gpi_next cmp' st') n gp' = map Ret xs' /\
      Forall2 (optrel Rr) xs xs'.
  Proof.
    induction n as [|n IH]; intros gp gp' H Hg0; [exists [], []; repeat split; constructor|]. cbn [nexts_m].
    destruct (r_gp_next gp gp' H Hg0) as (x & x' & H1 & H2 & H3 & H4 & H5).
    destruct (IH _ _ H4 H5) as (xs & xs' & E1 & E2 & HF).
    destruct (gpi_next cmp st gp) as [y t], (gpi_next cmp' st' gp') as [y' t']. cbn in *. subst y y'.
    rewrite E1, E2. exists (x :: xs), (x' :: xs'). split; [reflexivity|]. split; [reflexivity|]. constructor; assumption.
  Qed.
  Lemma asc_run ops : asc (cmp := cmp) (run ops).
  Proof.
    pose proof (run_IWF HO HS HV ops) as H. revert H. generalize (run ops) as m. pose proof HO as Ho.
    induction m as [|[r v] m IH]; intros H; [exact I|]. apply IWF_cons in H as (H1 & H2 & H3).
    split; [exact H1|]. split; [|exact (IH H2)]. apply Forall_forall. intros e He. apply H3 in He. apply He.
  Qed.
  Lemma asc_drop p (m : list (rangei K * V)) : asc (cmp := cmp) m -> asc (cmp := cmp) (drop_while p m).
  Proof.
    induction m as [|[r v] m IH]; intros H; [exact I|]. cbn. destruct (p (r, v)); [apply IH, H|exact H].
  Qed.
  Lemma asc_take p (m : list (rangei K * V)) : asc (cmp := cmp) m -> asc (cmp := cmp) (take_while p m).
  Proof.
    induction m as [|[r v] m IH]; intros H; [exact I|]. cbn. destruct (p (r, v)); [|exact I].
    destruct H as (H1 & H2 & H3). split; [exact H1|]. split; [|apply IH, H3].
    clear -H2. induction H2 as [|e l He Hl IHl]; cbn; [constructor|]. destruct (p e); constructor; assumption.
  Qed.
  Lemma rl_gaps ops outer : exists gp gp', im_gaps cmp (run ops) outer = Ret gp /\
    im_gaps cmp' (run' (map (fopi f g) ops)) (fri f outer) = Ret gp' /\
    forall n, exists xs xs', nexts_m (gpi_next cmp st) n gp = map Ret xs /\
      nexts_m (gpi_next cmp' st') n gp' = map Ret xs' /\ Forall2 (optrel Rr) xs xs'.
  Proof.
    destruct (r_overlapping _ _ outer (fri f outer) (rlrun ops) (Rr_fri outer)) as (o & o' & H1 & H2 & Hq & Hl).
    assert (Ha : asc (cmp := cmp) (ovi_iter o)).
    { unfold im_overlapping, bt_range in H1. cbn in H1. injection H1 as <-. apply asc_take, asc_drop, asc_run. }
    unfold im_gaps. rewrite H1, H2. cbn. do 2 eexists. split; [reflexivity|]. split; [reflexivity|].
    intros n. apply r_gp_nexts.
    - repeat split; cbn; try apply (RK_refl f HO'). exact Hl.
    - split; [exact Ha|discriminate].
  Qed.
  Lemma rl_eq a b : im_eqb cmp' veqb' (run' (map (fopi f g) a)) (run' (map (fopi f g) b)) =
    im_eqb cmp veqb (run a) (run b).
  Proof.
    unfold im_eqb, im_iter. pose proof (rlrun a) as Ha. pose proof (rlrun b) as Hb. revert Ha Hb.
    generalize (run' (map (fopi f g) a)), (run' (map (fopi f g) b)), (run a), (run b).
    intros ma' mb' ma mb Ha. revert mb mb'. induction Ha as [|x x' l l' Hx _ IH]; intros mb mb' Hb.
    - destruct Hb; reflexivity.
    - destruct Hb as [|y y' t t' Hy Ht]; [reflexivity|]. cbn. rewrite (IH _ _ Ht).
      destruct Hx as ((X1 & X2 & X3) & X4), Hy as ((Y1 & Y2 & Y3) & Y4). unfold ri_eqb.
      rewrite X3, X4, Y3, Y4, Hg, (r_eqb f HO' Hf _ _ _ _ X1 Y1), (r_eqb f HO' Hf _ _ _ _ X2 Y2). reflexivity.
  Qed.
End Queries.
