(** CloneFacts.v for clones that are indistinguishable from their originals,
    and for clones that are identical to them. *)
From Coq Require Import List Bool Sorting.Sorted Lia.
From Verif Require Import Order Outcome BTree Ranges History Spec MapModel IMapModel CloneModel
  ListLemmas MapProofs MapFacts MapIter MapProps ISim Cuts IFacts IMapProps Exhausted ExhaustedAny CloneFacts.
Import ListNotations.

Lemma f2_impl {A B} (R Q : A -> B -> Prop) l l' :
  (forall a b, R a b -> Q a b) -> Forall2 R l l' -> Forall2 Q l l'.
Proof. intros H. induction 1; constructor; auto. Qed.
Lemma f2_map_l {A B C} (R : A -> B -> Prop) (f : C -> A) l l' :
  Forall2 (fun c b => R (f c) b) l l' <-> Forall2 R (map f l) l'.
Proof.
  revert l'. induction l as [|a l IH]; intros [|b l']; split; intros H; try inversion H; subst; cbn; constructor.
  - assumption.
  - apply (proj1 (IH l')). assumption.
  - assumption.
  - apply (proj2 (IH l')). assumption.
Qed.
Lemma f2_map_r {A B C} (R : A -> B -> Prop) (f : C -> B) l l' :
  Forall2 (fun a c => R a (f c)) l l' <-> Forall2 R l (map f l').
Proof.
  revert l'. induction l as [|a l IH]; intros [|b l']; split; intros H; try inversion H; subst; cbn; constructor.
  - assumption.
  - apply (proj1 (IH l')). assumption.
  - assumption.
  - apply (proj2 (IH l')). assumption.
Qed.

Lemma orel_unit (x y : outcome unit) : orel (fun _ _ => True) x y -> y = x.
Proof. intros [[] [] _|p|]; reflexivity. Qed.

Section Props.
  Context {K V : Type} {cmp : K -> K -> comparison} {veqb : V -> V -> bool}.
  Context (HO : TotalOrd cmp) (HV : PartialEquiv veqb).
  Context {kcl : nat -> K -> K} {vcl : nat -> V -> V}.
  Context (CK : forall n k, alike_key cmp k (kcl n k)) (CV : forall n v, alike veqb v (vcl n v)).

  Notation RK := (alike_key cmp).
  Notation RV := (alike veqb).

  Lemma a_sym a b : RK a b -> RK b a.
  Proof. apply (cmp_Eq_sym HO). Qed.
  Lemma a_trans a b c : RK a b -> RK b c -> RK a c.
  Proof. apply (ord_trans _ HO). Qed.
  Lemma a_cmp a b a' b' : RK a a' -> RK b b' -> cmp a' b' = cmp a b.
  Proof.
    unfold alike_key. intros H1 H2.
    destruct (cmp a b) eqn:E, (cmp a' b') eqn:E'; try reflexivity; exfalso; ord.
  Qed.
  Lemma v_sym v w : veqb v w = veqb w v.
  Proof.
    destruct (veqb v w) eqn:E, (veqb w v) eqn:E'; try reflexivity.
    - rewrite (veq_sym _ HV _ _ E) in E'. discriminate.
    - rewrite (veq_sym _ HV _ _ E') in E. discriminate.
  Qed.
  Lemma a_veq v w v' w' : RV v v' -> RV w w' -> veqb v' w' = veqb v w.
  Proof. intros H1 H2. rewrite <- (H1 w'), (v_sym v w'), <- (H2 v), v_sym. reflexivity. Qed.
  Lemma a_kcl n a a' : RK a a' -> RK a (kcl n a').
  Proof. intros H. eapply a_trans; [exact H|apply CK]. Qed.
  Lemma a_vcl n v v' : RV v v' -> RV v (vcl n v').
  Proof. intros H w. rewrite (H w). apply CV. Qed.
  Lemma same_alike a b : same_val veqb a b -> RV a b.
  Proof.
    intros [->|H] w; [reflexivity|]. destruct (veqb a w) eqn:E, (veqb b w) eqn:E'; try reflexivity.
    - rewrite (veq_trans _ HV b a w (veq_sym _ HV _ _ H) E) in E'. discriminate.
    - rewrite (veq_trans _ HV a b w H E') in E. discriminate.
  Qed.
  Lemma a_refl k : RK k k.
  Proof. apply (ord_refl _ HO). Qed.
  Lemma a_r_refl r : alike_range cmp r r.
  Proof. split; apply a_refl. Qed.
  Lemma a_ri_refl r : alike_rangei cmp r r.
  Proof. split; [|split]; [apply a_refl|apply a_refl|reflexivity]. Qed.
  Lemma f2_refl {A} (R : A -> A -> Prop) : (forall a, R a a) -> forall l, Forall2 R l l.
  Proof. intros H l. induction l; constructor; auto. Qed.

  Notation crun := (rmc_run kcl vcl cmp veqb).
  Notation run := (rm_run cmp veqb).
  Notation like := (alike_entry (alike_range cmp) veqb).

  Lemma clone_run ops ops' : Forall2 (alike_op (alike_range cmp) veqb) ops ops' ->
    Forall2 like (run ops) (snd (crun ops')).
  Proof. exact (c_run a_cmp a_veq a_kcl a_vcl ops ops'). Qed.
  Lemma ops_refl {R} (alike_r : R -> R -> Prop) (Hr : forall r, alike_r r r) (ops : list (op R V)) :
    Forall2 (alike_op alike_r veqb) ops ops.
  Proof.
    apply f2_refl. intros [r v|r| |l]; cbn; auto.
    - split; [apply Hr|intros w; reflexivity].
    - apply f2_refl. intros e. split; [apply Hr|intros w; reflexivity].
  Qed.
  Lemma clone_same ops : Forall2 like (run ops) (snd (crun ops)).
  Proof. apply clone_run, ops_refl, a_r_refl. Qed.
  Lemma clone_outcome ops o :
    fst (rmc_exec kcl vcl cmp veqb o (crun ops)) = fst (rm_exec cmp veqb o (run ops)).
  Proof.
    pose proof (clone_same ops) as Hs0. destruct (crun ops) as [n0 m0]. cbn [fst snd] in Hs0 |- *.
    pose proof (ops_refl _ a_r_refl [o]) as Ho. inversion Ho as [|? ? ? ? H1 _]; subst.
    pose proof (c_exec a_cmp a_veq a_kcl a_vcl o o H1 (run ops) n0 m0 Hs0) as [H _].
    exact (orel_unit _ _ H).
  Qed.
  Lemma clone_get ops k : exists o,
    fst (rmc_get kcl cmp k (crun ops)) = Ret o /\ snd (snd (rmc_get kcl cmp k (crun ops))) = snd (crun ops)
    /\ optrel RV (spec_run (valid_range cmp) (in_range cmp) ops k) o.
  Proof.
    pose proof (clone_same ops) as Hs0. destruct (crun ops) as [n0 m0]. cbn [fst snd] in Hs0 |- *.
    destruct (run_get_spec HO HV ops k) as (o & E & Hs).
    destruct (c_get_key_value a_cmp a_kcl (run ops) n0 m0 k k Hs0 (a_refl k))
      as [H1 H2].
    unfold rmc_get, bind. unfold rm_get, omap in E.
    destruct (rmc_get_key_value kcl cmp k (n0, m0)) as [x s]. cbn [fst snd] in *.
    destruct H1 as [a b Hab|p|]; cbn in E; try discriminate. injection E as <-.
    eexists. split; [reflexivity|]. split; [exact H2|].
    destruct a as [[r v]|], b as [[r' v']|]; try contradiction Hab; cbn in *;
      destruct (spec_run _ _ ops k) as [w|]; cbn in *; try contradiction; [|exact I].
    intros x. pose proof (proj2 Hab x) as Hx. cbn in Hx. rewrite <- Hx. symmetry. apply (same_alike _ _ Hs).
  Qed.
  Lemma clone_overlapping ops q sched : exists o,
    fst (rmc_overlapping kcl cmp q (crun ops)) = Ret o /\
    Forall2 (optrel like)
      (deque_run sched (filter (fun e => meets cmp q (fst e)) (run ops)))
      (map fst (sched_trace (both (ov_next cmp) (ov_next_back cmp)) (fun _ => tt) sched o)).
  Proof.
    pose proof (clone_same ops) as Hs0. destruct (crun ops) as [n0 m0]. cbn [fst snd] in Hs0 |- *.
    destruct (overlapping_schedule HO _ q sched (run_WF HO HV ops)) as (o & E & Ht).
    destruct (c_overlapping a_cmp a_kcl (run ops) n0 m0 q q Hs0 (a_r_refl q))
      as [H1 _].
    rewrite E in H1. destruct (rmc_overlapping kcl cmp q (n0, m0)) as [x s]. cbn [fst snd] in *.
    inversion H1 as [a b (Q1 & Q2 & Hl) Ea Eb| |]; subst. eexists. split; [reflexivity|].
    refine (eq_ind _ (fun z => Forall2 _ z _) _ _ Ht). apply (proj1 (f2_map_l _ _ _ _)), (proj1 (f2_map_r _ _ _ _)).
    apply (c_ov_sched a_cmp); [|exact Hl]. rewrite Q2. apply a_r_refl.
  Qed.
  Lemma clone_gaps ops outer : exists g gs,
    fst (rmc_gaps kcl cmp outer (crun ops)) = Ret g /\
    gaps_of cmp (spec_run (valid_range cmp) (in_range cmp) ops) outer gs /\
    forall n c, Forall2 (fun x y => exists z, y = Ret z /\ optrel (alike_range cmp) x z)
                (yields n gs) (nexts_m (gpc_next kcl cmp) n (c, g)).
  Proof.
    pose proof (clone_same ops) as Hs0. destruct (crun ops) as [n0 m0]. cbn [fst snd] in Hs0 |- *.
    destruct (run_gaps HO HV ops outer) as (g & gs & E & Hn & Hg).
    pose proof (c_gaps a_cmp a_kcl (run ops) n0 m0 outer outer Hs0 (a_r_refl outer))
      as H1.
    rewrite E in H1. destruct (rmc_gaps kcl cmp outer (n0, m0)) as [x s]. cbn [fst snd] in *.
    inversion H1 as [a b Hr Ea Eb| |]; subst. exists b, gs. split; [reflexivity|]. split; [exact Hg|].
    intros n c. rewrite <- Hn. exact (c_gp_nexts a_cmp a_kcl n g c b Hr).
  Qed.
  Lemma clone_clone ops : exists n m2,
    rmc_clone kcl vcl (crun ops) = (Ret m2, (n, snd (crun ops))) /\
    Forall2 like (snd (crun ops)) m2 /\
    ((forall v, veqb v v = true) -> rm_eqb cmp veqb (snd (crun ops)) m2 = true).
  Proof.
    pose proof (clone_same ops) as Hs0. destruct (crun ops) as [n0 m0]. cbn [fst snd] in Hs0 |- *.
    assert (Hr : Forall2 like (m0) (m0)).
    { apply f2_refl. intros e. split; [apply a_r_refl|intros w; reflexivity]. }
    destruct (c_clone a_kcl a_vcl _ n0 _ Hr) as (n & m2 & E & H).
    exists n, m2. split; [exact E|]. split; [exact H|]. intros Hv. unfold rm_eqb, rm_iter.
    clear -H Hv HV. induction H as [|[r v] [r' v'] l l' [[H1 H2] H3] _ IH]; cbn in *; [reflexivity|].
    rewrite IH. unfold r_eqb, eqb. unfold alike_key in H1, H2. rewrite H1, H2. cbn.
    rewrite (H3 v'), Hv. reflexivity.
  Qed.

  (** *** Inclusive *)
  Context {st : stepfns K} (HSt : StepLaws cmp st).
  Lemma a_add x x' y : RK x x' -> ltb cmp x y = true -> orel RK (step_o (add_one st x)) (step_o (add_one st x')).
  Proof.
    intros H Hy. destruct (step_succ _ _ HSt x y Hy) as (s & E & H1 & H2).
    assert (Hs : ltb cmp x' s = true) by (unfold alike_key in H; ord).
    destruct (step_succ _ _ HSt x' s Hs) as (s' & E' & H3 & H4).
    assert (Hx : ltb cmp x s' = true) by (unfold alike_key in H; ord).
    destruct (step_succ _ _ HSt x s' Hx) as (s2 & E2 & H5 & H6).
    rewrite E, E'. constructor. rewrite E in E2. injection E2 as <-. unfold alike_key. ord.
  Qed.
  Lemma a_sub x x' y : RK x x' -> ltb cmp y x = true -> orel RK (step_o (sub_one st x)) (step_o (sub_one st x')).
  Proof.
    intros H Hy. destruct (step_pred _ _ HSt x y Hy) as (s & E & H1 & H2).
    assert (Hs : ltb cmp s x' = true) by (unfold alike_key in H; ord).
    destruct (step_pred _ _ HSt x' s Hs) as (s' & E' & H3 & H4).
    assert (Hx : ltb cmp s' x = true) by (unfold alike_key in H; ord).
    destruct (step_pred _ _ HSt x s' Hx) as (s2 & E2 & H5 & H6).
    rewrite E, E'. constructor. rewrite E in E2. injection E2 as <-. unfold alike_key. ord.
  Qed.
  Notation icrun := (imc_run kcl vcl cmp veqb st).
  Notation irun := (im_run cmp veqb st).
  Notation ilike := (alike_entry (alike_rangei cmp) veqb).
  Notation ispec := (spec_run (valid_rangei cmp) (in_rangei cmp)).

  Lemma iclone_run ops ops' : Forall2 (alike_op (alike_rangei cmp) veqb) ops ops' ->
    Forall2 ilike (irun ops) (snd (icrun ops')).
  Proof. exact (ci_run a_cmp a_veq a_kcl a_vcl a_add a_sub ops ops'). Qed.
  Lemma iclone_same ops : Forall2 ilike (irun ops) (snd (icrun ops)).
  Proof. apply iclone_run, ops_refl, a_ri_refl. Qed.
  Lemma iclone_outcome ops o :
    fst (imc_exec kcl vcl cmp veqb st o (icrun ops)) = fst (im_exec cmp veqb st o (irun ops)).
  Proof.
    pose proof (iclone_same ops) as Hs0. destruct (icrun ops) as [n0 m0]. cbn [fst snd] in Hs0 |- *.
    pose proof (ops_refl _ a_ri_refl [o]) as Ho. inversion Ho as [|? ? ? ? H1 _]; subst.
    pose proof (ci_exec a_cmp a_veq a_kcl a_vcl a_add a_sub o o H1 (irun ops) n0 m0 Hs0) as [H _].
    exact (orel_unit _ _ H).
  Qed.
  Lemma iclone_get ops k : fresh_ops ops -> exists o,
    fst (imc_get kcl cmp k (icrun ops)) = Ret o /\ snd (snd (imc_get kcl cmp k (icrun ops))) = snd (icrun ops)
    /\ optrel RV (ispec ops k) o.
  Proof.
    pose proof (iclone_same ops) as Hs0. destruct (icrun ops) as [n0 m0]. cbn [fst snd] in Hs0 |- *.
    intros Hf. destruct (irun_get_spec HO HSt HV ops Hf k) as (o & E & Hs).
    destruct (ci_get_key_value a_cmp a_kcl (irun ops) n0 m0 k k Hs0 (a_refl k))
      as [H1 H2].
    unfold imc_get, bind. unfold im_get, omap in E.
    destruct (imc_get_key_value kcl cmp k (n0, m0)) as [x s]. cbn [fst snd] in *.
    destruct H1 as [a b Hab|p|]; cbn in E; try discriminate. injection E as <-.
    eexists. split; [reflexivity|]. split; [exact H2|].
    destruct a as [[r v]|], b as [[r' v']|]; try contradiction Hab; cbn in *;
      destruct (ispec ops k) as [w|]; cbn in *; try contradiction; [|exact I].
    intros x. pose proof (proj2 Hab x) as Hx. cbn in Hx. rewrite <- Hx. symmetry. apply (same_alike _ _ Hs).
  Qed.
  (** exhausted ranges included *)
  Lemma iclone_get_same ops k : exists o o',
    im_get cmp (irun ops) k = Ret o /\
    fst (imc_get kcl cmp k (icrun ops)) = Ret o' /\ snd (snd (imc_get kcl cmp k (icrun ops))) = snd (icrun ops)
    /\ optrel RV o o'.
  Proof.
    pose proof (iclone_same ops) as Hs0. destruct (icrun ops) as [n0 m0]. cbn [fst snd] in Hs0 |- *.
    destruct (any_lookups_agree (cmp := cmp) (veqb := veqb) (st := st) ops k) as (o & Ek & E & _).
    destruct (ci_get_key_value a_cmp a_kcl (irun ops) n0 m0 k k Hs0 (a_refl k))
      as [H1 H2].
    unfold imc_get, bind. rewrite Ek in H1.
    destruct (imc_get_key_value kcl cmp k (n0, m0)) as [x s]. cbn [fst snd] in *.
    inversion H1 as [a b Hab Ea Eb| |]; subst.
    do 2 eexists. split; [exact E|]. split; [reflexivity|]. split; [reflexivity|].
    destruct o as [[r v]|], b as [[r' v']|]; try contradiction Hab; cbn in *; [|exact I]. apply Hab.
  Qed.
  Lemma iclone_overlapping ops q sched : exists o,
    fst (imc_overlapping kcl cmp q (icrun ops)) = Ret o /\
    Forall2 (optrel ilike)
      (deque_run sched (filter (fun e => meetsi cmp q (fst e)) (irun ops)))
      (map fst (sched_trace (both (ovi_next cmp) (ovi_next_back cmp)) (fun _ => tt) sched o)).
  Proof.
    pose proof (iclone_same ops) as Hs0. destruct (icrun ops) as [n0 m0]. cbn [fst snd] in Hs0 |- *.
    destruct (any_overlapping HO HSt HV ops q sched) as (o & E & Ht).
    destruct (ci_overlapping a_cmp a_kcl (irun ops) n0 m0 q q Hs0 (a_ri_refl q))
      as [H1 _].
    rewrite E in H1. destruct (imc_overlapping kcl cmp q (n0, m0)) as [x s]. cbn [fst snd] in *.
    inversion H1 as [a b (Q1 & Q2 & Hl) Ea Eb| |]; subst. eexists. split; [reflexivity|].
    refine (eq_ind _ (fun z => Forall2 _ z _) _ _ Ht). apply (proj1 (f2_map_l _ _ _ _)), (proj1 (f2_map_r _ _ _ _)).
    apply (ci_ov_sched a_cmp); [|exact Hl]. rewrite Q2. apply a_ri_refl.
  Qed.
  Lemma asc_of m : ascendingi cmp m -> (forall e, In e m -> valid_rangei cmp (fst e) = true) ->
    asc (cmp := cmp) (V := V) m.
  Proof.
    unfold ascendingi. induction m as [|[r v] m IH]; intros Hs Hv; [exact I|].
    apply StronglySorted_inv in Hs as [Hs1 Hs2]. split; [|split].
    - specialize (Hv (r, v) (or_introl eq_refl)). unfold valid_rangei in Hv. cbn in Hv. ord.
    - eapply Forall_impl; [|exact Hs2]. cbn. auto.
    - apply IH; [exact Hs1|]. intros e He. apply Hv. right. exact He.
  Qed.
  Lemma iclone_gaps ops outer : exists g gs,
    fst (imc_gaps kcl cmp outer (icrun ops)) = Ret g /\
    gapsi_of cmp (ispec ops) outer gs /\
    forall n c, Forall2 (fun x y => exists z, y = Ret z /\ optrel (alike_rangei cmp) x z)
                (yields n gs) (nexts_m (gpic_next kcl cmp st) n (c, g)).
  Proof.
    pose proof (iclone_same ops) as Hs0. destruct (icrun ops) as [n0 m0]. cbn [fst snd] in Hs0 |- *.
    destruct (any_gaps HO HSt HV ops outer) as (g & gs & E & Hn & Hg).
    destruct (ci_gaps a_cmp a_kcl (irun ops) n0 m0 outer outer Hs0 (a_ri_refl outer))
      as (g1 & g' & E1 & E2 & Hr & Hok).
    { destruct (any_valid HO HSt HV ops) as [A1 A2]. apply asc_of; [exact A1|].
      intros [r v] He. apply (A2 r v He). }
    rewrite E in E1. injection E1 as <-. exists g', gs. split; [exact E2|]. split; [exact Hg|].
    intros n c. pose proof (ci_gp_nexts a_cmp a_kcl a_add a_sub HO n g c g' Hr Hok) as H.
    rewrite Hn in H. apply (proj2 (f2_map_l _ _ _ _)) in H.
    eapply f2_impl; [|exact H]. intros x y Hxy. cbn in Hxy. inversion Hxy; subst. eauto.
  Qed.
  Lemma iclone_clone ops : exists n m2,
    imc_clone kcl vcl (icrun ops) = (Ret m2, (n, snd (icrun ops))) /\
    Forall2 ilike (snd (icrun ops)) m2 /\
    ((forall v, veqb v v = true) -> im_eqb cmp veqb (snd (icrun ops)) m2 = true).
  Proof.
    pose proof (iclone_same ops) as Hs0. destruct (icrun ops) as [n0 m0]. cbn [fst snd] in Hs0 |- *.
    assert (Hr : Forall2 ilike (m0) (m0)).
    { apply f2_refl. intros e. split; [apply a_ri_refl|intros w; reflexivity]. }
    destruct (ci_clone a_kcl a_vcl _ n0 _ Hr) as (n & m2 & E & H).
    exists n, m2. split; [exact E|]. split; [exact H|]. intros Hv. unfold im_eqb, im_iter.
    clear -H Hv HV. induction H as [|[r v] [r' v'] l l' [(H1 & H2 & H4) H3] _ IH]; cbn in *; [reflexivity|].
    rewrite IH. unfold ri_eqb, eqb. unfold alike_key in H1, H2. rewrite H1, H2, H4. cbn.
    rewrite (H3 v'), Hv, Bool.eqb_reflx. reflexivity.
  Qed.
End Props.

(** Clones identical to their originals: MapModel.v and IMapModel.v. *)
Section Identity.
  Context {K V : Type} (cmp : K -> K -> comparison) (veqb : V -> V -> bool) (st : stepfns K).
  Notation kid := (fun (_ : nat) (k : K) => k).
  Notation vid := (fun (_ : nat) (v : V) => v).

  Lemma f2_eq {A} (R : A -> A -> Prop) l l' : (forall a b, R a b -> a = b) -> Forall2 R l l' -> l = l'.
  Proof. intros H. induction 1 as [|a b l l' H1 _ IH]; [reflexivity|]. rewrite (H _ _ H1), IH. reflexivity. Qed.
  Lemma clone_identity ops : snd (rmc_run kid vid cmp veqb ops) = rm_run cmp veqb ops.
  Proof.
    symmetry. apply (f2_eq (Re (RK := eq) (RV := eq))).
    { intros [[a b] v] [[a' b'] v'] [[H1 H2] H3]. cbn in *. subst. reflexivity. }
    apply (c_run (RK := eq) (RV := eq)); try (intros; subst; reflexivity).
    apply f2_refl. intros [r v|r| |l]; cbn; try split; try split; try reflexivity.
    apply f2_refl. intros e. repeat split.
  Qed.
  Lemma iclone_identity ops : snd (imc_run kid vid cmp veqb st ops) = im_run cmp veqb st ops.
  Proof.
    symmetry. apply (f2_eq (Rei (RK := eq) (RV := eq))).
    { intros [[a b x] v] [[a' b' x'] v'] [(H1 & H2 & H4) H3]. cbn in *. subst. reflexivity. }
    apply (ci_run (RK := eq) (RV := eq)); try (intros; subst; reflexivity).
    - intros x x' y <- _. destruct (step_o (add_one st x)); constructor; reflexivity.
    - intros x x' y <- _. destruct (step_o (sub_one st x)); constructor; reflexivity.
    - apply f2_refl. intros [r v|r| |l]; cbn; try split; try split; try reflexivity; try (split; reflexivity).
      apply f2_refl. intros e. repeat split.
  Qed.
End Identity.
