(** Rebuilding an inclusive map from its own entries, flags included, and
    [RangeInclusiveMap] with an arbitrary [==] on the values (C89) when exhausted
    ranges are among the arguments. *)
From Coq Require Import List Bool Sorting.Sorted Lia.
From Verif Require Import Order Outcome BTree Ranges History Spec MapModel IMapModel ListLemmas
  IterFacts MapProofs ISim Cuts IFacts StepModel IMapProps Exhausted ExhaustedCrash ExhaustedAny AnyEq AnyFacts.
Import ListNotations.

Section Rebuild.
  Context {K V : Type} {cmp : K -> K -> comparison} {veqb : V -> V -> bool} {st : stepfns K}.
  Context (HO : TotalOrd cmp) (HS : StepLaws cmp st).
  Notation s0 e := (ri_start (fst e)).
  Notation e0 e := (ri_end (fst e)).
  Notation ins l := (map (fun e : rangei K * V => OInsert (fst e) (snd e)) l).
  Notation exec := (im_exec cmp veqb st).
  Notation wf l := (ascendingi cmp l /\ (forall e, In e l -> valid_rangei cmp (fst e) = true) /\ coalescedi cmp veqb l).

  Lemma append_any (A : imap K V) e : wf (A ++ [e]) -> im_insert cmp veqb st (fst e) (snd e) A = (Ret tt, A ++ [e]).
  Proof.
    intros (HAsc & HWv & HWc). destruct e as [r v]. cbn [fst snd].
    pose proof (HWv _ (in_mid A (r, v) [])) as Hr. unfold valid_rangei in Hr. cbn [fst] in Hr.
    apply SS_app in HAsc as (HA & _ & HAr).
    assert (HAv : forall a, In a A -> leb cmp (s0 a) (e0 a) = true).
    { intros [ra va] Ha. pose proof (HWv _ (in_or_app _ _ _ (or_introl Ha))) as H.
      unfold valid_rangei in H. cbn in *. ord. }
    assert (HAe : forall a, In a A -> ltb cmp (e0 a) (ri_start r) = true).
    { intros a Ha. exact (HAr a (r, v) Ha (or_introl eq_refl)). }
    assert (HAs : forall a, In a A -> cmp (ri_start r) (s0 a) = Gt).
    { intros a Ha. specialize (HAv a Ha). specialize (HAe a Ha). ord. }
    assert (Hle : leb cmp (ri_start r) (ri_end r) = true) by ord.
    unfold im_insert. unfold bind at 1, assert_. rewrite Hle. unfold ret at 1.
    unfold bind at 1, get at 1, bind at 1, lift at 1.
    assert (HR : bt_range (cmpi_start cmp) Unbounded (Included r) A = Ret A).
    { unfold bt_range. cbn [bad_bounds]. f_equal. rewrite drop_while_none.
      - apply take_while_all. intros a Ha. specialize (HAs a Ha). cbn. unfold cmpi_start.
        assert (E : cmp (s0 a) (ri_start r) = Lt) by ord. rewrite E. reflexivity.
      - destruct A; cbn; auto. }
    rewrite HR. unfold bind at 1, lift at 1.
    assert (HT : forall a, In a A -> exists s, add_one st (e0 a) = Some s /\ ltb cmp (e0 a) s = true /\
              ri_touches cmp st (fst a) r = Ret (leb cmp (ri_start r) s)).
    { intros a Ha. specialize (HAv a Ha). specialize (HAe a Ha).
      destruct (step_succ _ _ HS _ _ HAe) as (s & S1 & S2 & S3). exists s. splits; auto.
      unfold ri_touches, kmax, kmin.
      assert (E1 : ltb cmp (ri_start r) (s0 a) = false) by ord.
      assert (E2 : ltb cmp (ri_end r) (e0 a) = false) by ord.
      rewrite E1, E2, HAe, S1. reflexivity. }
    assert (Hadj : exists cs, filter_o (fun e => ri_touches cmp st (fst e) r) (firstn 2 (rev A)) = Ret cs /\
              match cs with
              | [] => ret r
              | [(s, sv)] => im_adjust_touching_ranges_for_insert cmp veqb st s sv r v
              | _ :: (s, sv) :: _ => im_adjust_touching_ranges_for_insert cmp veqb st s sv r v
              end A = (Ret r, A)).
    { destruct (rev_cases A) as [-> |(A' & [x xv] & ->)]; [exists []; split; reflexivity|].
      rewrite rev_app_distr. cbn [rev app firstn].
      assert (Hx : In (x, xv) (A' ++ [(x, xv)])) by apply in_mid.
      destruct (HT _ Hx) as (s & S1 & S2 & S3). cbn [fst] in S1, S2, S3.
      pose proof (HAv _ Hx) as Xv. pose proof (HAe _ Hx) as Xe. cbn [fst] in Xv, Xe.
      assert (Hadj : leb cmp (ri_start r) s = true ->
        im_adjust_touching_ranges_for_insert cmp veqb st x xv r v (A' ++ [(x, xv)]) = (Ret r, A' ++ [(x, xv)])).
      { intros T. unfold im_adjust_touching_ranges_for_insert.
        assert (Ev : veqb xv v = false).
        { destruct (veqb xv v) eqn:Ev; [exfalso|reflexivity].
          destruct (HWc (x, xv) (r, v)) as (k & K1 & K2); auto.
          - apply in_or_app; left; exact Hx.
          - apply in_mid.
          - cbn in K1, K2. destruct (step_succ _ _ HS _ _ K1) as (s' & S4 & S5 & S6).
            assert (s' = s) by congruence. subst. ord. }
        rewrite Ev.
        assert (E : ri_overlaps cmp r x = false).
        { unfold ri_overlaps, kmax, kmin.
          destruct (ltb cmp (ri_start x) (ri_start r)) eqn:?, (ltb cmp (ri_end x) (ri_end r)) eqn:?; ord. }
        rewrite E. reflexivity. }
      destruct (rev A') as [|[y yv] rA] eqn:ER.
      - cbn [filter_o fst obind]. rewrite S3. cbn [obind]. eexists. split; [reflexivity|].
        destruct (leb cmp (ri_start r) s) eqn:T; [apply Hadj; reflexivity|reflexivity].
      - assert (Hy0 : In (y, yv) A') by (apply in_rev; rewrite ER; left; reflexivity).
        assert (Hy : In (y, yv) (A' ++ [(x, xv)])) by (apply in_or_app; left; exact Hy0).
        destruct (HT _ Hy) as (t & T1 & T2 & T3). cbn [fst] in T1, T2, T3.
        apply SS_app in HA as (_ & _ & HA'x).
        pose proof (HA'x (y, yv) (x, xv) Hy0 (or_introl eq_refl)) as Hyx. cbn in Hyx.
        destruct (step_succ _ _ HS _ _ Hyx) as (t' & T4 & T5 & T6).
        assert (t' = t) by congruence. subst t'.
        assert (Ty : leb cmp (ri_start r) t = false) by ord.
        cbn [filter_o fst obind firstn]. rewrite S3, T3. cbn [obind]. rewrite Ty.
        eexists. split; [reflexivity|].
        destruct (leb cmp (ri_start r) s) eqn:T; [apply Hadj; reflexivity|reflexivity]. }
    destruct Hadj as (cs & -> & Hadj). unfold bind at 1. rewrite Hadj. unfold bind at 1, get at 1, bind at 1.
    replace (length A + 2) with (S (length A + 1)) by nlia. cbn [im_insert_loop].
    unfold bind at 1, get at 1, bind at 1, lift at 1.
    assert (HR2 : bt_range (cmpi_start cmp) (Included r) Unbounded A = Ret []).
    { unfold bt_range. cbn [bad_bounds]. f_equal.
      rewrite drop_while_all; [reflexivity|]. intros a Ha. specialize (HAs a Ha). cbn. unfold cmpi_start.
      assert (E : cmp (s0 a) (ri_start r) = Lt) by ord. rewrite E. reflexivity. }
    rewrite HR2. cbn [it_next fst]. unfold ret, modify. f_equal.
    apply bt_insert_last. intros a Ha. apply HAs. exact Ha.
  Qed.
  Lemma wf_app_l (A B : imap K V) : wf (A ++ B) -> wf A.
  Proof.
    intros (H1 & H2 & H3). apply SS_app in H1 as (H1 & _). split; [exact H1|]. split.
    - intros e He. apply H2, in_or_app. left; exact He.
    - intros a b Ha Hb. apply H3; apply in_or_app; left; assumption.
  Qed.
  Lemma rebuild_app (l : imap K V) : forall A, wf (A ++ l) -> run_ops exec (ins l) A = A ++ l.
  Proof.
    induction l as [|e l IH]; intros A HW; [rewrite app_nil_r; reflexivity|].
    cbn [map run_ops fold_left im_exec].
    change (e :: l) with ([e] ++ l) in *. rewrite app_assoc in HW.
    rewrite (append_any A e (wf_app_l _ _ HW)). cbn [snd]. rewrite app_assoc.
    apply (IH (A ++ [e])). exact HW.
  Qed.
  Lemma rebuild (m : imap K V) : wf m -> im_run cmp veqb st (ins m) = m.
  Proof. exact (rebuild_app m []). Qed.
End Rebuild.

Section Eq.
  Context {K V : Type} {cmp : K -> K -> comparison} {veqb : V -> V -> bool} {st : stepfns K}.
  Context (HO : TotalOrd cmp) (HS : StepLaws cmp st).
  Notation never := (fun _ _ : V => false).
  Notation run := (im_run cmp veqb st).
  Notation valid := (valid_rangei cmp).
  Notation covers := (in_rangei cmp).
  Notation spec := (spec_run (V := V) valid covers).
  Notation fr := (@freshen K).
  Notation fe := (@freshen_entry K V).
  Notation fops := (map (@freshen_op K V)).
  Notation Hf ops := (freshen_fresh (K := K) (V := V) ops).
  Notation inside r k := (covers r k = true /\ (ri_exhausted r = true -> eqb cmp k (ri_end r) = false)).

  Lemma e_valid ops : ascendingi cmp (run ops) /\ (forall e, In e (run ops) -> valid (fst e) = true) /\
    coalescedi cmp never (run ops).
  Proof.
    destruct (iany_iter (veqb := veqb) HO HS _ (Hf ops)) as (H1 & H2 & _). unfold im_iter in *. rewrite x_run in *.
    split; [exact (asc_map _ H1)|]. split.
    - intros [r v] He. exact (proj1 (H2 (fr r) v (in_map fe _ _ He))).
    - intros a b _ _ _ E. discriminate E.
  Qed.
  (** such a map is one reachable with an [==] that is never true *)
  Lemma e_reachable ops : exists ops', run ops = im_run cmp never st ops'.
  Proof. eexists. symmetry. exact (rebuild (veqb := never) HO HS _ (e_valid ops)). Qed.

  Lemma e_get ops k : exists o, im_get cmp (map fe (run ops)) k = Ret o /\ linked_opt veqb (spec ops k) o.
  Proof.
    destruct (iany_get_spec (veqb := veqb) HO HS _ k (Hf ops)) as (o & H1 & H2). rewrite x_run in H1.
    rewrite ExhaustedAny.spec_fresh in H2. exists o. split; assumption.
  Qed.
  Lemma e_insert_from m r v : @WFi K (cut K) V (cmp_cut cmp st) never Before After (map fe m) ->
    if valid r
    then exists m', im_insert cmp veqb st r v m = (Ret tt, m') /\ length m' <= length m + 2 /\
      exists n, In (n, v) (im_iter m') /\ (forall k, covers r k = true -> covers n k = true) /\
      forall k, exists o o', im_get cmp (map fe m) k = Ret o /\ im_get cmp (map fe m') k = Ret o' /\
        if covers r k then o' = Some v
        else o' = o \/ covers n k = true /\ exists w, o = Some w /\ veqb w v = true /\ o' = Some v
    else im_insert cmp veqb st r v m = (Panicked PAssert, m).
  Proof.
    intros HW. pose proof (iany_insert_from (veqb := veqb) HO HS _ (fr r) v HW eq_refl) as H.
    change (valid (fr r)) with (valid r) in H. change (covers (fr r)) with (covers r) in H.
    pose proof (x_exec (cmp := cmp) (veqb := veqb) (st := st) (OInsert r v) m) as X.
    cbn [im_exec freshen_op] in X. destruct (valid r) eqn:E.
    - destruct H as (m1 & H1 & H2 & n & H3 & H4 & H5). rewrite X in H1. unfold fres in H1.
      destruct (im_insert cmp veqb st r v m) as [[[]| |] m2]; cbn in H1; try discriminate H1. injection H1 as <-.
      exists m2. split; [reflexivity|]. split; [rewrite !map_length in H2; exact H2|].
      unfold im_iter in *. apply in_map_iff in H3 as ([n' v'] & En & Hn). injection En as <- ->.
      exists n'. split; [exact Hn|]. split; assumption.
    - unfold im_insert, bind, assert_, valid_rangei in *.
      replace (leb cmp (ri_start r) (ri_end r)) with false by ord. reflexivity.
  Qed.
  Lemma e_insert ops r v :
    if valid r
    then exists m', im_insert cmp veqb st r v (run ops) = (Ret tt, m') /\ length m' <= length (run ops) + 2 /\
      exists n, In (n, v) (im_iter m') /\ (forall k, covers r k = true -> covers n k = true) /\
      forall k, exists o o', im_get cmp (map fe (run ops)) k = Ret o /\ im_get cmp (map fe m') k = Ret o' /\
        if covers r k then o' = Some v
        else o' = o \/ covers n k = true /\ exists w, o = Some w /\ veqb w v = true /\ o' = Some v
    else im_insert cmp veqb st r v (run ops) = (Panicked PAssert, run ops).
  Proof.
    apply e_insert_from. rewrite <- x_run. apply (irun_any HO HS), freshen_fresh.
  Qed.
  Lemma e_remove ops r :
    if valid r
    then exists m', im_remove cmp st r (run ops) = (Ret tt, m') /\ length m' <= length (run ops) + 1 /\
      forall k, im_get cmp (map fe m') k = if covers r k then Ret None else im_get cmp (map fe (run ops)) k
    else im_remove cmp st r (run ops) = (Panicked PAssert, run ops).
  Proof.
    pose proof (iany_remove (veqb := veqb) HO HS _ (fr r) (Hf ops)) as H.
    change (valid (fr r)) with (valid r) in H. change (covers (fr r)) with (covers r) in H.
    pose proof (x_exec (cmp := cmp) (veqb := veqb) (st := st) (ORemove r) (run ops)) as X.
    cbn [im_exec freshen_op] in X. destruct (valid r) eqn:E.
    - destruct H as (m1 & H1 & H2 & H5). rewrite x_run in *. rewrite X in H1. unfold fres in H1.
      destruct (im_remove cmp st r (run ops)) as [[[]| |] m2]; cbn in H1; try discriminate H1. injection H1 as <-.
      exists m2. split; [reflexivity|]. split; [rewrite !map_length in H2; exact H2|exact H5].
    - unfold im_remove, bind, assert_, valid_rangei in *.
      replace (leb cmp (ri_start r) (ri_end r)) with false by ord. reflexivity.
  Qed.
  Lemma e_iter ops :
    ascendingi cmp (im_iter (run ops)) /\
    (forall r v, In (r, v) (im_iter (run ops)) -> valid r = true /\ (fresh_ops ops -> ri_exhausted r = false)) /\
    (forall k r v, im_get_key_value cmp (run ops) k = Ret (Some (r, v)) <->
       In (r, v) (im_iter (run ops)) /\ inside r k) /\
    (forall k, im_get_key_value cmp (run ops) k = Ret None <->
       (forall r v, In (r, v) (im_iter (run ops)) -> ~ inside r k)).
  Proof.
    destruct (e_valid ops) as (H1 & H2 & _). split; [exact H1|]. split.
    - intros r v H. split; [exact (H2 (r, v) H)|]. intros Ho.
      exact (proj2 (proj1 (proj2 (iany_iter (veqb := veqb) HO HS ops Ho)) r v H)).
    - destruct (e_reachable ops) as (ops' & ->). split.
      + intros k r v. exact (any_lookup HO HS never_per ops' k r v).
      + intros k. exact (any_lookup_none HO HS never_per ops' k).
  Qed.
  Lemma e_gaps ops outer :
    exists g gs, im_gaps cmp (run ops) outer = Ret g /\
      (forall n, nexts_m (gpi_next cmp st) n g = map Ret (yields n gs)) /\
      gapsi_of cmp (spec ops) outer gs.
  Proof.
    destruct (iany_gaps (veqb := veqb) HO HS _ (fr outer) (Hf ops)) as (g & gs & H1 & H2 & H3).
    rewrite ExhaustedAny.spec_fresh in H3. destruct (x_gaps_all (cmp := cmp) (veqb := veqb) (st := st) ops outer)
      as (g1 & g2 & G1 & G2 & G3).
    exists g1, gs. split; [exact G1|]. split; [|exact H3]. intros n. rewrite <- G3. rewrite H1 in G2.
    injection G2 as <-. apply H2.
  Qed.
  Lemma e_overlapping ops q sched :
    exists o, im_overlapping cmp (run ops) q = Ret o /\
      map fst (sched_trace (both (ovi_next cmp) (ovi_next_back cmp)) (fun _ => tt) sched o) =
      deque_run sched (filter (fun e => meetsi cmp q (fst e)) (im_iter (run ops))).
  Proof. destruct (e_reachable ops) as (ops' & ->). exact (ExhaustedAny.any_overlapping HO HS never_per ops' q sched). Qed.
  Lemma e_overlaps ops q :
    im_overlaps cmp (run ops) q = Ret (existsb (fun e => meetsi cmp q (fst e)) (im_iter (run ops))).
  Proof. destruct (e_reachable ops) as (ops' & ->). exact (ExhaustedAny.any_overlaps HO HS never_per ops' q). Qed.
  (** [contains_key]: the key is mapped by the history, and not the last key of an entry with the flag *)
  Lemma e_contains ops k : im_contains_key cmp (run ops) k =
    Ret (match spec ops k with Some _ => true | None => false end &&
         negb (existsb (fun e => ri_exhausted (fst e) && eqb cmp k (ri_end (fst e))) (im_iter (run ops)))).
  Proof.
    destruct (e_iter ops) as (HA & HW & HG & _).
    destruct (any_lookups_agree (cmp := cmp) (veqb := veqb) (st := st) ops k) as (o & E1 & _ & E2). rewrite E2. f_equal.
    pose proof (iany_contains (veqb := veqb) HO HS _ k (Hf ops)) as Hc. rewrite ExhaustedAny.spec_fresh in Hc.
    assert (HU : forall e e', In e (im_iter (run ops)) -> In e' (im_iter (run ops)) ->
      covers (fst e) k = true -> covers (fst e') k = true -> e = e').
    { destruct (e_reachable ops) as (ops' & ->). intros [r v] [r' v']. apply (any_unique HO HS never_per). }
    assert (Hcov : (match spec ops k with Some _ => true | None => false end = true) <->
      exists e, In e (im_iter (run ops)) /\ covers (fst e) k = true).
    { destruct (iany_iter (veqb := veqb) HO HS _ (Hf ops)) as (_ & _ & G1 & G2).
      destruct (any_lookups_agree (cmp := cmp) (veqb := veqb) (st := st) (fops ops) k) as (o' & F1 & _ & F2).
      rewrite Hc in F2. injection F2 as F2. rewrite F2. unfold im_iter in *. destruct o' as [[r v]|].
      - split; [intros _|reflexivity]. apply G1 in F1 as [F1 F3]. rewrite x_run in F1.
        apply in_map_iff in F1 as ([r' v'] & Ee & F1). injection Ee as <- ->. exists (r', v). auto.
      - split; [discriminate|]. intros ([r v] & Hi & Hk). pose proof (proj1 (G2 k) F1) as Hn. rewrite x_run in Hn.
        specialize (Hn (fr r) v (in_map fe _ _ Hi)). change (covers (fr r) k) with (covers r k) in Hn. cbn in Hk. congruence. }
    destruct o as [[r v]|].
    - apply HG in E1 as [Hi [Hk Hx]]. symmetry. apply andb_true_iff. split.
      + apply Hcov. exists (r, v). auto.
      + apply negb_true_iff. destruct (existsb _ _) eqn:X; [|reflexivity]. apply existsb_exists in X as ([r' v'] & Hi' & X).
        apply andb_prop in X as [X1 X2]. cbn in X1, X2.
        assert (Ee : (r', v') = (r, v)).
        { apply HU; auto. cbn. pose proof (proj1 (HW _ _ Hi')) as Vr. unfold valid_rangei in Vr. unfold in_rangei. ord. }
        injection Ee as -> ->. rewrite Hx in X2 by exact X1. discriminate.
    - symmetry. apply andb_false_iff. destruct (match spec ops k with Some _ => true | None => false end) eqn:M; [right|left; reflexivity].
      destruct (proj1 Hcov eq_refl) as ([r v] & Hi & Hk). apply negb_false_iff, existsb_exists. exists (r, v).
      split; [exact Hi|]. cbn in *. destruct (ri_exhausted r) eqn:Rx; [|exfalso].
      + cbn. destruct (eqb cmp k (ri_end r)) eqn:Ek; [reflexivity|exfalso].
        rewrite (proj2 (HG k r v)) in E1; [discriminate|]. auto.
      + rewrite (proj2 (HG k r v)) in E1; [discriminate|]. split; [exact Hi|]. split; [exact Hk|]. congruence.
  Qed.
End Eq.
