(** [RangeInclusiveMap] facts that do not depend on the private flag of the
    ranges handed to it: what is proved of histories with fresh ranges holds of
    all histories where the statement only looks at bounds and values. *)
From Coq Require Import List Bool Sorting.Sorted Lia.
From Verif Require Import Order Outcome BTree SearchTree Ranges History Spec MapModel IMapModel ListLemmas
  IterFacts MapProofs IFacts IMapProps CrashModel CrashFacts CrashProps Exhausted ExhaustedCrash.
Import ListNotations.

Section Any.
  Context {K V : Type} {cmp : K -> K -> comparison} {veqb : V -> V -> bool} {st : stepfns K}.
  Context (HO : TotalOrd cmp) (HS : StepLaws cmp st) (HV : PartialEquiv veqb).
  Notation fr := (@freshen K).
  Notation fe := (@freshen_entry K V).
  Notation run := (im_run cmp veqb st).
  Notation valid := (valid_rangei cmp).
  Notation covers := (in_rangei cmp).
  Notation spec := (spec_run (V := V) valid covers).
  Notation ins l := (map (fun e : rangei K * V => OInsert (fst e) (snd e)) l).
  Notation fops := (map (@freshen_op K V)).
  Notation Hf ops := (freshen_fresh (K := K) (V := V) ops).

  Lemma spec_fresh ops : spec (fops ops) = spec ops.
  Proof.
    unfold spec_run. generalize (fun _ : K => @None V). induction ops as [|o ops IH]; intros f; [reflexivity|].
    cbn [map fold_left]. rewrite IH. f_equal. destruct o as [r v|r| |l]; cbn; try reflexivity.
    revert f. induction l as [|[r v] l IHl]; intros f; [reflexivity|]. cbn. rewrite IHl. reflexivity.
  Qed.

  Lemma any_valid ops : ascendingi cmp (im_iter (run ops)) /\
    (forall r v, In (r, v) (im_iter (run ops)) -> valid r = true /\ (fresh_ops ops -> ri_exhausted r = false)).
  Proof.
    destruct (iiter_valid_ascending HO HS HV _ (Hf ops)) as [HA HW]. unfold im_iter in *. rewrite x_run in *.
    split; [exact (asc_map _ HA)|]. intros r v H. split.
    - exact (proj1 (HW (fr r) v (in_map fe _ _ H))).
    - intros Ho. apply (iiter_valid_ascending HO HS HV ops Ho) in H. apply H.
  Qed.
  Lemma any_coalesced ops : coalescedi cmp veqb (im_iter (run ops)).
  Proof.
    pose proof (iiter_coalesced HO HS HV _ (Hf ops)) as H. unfold im_iter in *. rewrite x_run in H.
    intros a b Ha Hb. exact (H (fe a) (fe b) (in_map fe _ _ Ha) (in_map fe _ _ Hb)).
  Qed.
  Lemma any_describes ops :
    represents covers veqb (im_iter (run ops)) (spec ops) /\
    describes covers veqb (im_iter (run ops)) (spec ops).
  Proof.
    destruct (iiter_describes HO HS HV _ (Hf ops)) as [H1 H2]. unfold im_iter in *. rewrite x_run, spec_fresh in *.
    split; intros k; [specialize (H1 k)|specialize (H2 k)].
    - destruct (spec ops k) as [v|].
      + destruct H1 as (r & w & Hi & Hc & Hs). apply in_map_iff in Hi as ([r' w'] & E & Hi).
        injection E as <- <-. exists r', w'. auto.
      + intros r v Hi. exact (H1 (fr r) v (in_map fe _ _ Hi)).
    - destruct H2 as [H2 H3]. split.
      + intros r v Hi. exact (H2 (fr r) v (in_map fe _ _ Hi)).
      + intros Hn. destruct (H3 Hn) as (r & w & Hi & Hc). apply in_map_iff in Hi as ([r' w'] & E & Hi).
        injection E as <- <-. exists r', w'. auto.
  Qed.
  Lemma any_between ops a b : In a (im_iter (run ops)) -> In b (im_iter (run ops)) ->
    ltb cmp (ri_end (fst a)) (ri_start (fst b)) = true -> veqb (snd a) (snd b) = true ->
    exists k, ltb cmp (ri_end (fst a)) k = true /\ ltb cmp k (ri_start (fst b)) = true /\
      forall r w, In (r, w) (im_iter (run ops)) -> covers r k = true -> veqb (snd a) w = false.
  Proof.
    destruct (any_valid ops) as [HA HW]. pose proof (any_coalesced ops) as HC. revert HA HW HC.
    generalize (im_iter (run ops)). intros l HA HW HC Ha Hb Hab Hv.
    assert (HW' : forall e, In e l -> valid (fst e) = true) by (intros [r v] H; apply (HW r v H)). clear HW.
    destruct (in_split _ _ Ha) as (l1 & l2 & ->). unfold ascendingi in HA.
    apply SS_app in HA as (_ & HA & HA1). apply SS_cons in HA as [HA2 HA].
    assert (Hb2 : In b l2).
    { apply in_app_or in Hb as [Hb|[<-|Hb]]; [exfalso|exfalso|exact Hb].
      - specialize (HA1 b a Hb (or_introl eq_refl)). cbn in HA1.
        pose proof (HW' a Ha) as Q1. pose proof (HW' b (in_or_app _ _ _ (or_introl Hb))) as Q2.
        unfold valid_rangei in *. ord.
      - pose proof (HW' a Ha) as Q1. unfold valid_rangei in *. ord. }
    destruct l2 as [|c l2]; [destruct Hb2|].
    assert (Hcb : c = b \/ ltb cmp (ri_end (fst c)) (ri_start (fst b)) = true).
    { destruct Hb2 as [->|Hb2]; [left; reflexivity|right]. apply SS_cons in HA2 as [_ HA2]. apply (HA2 b Hb2). }
    assert (Hc : In c (l1 ++ a :: c :: l2)) by (apply in_or_app; right; right; left; reflexivity).
    pose proof (HA c (or_introl eq_refl)) as Hac. cbn beta in Hac.
    (* an entry covering a key between [a] and the end of [c] is [c] *)
    assert (Honly : forall k r w, ltb cmp (ri_end (fst a)) k = true -> leb cmp k (ri_end (fst c)) = true ->
      In (r, w) (l1 ++ a :: c :: l2) -> covers r k = true -> (r, w) = c).
    { intros k r w K1 K2 Hi Hk. unfold in_rangei in Hk.
      apply in_app_or in Hi as [Hi|[->|[Hi|Hi]]].
      - exfalso. specialize (HA1 (r, w) a Hi (or_introl eq_refl)). cbn in HA1.
        pose proof (HW' a Ha) as Q1. unfold valid_rangei in *. ord.
      - exfalso. cbn in *. ord.
      - symmetry; exact Hi.
      - exfalso. apply SS_cons in HA2 as [_ HA2]. specialize (HA2 (r, w) Hi). cbn in HA2. ord. }
    pose proof (HW' c Hc) as Vc. unfold valid_rangei in Vc.
    destruct (veqb (snd a) (snd c)) eqn:E.
    - destruct (HC a c Ha Hc Hac E) as (k & K1 & K2). exists k. split; [exact K1|]. split.
      + destruct Hcb as [<-|Hcb]; [exact K2|]. ord.
      + intros r w Hi Hk. exfalso. assert (Hrw : (r, w) = c) by (apply (Honly k); auto; ord). subst c.
        unfold in_rangei in Hk. cbn in *. ord.
    - exists (ri_start (fst c)). destruct Hcb as [<-|Hcb]; [congruence|]. split; [exact Hac|].
      split; [ord|]. intros r w Hi Hk. assert (Hrw : (r, w) = c) by (apply (Honly (ri_start (fst c))); auto; ord).
      subst c. exact E.
  Qed.

  Lemma any_insert ops r v :
    if valid r then im_insert cmp veqb st r v (run ops) = (Ret tt, run (ops ++ [OInsert r v]))
    else im_insert cmp veqb st r v (run ops) = (Panicked PAssert, run ops).
  Proof.
    destruct (valid r) eqn:E.
    - rewrite run_isnoc. cbn [im_exec].
      pose proof (x_outcome (cmp := cmp) (veqb := veqb) (st := st) (OInsert r v) (run ops)) as H.
      cbn [im_exec freshen_op] in H. rewrite <- x_run in H.
      pose proof (iinsert_outcome HO HS HV (fops ops) (fr r) v (Hf ops) eq_refl) as H1.
      change (valid (fr r)) with (valid r) in H1. rewrite E in H1. destruct H1 as (m' & H1 & _). rewrite H1 in H.
      destruct (im_insert cmp veqb st r v (run ops)). cbn in *. congruence.
    - unfold im_insert, bind, assert_, valid_rangei in *.
      replace (leb cmp (ri_start r) (ri_end r)) with false by ord. reflexivity.
  Qed.
  Lemma any_remove ops r :
    if valid r then im_remove cmp st r (run ops) = (Ret tt, run (ops ++ [ORemove r]))
    else im_remove cmp st r (run ops) = (Panicked PAssert, run ops).
  Proof.
    destruct (valid r) eqn:E.
    - rewrite run_isnoc. cbn [im_exec].
      pose proof (x_outcome (cmp := cmp) (veqb := veqb) (st := st) (ORemove r) (run ops)) as H.
      cbn [im_exec freshen_op] in H. rewrite <- x_run in H.
      pose proof (iremove_outcome HO HS HV (fops ops) (fr r) (Hf ops)) as H1.
      change (valid (fr r)) with (valid r) in H1. rewrite E in H1. destruct H1 as (m' & H1 & _). rewrite H1 in H.
      destruct (im_remove cmp st r (run ops)). cbn in *. congruence.
    - unfold im_remove, bind, assert_, valid_rangei in *.
      replace (leb cmp (ri_start r) (ri_end r)) with false by ord. reflexivity.
  Qed.

  (** ** Lookups: the last key of a stored exhausted range is not in it *)
  Notation inside r k := (covers r k = true /\ (ri_exhausted r = true -> eqb cmp k (ri_end r) = false)).
  Lemma contains_inside r k : ri_contains cmp r k = true <-> inside r k.
  Proof.
    unfold ri_contains, in_rangei. destruct (ri_exhausted r).
    - split; [intros H; split; [|intros _]; ord|intros [H1 H2]; specialize (H2 eq_refl); ord].
    - split; [intros H; split; [|discriminate]; ord|intros [H1 _]; ord].
  Qed.
  Lemma any_lookup ops k r v :
    im_get_key_value cmp (run ops) k = Ret (Some (r, v)) <-> In (r, v) (im_iter (run ops)) /\ inside r k.
  Proof.
    destruct (any_valid ops) as [HA HW]. destruct (floor_ret (cmp := cmp) (run ops) k) as (o & Eo & Ho).
    unfold im_iter in *. rewrite floor_get, Eo. cbn [obind]. rewrite <- contains_inside. split.
    - intros H. injection H as H. destruct o as [e|]; [|discriminate].
      destruct (ri_contains cmp (fst e) k) eqn:E; [|discriminate]. injection H as ->. split; [exact (Ho _ eq_refl)|exact E].
    - intros [Hi Hc]. pose proof (proj1 (contains_inside r k) Hc) as [Hk _].
      assert (G : im_get_key_value cmp (run (fops ops)) k = Ret (Some (fr r, v))).
      { apply (proj2 (iget_iff HO HS HV (fops ops) k _ _ (Hf ops))). split; [|exact Hk].
        unfold im_iter. rewrite x_run. exact (in_map fe _ _ Hi). }
      rewrite x_run, floor_get, x_floor, Eo in G. cbn in G. destruct o as [e0|]; [|discriminate G].
      cbn in G. destruct (ri_contains cmp (fr (fst e0)) k); [|discriminate]. injection G as G1 G2 G3.
      assert (E : e0 = (r, v)).
      { apply (asc_fresh_inj HO (run ops)); auto; [intros [a av] He; apply (HW a av He)|].
        unfold freshen_entry, freshen. cbn. congruence. }
      subst e0. cbn [fst]. rewrite Hc. reflexivity.
  Qed.
  Lemma any_lookups_agree ops k : exists o,
    im_get_key_value cmp (run ops) k = Ret o /\
    im_get cmp (run ops) k = Ret (option_map snd o) /\
    im_contains_key cmp (run ops) k = Ret (match o with Some _ => true | None => false end).
  Proof.
    destruct (floor_ret (cmp := cmp) (run ops) k) as (o & Eo & _). eexists. unfold im_contains_key, im_get.
    rewrite floor_get, Eo. cbn [obind omap]. split; [reflexivity|]. split; [reflexivity|].
    cbn. destruct o as [e|]; [|reflexivity]. destruct (ri_contains cmp (fst e) k); reflexivity.
  Qed.
  Lemma any_lookup_none ops k :
    im_get_key_value cmp (run ops) k = Ret None <->
    (forall r v, In (r, v) (im_iter (run ops)) -> ~ inside r k).
  Proof.
    destruct (any_lookups_agree ops k) as (o & Ho & _). rewrite Ho. split.
    - intros H r v Hi Hk. injection H as ->. rewrite (proj2 (any_lookup ops k r v) (conj Hi Hk)) in Ho. discriminate.
    - intros H. destruct o as [[r v]|]; [|reflexivity]. apply any_lookup in Ho as [Hi Hk].
      destruct (H r v Hi Hk).
  Qed.
  Lemma any_unique ops k r v r' v' :
    In (r, v) (im_iter (run ops)) -> In (r', v') (im_iter (run ops)) ->
    covers r k = true -> covers r' k = true -> (r, v) = (r', v').
  Proof.
    destruct (any_valid ops) as [HA HW]. unfold im_iter in *. intros H1 H2 C1 C2.
    apply (asc_fresh_inj HO (run ops)); auto; [intros [a av] He; apply (HW a av He)|].
    apply (iiter_unique HO HS HV (fops ops) k (fr r) v (fr r') v' (Hf ops)); auto;
      unfold im_iter; rewrite x_run; [exact (in_map fe _ _ H1)|exact (in_map fe _ _ H2)].
  Qed.

  (** ** Range queries *)
  Lemma any_gaps ops outer :
    exists g gs, im_gaps cmp (run ops) outer = Ret g /\
      (forall n, nexts_m (gpi_next cmp st) n g = map Ret (yields n gs)) /\
      gapsi_of cmp (spec ops) outer gs.
  Proof.
    destruct (irun_gaps HO HS HV (fops ops) (fr outer) (Hf ops)) as (g & gs & H1 & H2 & H3).
    rewrite spec_fresh in H3. destruct (x_gaps_all (cmp := cmp) (veqb := veqb) (st := st) ops outer)
      as (g1 & g2 & G1 & G2 & G3).
    exists g1, gs. split; [exact G1|]. split; [|exact H3]. intros n. rewrite <- G3. rewrite H1 in G2.
    injection G2 as <-. apply H2.
  Qed.
  Lemma any_gaps_ret ops outer n :
    exists g, im_gaps cmp (run ops) outer = Ret g /\
      forall o, In o (nexts_m (gpi_next cmp st) n g) -> exists x, o = Ret x.
  Proof.
    destruct (any_gaps ops outer) as (g & gs & H1 & H2 & _). exists g. split; [exact H1|].
    intros o. rewrite H2. intros Ho. apply in_map_iff in Ho as (x & <- & _). exists x. reflexivity.
  Qed.
  Lemma any_gaps_empty ops outer : valid outer = false ->
    exists g, im_gaps cmp (run ops) outer = Ret g /\
      forall n, nexts_m (gpi_next cmp st) n g = repeat (Ret None) n.
  Proof.
    intros H. destruct (irun_gaps_empty HO HS HV (fops ops) (fr outer) (Hf ops) H) as (g & H1 & H2).
    destruct (x_gaps_all (cmp := cmp) (veqb := veqb) (st := st) ops outer) as (g1 & g2 & G1 & G2 & G3).
    exists g1. split; [exact G1|]. intros n. rewrite <- G3. rewrite H1 in G2. injection G2 as <-. apply H2.
  Qed.
  Lemma any_steps_gaps (st2 : stepfns K) :
    (forall x y, ltb cmp x y = true -> add_one st x = add_one st2 x) ->
    (forall x y, ltb cmp y x = true -> sub_one st x = sub_one st2 x) ->
    forall ops outer, exists g, im_gaps cmp (run ops) outer = Ret g /\
      forall n, nexts_m (gpi_next cmp st) n g = nexts_m (gpi_next cmp st2) n g.
  Proof.
    intros H1 H2 ops outer.
    destruct (isteps_gaps HO HS HV st2 H1 H2 (fops ops) (fr outer) (Hf ops)) as (g & G1 & G2).
    rewrite x_run, x_gaps in G1. destruct (im_gaps cmp (run ops) outer) as [g0| |] eqn:E; cbn in G1; try discriminate.
    injection G1 as <-. exists g0. split; [reflexivity|]. intros n. specialize (G2 n). rewrite !x_gaps_nexts in G2.
    exact G2.
  Qed.

  Lemma opts_inj (m : imap K V) (HA : ascendingi cmp m)
      (HW : forall e, In e m -> valid (fst e) = true) : forall a b : list (option (rangei K * V)),
    (forall e, In (Some e) a -> In e m) -> (forall e, In (Some e) b -> In e m) ->
    map (option_map fe) a = map (option_map fe) b -> a = b.
  Proof.
    induction a as [|x a IH]; intros [|y b] Ha Hb E; try discriminate; [reflexivity|].
    cbn in E. injection E as E1 E2. f_equal.
    - destruct x as [x|], y as [y|]; cbn in E1; try discriminate; [|reflexivity]. f_equal.
      apply (asc_fresh_inj HO m); auto; [apply Ha; left; reflexivity|apply Hb; left; reflexivity|congruence].
    - apply IH; auto; intros e He; [apply Ha|apply Hb]; right; exact He.
  Qed.
  Lemma deque_run_In {A} sched : forall (l : list A) e, In (Some e) (deque_run sched l) -> In e l.
  Proof.
    unfold deque_run. induction sched as [|d sched IH]; intros l e; cbn [sched_trace map]; [contradiction|].
    destruct (deque_step d l) as [x l'] eqn:E. cbn [map fst]. unfold deque_step in E.
    destruct l as [|a l0]; [injection E as <- <-|destruct d; injection E as <- <-].
    - intros [H|H]; [discriminate|]. apply IH in H. exact H.
    - intros [H|H]; [injection H as <-; left; reflexivity|]. right. apply IH, H.
    - assert (EL : a :: l0 = removelast (a :: l0) ++ [last (a :: l0) a]) by (apply app_removelast_last; discriminate).
      intros [H|H]; [injection H as <-|apply IH in H]; rewrite EL; apply in_or_app; [right; left; reflexivity|left; exact H].
  Qed.
  Lemma ov_trace_In sched : forall o e,
    In (Some e) (map fst (sched_trace (both (ovi_next cmp) (ovi_next_back cmp)) (fun _ => tt) sched o)) ->
    In e (ovi_iter (K := K) (V := V) o).
  Proof.
    induction sched as [|d sched IH]; intros [q l] e; cbn [sched_trace map]; [contradiction|].
    destruct (both (ovi_next cmp) (ovi_next_back cmp) d (mkOverlappingI q l)) as [x o'] eqn:E. cbn [map fst].
    assert (HX : (forall y, x = Some y -> In y l) /\ (forall y, In y (ovi_iter o') -> In y l)).
    { destruct d; cbn [both] in E.
      - unfold ovi_next in E. destruct l as [|a l]; cbn in E; injection E as <- <-; cbn; [split; [discriminate|auto]|].
        split; [|auto]. destruct (leb cmp _ _); [intros y [= ->]; auto|discriminate].
      - unfold ovi_next_back in E. cbn [ovi_query ovi_iter] in E.
        destruct (ovi_back_loop cmp q (rev l)) as [x1 rl] eqn:E1. injection E as <- <-. cbn [ovi_iter].
        assert (HB : forall r0 x0 rl0, ovi_back_loop cmp q r0 = (x0, rl0) ->
          (forall y : rangei K * V, x0 = Some y -> In y r0) /\ (forall y, In y rl0 -> In y r0)).
        { clear. induction r0 as [|a r0 IH]; intros x0 rl0 E; cbn in E; [injection E as <- <-; split; [discriminate|auto]|].
          destruct (leb cmp _ _); [injection E as <- <-; split; [intros y [= ->]; left; reflexivity|right; assumption]|].
          destruct (IH _ _ E) as [H1 H2]. split; intros y Hy; right; auto. }
        destruct (HB _ _ _ E1) as [H1 H2]. split.
        + intros y Hy. apply in_rev. apply H1, Hy.
        + intros y Hy. apply in_rev in Hy. apply in_rev. apply H2, Hy. }
    intros [H|H]; [apply (proj1 HX), H|]. apply (proj2 HX), (IH _ _ H).
  Qed.
  Lemma any_overlapping ops q sched :
    exists o, im_overlapping cmp (run ops) q = Ret o /\
      map fst (sched_trace (both (ovi_next cmp) (ovi_next_back cmp)) (fun _ => tt) sched o) =
      deque_run sched (filter (fun e => meetsi cmp q (fst e)) (im_iter (run ops))).
  Proof.
    destruct (ioverlapping HO HS HV (fops ops) (fr q) sched (Hf ops)) as (o & H1 & H2).
    destruct (x_overlapping_all (cmp := cmp) (veqb := veqb) (st := st) ops q) as (o1 & o2 & G1 & G2 & G3).
    rewrite H1 in G2. injection G2 as <-. rewrite G3, map_map in H2. cbn [fst] in H2.
    exists o1. split; [exact G1|]. destruct (any_valid ops) as [HA HW]. unfold im_iter in *.
    apply (opts_inj (run ops) HA).
    - intros [r v] He. apply (HW r v He).
    - intros e He. apply ov_trace_In in He. unfold im_overlapping, bt_range in G1. cbn in G1.
      injection G1 as <-. cbn [ovi_iter] in He.
      match type of He with In _ (take_while ?p (drop_while ?d ?m)) =>
        rewrite <- (take_drop_while d m); apply in_or_app; right;
        rewrite <- (take_drop_while p (drop_while d m)); apply in_or_app; left; exact He end.
    - intros e He. apply deque_run_In in He. apply filter_In in He. apply He.
    - rewrite map_map. etransitivity; [exact H2|]. rewrite x_run.
      rewrite <- deque_run_map. f_equal.
      generalize (run ops). clear. induction i as [|e m IH]; [reflexivity|]. cbn. 
      change (meetsi cmp (fr q) (fr (fst e))) with (meetsi cmp q (fst e)).
      destruct (meetsi cmp q (fst e)); cbn; rewrite IH; reflexivity.
  Qed.
  Lemma any_meets ops q : valid q = true -> forall e, In e (im_iter (run ops)) ->
    meetsi cmp q (fst e) = true <-> exists k, covers q k = true /\ covers (fst e) k = true.
  Proof.
    intros Hq e He. apply (imeets_iff HO HS HV (fops ops) (fr q) (Hf ops) Hq (fe e)).
    unfold im_iter. rewrite x_run. exact (in_map fe _ _ He).
  Qed.
  Lemma any_overlaps ops q :
    im_overlaps cmp (run ops) q = Ret (existsb (fun e => meetsi cmp q (fst e)) (im_iter (run ops))).
  Proof.
    pose proof (ioverlaps HO HS HV (fops ops) (fr q) (Hf ops)) as H. unfold im_iter in *. rewrite x_run in H.
    etransitivity; [|etransitivity; [exact H|]].
    - unfold im_overlaps. rewrite x_overlapping. destruct (im_overlapping cmp (run ops) q) as [o| |]; try reflexivity.
      cbn [omap obind]. pose proof (x_ov_step (cmp := cmp) Front o) as E. cbn [both] in E. rewrite E. cbn [fst].
      destruct (fst (ovi_next cmp o)); reflexivity.
    - f_equal. generalize (run ops). clear. induction i as [|e m IH]; [reflexivity|]. cbn. rewrite IH. reflexivity.
  Qed.
  Lemma any_sorted ops :
    sorted_by (cmpi_start cmp) (im_iter (run ops)) /\ sorted_by (cmpi_end cmp) (im_iter (run ops)).
  Proof.
    destruct (irun_sorted HO HS HV _ (Hf ops)) as [H1 H2]. unfold im_iter in *. rewrite x_run in *.
    split; eapply sorted_map; try eassumption; reflexivity.
  Qed.
  Lemma any_tree_search ops (t : tree (rangei K * V)) : elems t = run ops ->
    forall c, c = cmpi_start cmp \/ c = cmpi_end cmp ->
    forall lo hi, bad_bounds c lo hi = false -> bt_range c lo hi (run ops) = Ret (tree_range c lo hi t).
  Proof.
    intros E c Hc lo hi Hb. destruct (any_sorted ops) as [H1 H2]. unfold im_iter in *. rewrite <- E in *.
    destruct Hc as [-> | ->]; apply tree_range_ok; auto using cmpi_start_order, cmpi_end_order.
  Qed.

  (** ** Sizes and bulk operations *)
  Lemma any_minimal (Hrefl : forall v, veqb v v = true) ops l :
    describes covers veqb l (spec ops) -> length (im_iter (run ops)) <= length l.
  Proof.
    intros H. pose proof (irun_minimal HO HS HV Hrefl (fops ops) l (Hf ops)) as H1. rewrite spec_fresh in H1.
    specialize (H1 H). unfold im_iter in *. rewrite x_run, map_length in H1. exact H1.
  Qed.
  Lemma any_growth ops r v :
    im_len (run (ops ++ [OInsert r v])) <= im_len (run ops) + 2 /\
    im_len (run (ops ++ [ORemove r])) <= im_len (run ops) + 1.
  Proof.
    pose proof (irun_growth HO HS HV (fops ops) (fr r) v (Hf ops) eq_refl) as H.
    change [OInsert (fr r) v] with (fops [OInsert r v]) in H. change [@ORemove _ V (fr r)] with (fops [ORemove r]) in H.
    rewrite <- !map_app, !x_run in H. unfold im_len in *. rewrite !map_length in H. exact H.
  Qed.
  Lemma any_first_last ops :
    match im_first_range_value (run ops), im_last_range_value (run ops) with
    | None, None => im_is_empty (run ops) = true
    | Some a, Some b =>
        In a (im_iter (run ops)) /\ In b (im_iter (run ops)) /\
        (forall x, In x (im_iter (run ops)) ->
           (x = a \/ ltb cmp (ri_end (fst a)) (ri_start (fst x)) = true) /\
           (x = b \/ ltb cmp (ri_end (fst x)) (ri_start (fst b)) = true)) /\
        (forall k, spec ops k <> None ->
           covers (incl (ri_start (fst a)) (ri_end (fst b))) k = true)
    | _, _ => False
    end.
  Proof.
    destruct (any_valid ops) as [HA HW]. destruct (any_describes ops) as [_ HD].
    unfold im_first_range_value, im_last_range_value, im_iter, first_opt, last_opt, it_next_back in *.
    destruct (run ops) as [|a m] eqn:E; [reflexivity|]. cbn [it_next fst].
    destruct (rev (a :: m)) as [|b rl] eqn:E2.
    { apply (f_equal (@length _)) in E2. rewrite rev_length in E2. discriminate. }
    cbn [fst]. assert (EB : a :: m = rev rl ++ [b]) by (rewrite <- (rev_involutive (a :: m)), E2; reflexivity).
    assert (Hord : forall x, In x (a :: m) ->
      (x = a \/ ltb cmp (ri_end (fst a)) (ri_start (fst x)) = true) /\
      (x = b \/ ltb cmp (ri_end (fst x)) (ri_start (fst b)) = true)).
    { intros x Hx. split.
      - destruct Hx as [->|Hx]; [left; reflexivity|right]. apply SS_cons in HA as [_ HA]. apply (HA x Hx).
      - rewrite EB in Hx. apply in_app_or in Hx as [Hx|[->|[]]]; [right|left; reflexivity].
        rewrite EB in HA. unfold ascendingi in HA. apply SS_app in HA as (_ & _ & HA). apply HA; [exact Hx|left; reflexivity]. }
    assert (Hb : In b (a :: m)) by (rewrite EB; apply in_or_app; right; left; reflexivity).
    refine (conj (or_introl eq_refl) (conj Hb (conj Hord _))).
    intros k Hk. destruct (proj2 (HD k) Hk) as (r & v & Hi & Hc).
    destruct (Hord (r, v) Hi) as [H1 H2].
    pose proof (proj1 (HW r v Hi)) as V0. destruct a as [ra va], b as [rb vb].
    pose proof (proj1 (HW ra va (or_introl eq_refl))) as Va. pose proof (proj1 (HW rb vb Hb)) as Vb.
    unfold in_rangei, valid_rangei in *. cbn [fst incl ri_start ri_end] in *.
    destruct H1 as [[= -> ->]|H1], H2 as [[= -> ->]|H2]; ord.
  Qed.
  Lemma any_extend good : forall ops bad,
    (forall e, In e good -> valid (fst e) = true) ->
    match bad with [] => True | e :: _ => valid (fst e) = false end ->
    im_extend cmp veqb st (good ++ bad) (run ops) =
      (match bad with [] => Ret tt | _ => Panicked PAssert end, run (ops ++ ins good)).
  Proof.
    unfold im_extend. induction good as [|[r v] good IH]; intros ops bad Hg Hb.
    - cbn [app map]. rewrite app_nil_r. destruct bad as [|[r v] bad]; [reflexivity|]. cbn [for_each fst snd].
      pose proof (any_insert ops r v) as H. cbn in Hb. rewrite Hb in H. unfold bind. rewrite H. reflexivity.
    - cbn [app for_each map fst snd]. pose proof (any_insert ops r v) as H.
      pose proof (Hg (r, v) (or_introl eq_refl)) as Hr. cbn [fst] in Hr. rewrite Hr in H. unfold bind. rewrite H.
      rewrite IH; [|intros e He; apply Hg; right; exact He|exact Hb]. rewrite <- app_assoc. reflexivity.
  Qed.
  Lemma any_from_iter good bad :
    (forall e, In e good -> valid (fst e) = true) ->
    match bad with [] => True | e :: _ => valid (fst e) = false end ->
    im_from_iter cmp veqb st (good ++ bad) =
      match bad with [] => Ret (run (ins good)) | _ => Panicked PAssert end.
  Proof.
    intros Hg Hb. unfold im_from_iter. change (@im_new K V) with (run []). rewrite (any_extend good [] bad Hg Hb).
    destruct bad; reflexivity.
  Qed.
  Lemma any_from_array good bad :
    (forall e, In e good -> valid (fst e) = true) ->
    match bad with [] => True | e :: _ => valid (fst e) = false end ->
    im_from_array cmp veqb st (good ++ bad) =
      match bad with [] => Ret (run (ins good)) | _ => Panicked PAssert end.
  Proof. rewrite from_array_ieq. apply any_from_iter. Qed.

  (** ** Entries away from the range of an update stay, flag and all *)
  Notation xexec1 := (imx_exec cmp veqb st).
  Lemma state_sorted ops o x : In x (crash_states (xexec1 o) (run ops)) ->
    StronglySorted (fun a b : rangei K * V => cmpi_start cmp (fst a) (fst b) = Lt) x.
  Proof.
    intros Hx. apply In_nth with (d := snd (snd (xexec1 o (run ops)))) in Hx as (n & _ & <-).
    destruct (ixrun_valid_any HO HS HV (map XDone ops ++ [XCrash o n])) as (HA & HW & _).
    unfold imx_run in *. rewrite fold_left_app in *. fold (imx_run cmp veqb st (map XDone ops)) in *.
    rewrite (ixrun_done (cmp := cmp) (veqb := veqb) (st := st)) in *. unfold im_iter in *.
    cbn [fold_left xexec] in *.
    eapply SS_impl; [|exact HA]. intros [a av] [b bv] Ha Hb Hab. cbn in *.
    pose proof (HW a av Ha) as Q. unfold valid_rangei in Q. unfold cmpi_start. ord.
  Qed.
  Lemma state_keeps ops o e x : o <> OClear ->
    (forall y, In y (crash_states (xexec1 (freshen_op o)) (run (fops ops))) -> In (fe e) y) ->
    In e (run ops) -> In x (crash_states (xexec1 o) (run ops)) -> In e x.
  Proof.
    intros Ho Hk He. destruct (ch_iexec cmp veqb st o Ho (run ops)) as [Hc1 _].
    revert x. apply (chain_keeps (cmpi_start cmp)); auto.
    - split; unfold cmpi_start; [intros a; ord|intros a b; apply (ord_dual _ HO)|].
      intros c a b d. apply (ord_trans _ HO).
    - apply (state_sorted ops o). left; reflexivity.
    - intros x Hx. split; [apply (state_sorted ops o); right; exact Hx|].
      assert (Hi : In (fe e) (map fe x)).
      { apply Hk. rewrite x_run, cx_states. apply in_map. right; exact Hx. }
      apply in_map_iff in Hi as ([r v] & E & Hi). exists (r, v). split; [exact Hi|].
      destruct e as [r' v']. injection E as E1 E2 E3. cbn. unfold cmpi_start. rewrite E1. split; [ord|exact E3].
  Qed.
  Lemma final_state o m : In (snd (im_exec cmp veqb st o m)) (crash_states (xexec1 o) m).
  Proof.
    pose proof (irecord_faithful cmp veqb st o m) as [_ H]. rewrite <- H. unfold crash_states.
    destruct (exists_last (l := m :: fst (xexec1 o m))) as (l & a & E);
      [discriminate|]. rewrite E, last_last. apply in_or_app. right; left; reflexivity.
  Qed.
  Lemma any_insert_keeps ops r v e x : In e (run ops) -> apart (cmp := cmp) (veqb := veqb) r v e ->
    In x (crash_states (imx_insert cmp veqb st r v) (run ops)) -> In e x.
  Proof.
    intros He Ha Hx. apply (state_keeps ops (OInsert r v) e x); auto; [discriminate|].
    intros y Hy. apply (iinsert_keeps HO HS HV (fops ops) (fr r) v (fe e) y (Hf ops) eq_refl); auto.
    rewrite x_run. exact (in_map fe _ _ He).
  Qed.
  Lemma any_remove_keeps ops r e x : In e (run ops) ->
    ltb cmp (ri_end (fst e)) (ri_start r) = true \/ ltb cmp (ri_end r) (ri_start (fst e)) = true ->
    In x (crash_states (imx_remove cmp st r) (run ops)) -> In e x.
  Proof.
    intros He Ha Hx. apply (state_keeps ops (ORemove r) e x); auto; [discriminate|].
    intros y Hy. apply (iremove_crash HO HS HV (fops ops) (fr r) y (Hf ops) Hy); auto.
    rewrite x_run. exact (in_map fe _ _ He).
  Qed.
  Lemma any_insert_frame ops r v e : In e (im_iter (run ops)) -> apart (cmp := cmp) (veqb := veqb) r v e ->
    In e (im_iter (run (ops ++ [OInsert r v]))).
  Proof.
    intros He Ha. unfold im_iter in *. rewrite run_isnoc.
    apply (any_insert_keeps ops r v e _ He Ha). exact (final_state (OInsert r v) (run ops)).
  Qed.
  Lemma any_remove_frame ops r e : In e (im_iter (run ops)) ->
    ltb cmp (ri_end (fst e)) (ri_start r) = true \/ ltb cmp (ri_end r) (ri_start (fst e)) = true ->
    In e (im_iter (run (ops ++ [ORemove r]))).
  Proof.
    intros He Ha. unfold im_iter in *. rewrite run_isnoc.
    apply (any_remove_keeps ops r e _ He Ha). exact (final_state (ORemove r) (run ops)).
  Qed.

  (** ** Update laws for values that need not equal themselves *)
  Notation look ops a b := (forall k, exists x y, im_get cmp (run (ops ++ a)) k = Ret x /\
    im_get cmp (run (ops ++ b)) k = Ret y /\ same_opt veqb x y).
  Lemma ilaw_get ops a b : fresh_ops ops -> fresh_ops a -> fresh_ops b ->
    (forall f k, fold_left (spec_op (V := V) valid covers) a f k = fold_left (spec_op valid covers) b f k) ->
    look ops a b.
  Proof.
    intros H0 Ha Hb H k.
    destruct (irun_get_spec HO HS HV (ops ++ a) (proj2 (fresh_app _ _) (conj H0 Ha)) k) as (x & X1 & X2).
    destruct (irun_get_spec HO HS HV (ops ++ b) (proj2 (fresh_app _ _) (conj H0 Hb)) k) as (y & Y1 & Y2).
    exists x, y. split; [exact X1|]. split; [exact Y1|].
    eapply (osame_trans HV); [exact X2|]. apply (osame_sym HV).
    replace (spec (ops ++ a) k) with (spec (ops ++ b) k); [exact Y2|].
    unfold spec_run. rewrite !fold_left_app. symmetry. apply H.
  Qed.
  Lemma ilaws_get ops r v r' v' : fresh_ops ops -> ri_exhausted r = false -> ri_exhausted r' = false ->
    look ops [OInsert r v; OInsert r v] [OInsert r v] /\
    look ops [ORemove r; ORemove r] [ORemove r] /\
    look ops [OInsert r v; ORemove r] [ORemove r] /\
    look ops [ORemove r; OInsert r v] [OInsert r v] /\
    look ops [ORemove r; ORemove r'] [ORemove r'; ORemove r] /\
    ((forall k, covers r k = true -> covers r' k = true) ->
     look ops [OInsert r v; OInsert r' v'] [OInsert r' v']) /\
    ((forall k, covers r k = true -> covers r' k = true -> False) ->
     look ops [OInsert r v; OInsert r' v'] [OInsert r' v'; OInsert r v] /\
     look ops [OInsert r v; ORemove r'] [ORemove r'; OInsert r v]).
  Proof.
    intros H0 Hr Hr'.
    assert (F : forall a, Forall (fun o => o = OInsert r v \/ o = OInsert r' v' \/ o = ORemove r \/ o = ORemove r') a ->
      fresh_ops a).
    { intros a Ha. apply forallb_forall. rewrite Forall_forall in Ha. intros o Ho.
      destruct (Ha o Ho) as [->|[->|[->| ->]]]; cbn; rewrite ?Hr, ?Hr'; reflexivity. }
    assert (G : forall a b,
      Forall (fun o => o = OInsert r v \/ o = OInsert r' v' \/ o = ORemove r \/ o = ORemove r') a ->
      Forall (fun o => o = OInsert r v \/ o = OInsert r' v' \/ o = ORemove r \/ o = ORemove r') b ->
      (forall f k, fold_left (spec_op (V := V) valid covers) a f k = fold_left (spec_op valid covers) b f k) ->
      look ops a b) by (intros a b Ha Hb; apply ilaw_get; auto).
    split; [apply G; [repeat (apply Forall_cons || apply Forall_nil); auto 6|repeat (apply Forall_cons || apply Forall_nil); auto 6|apply slaw_insert_insert]|].
    split; [apply G; [repeat (apply Forall_cons || apply Forall_nil); auto 6|repeat (apply Forall_cons || apply Forall_nil); auto 6|apply slaw_remove_remove]|].
    split; [apply G; [repeat (apply Forall_cons || apply Forall_nil); auto 6|repeat (apply Forall_cons || apply Forall_nil); auto 6|apply slaw_insert_remove]|].
    split; [apply G; [repeat (apply Forall_cons || apply Forall_nil); auto 6|repeat (apply Forall_cons || apply Forall_nil); auto 6|apply slaw_remove_insert]|].
    split; [apply G; [repeat (apply Forall_cons || apply Forall_nil); auto 6|repeat (apply Forall_cons || apply Forall_nil); auto 6|apply slaw_commute_remove]|].
    split; intros Hc.
    - apply G; [repeat (apply Forall_cons || apply Forall_nil); auto 6|repeat (apply Forall_cons || apply Forall_nil); auto 6|]. intros f k.
      apply slaw_covered; [apply (invalid_covers HO)|exact Hc].
    - split; (apply G; [repeat (apply Forall_cons || apply Forall_nil); auto 6|repeat (apply Forall_cons || apply Forall_nil); auto 6|]); intros f k;
        [apply slaw_commute, Hc|apply slaw_commute_mixed, Hc].
  Qed.
End Any.
