(** Iterators over reachable [RangeMap]s: [overlapping], [gaps], [iter]. *)
From Coq Require Import List Bool Sorting.Sorted Lia ZArith.
From Verif Require Import Order Outcome BTree Ranges History Spec MapModel ListLemmas
  IterFacts MapProofs MapRemove MapFacts.
Import ListNotations.

Section Iter.
  Context {K V : Type} {cmp : K -> K -> comparison} {veqb : V -> V -> bool}.
  Context (HO : TotalOrd cmp) (HV : PartialEquiv veqb).

  Notation ltb := (ltb cmp).
  Notation leb := (leb cmp).
  Notation eqb := (eqb cmp).
  Notation c_start := (cmp_start cmp).
  Notation c_end := (cmp_end cmp).
  Notation entry := (range K * V)%type.
  Notation st e := (r_start (fst e)).
  Notation en e := (r_end (fst e)).
  Notation WF := (@WF K V cmp veqb).
  Notation sep := (@sep K V cmp veqb).
  Notation lk := (@lk K V cmp).

  (** ** [overlapping] *)

  (** exactly what a query reports *)
  Definition hits (q : range K) (e : entry) : bool := meets cmp q (fst e).

  Lemma overlapping_split m q : WF m ->
    exists L N, m = L ++ N /\ (forall a, In a L -> leb (en a) (r_start q) = true) /\
      (forall b, In b N -> ltb (r_start q) (en b) = true) /\
      rm_overlapping cmp m q = Ret (mkOverlapping q N).
  Proof.
    intros HW.
    destruct (split_sorted sep (fun e => leb (en e) (r_start q)) m (proj1 HW))
      as (L & N & E & H1 & H2 & H3 & H4).
    - intros a b Ha Hb [Hs _] Hp. cbn in *. pose proof (proj2 HW b Hb). ord.
    - exists L, N. splits; auto.
      + intros b Hb. specialize (H2 b Hb). cbn in H2. ord.
      + unfold rm_overlapping, bt_range. cbn [bad_bounds obind]. do 2 f_equal.
        rewrite take_while_all by (intros; reflexivity).
        rewrite <- H4. apply drop_while_ext. intros a Ha. cbn. unfold cmp_end, Order.leb. cbn.
        destruct (cmp (en a) (r_start q)); reflexivity.
  Qed.

  Lemma filter_all_false {A} (p : A -> bool) l : (forall a, In a l -> p a = false) -> filter p l = [].
  Proof.
    induction l as [|a l IH]; intros H; [reflexivity|]. cbn. rewrite (H a (or_introl eq_refl)).
    apply IH. intros b Hb. apply H. right; exact Hb.
  Qed.
  Lemma filter_all_true {A} (p : A -> bool) l : (forall a, In a l -> p a = true) -> filter p l = l.
  Proof.
    induction l as [|a l IH]; intros H; [reflexivity|]. cbn. rewrite (H a (or_introl eq_refl)).
    f_equal. apply IH. intros b Hb. apply H. right; exact Hb.
  Qed.

  (** the iterator state against the remaining items *)
  Definition ov_rel (q : range K) (o : overlapping K V) (D : list entry) : Prop :=
    ov_query o = q /\ WF (ov_iter o) /\ D = filter (fun e => ltb (st e) (r_end q)) (ov_iter o).

  Lemma ov_rel_step q d o D : ov_rel q o D ->
    fst (both (ov_next cmp) (ov_next_back cmp) d o) = fst (deque_step d D) /\
    ov_rel q (snd (both (ov_next cmp) (ov_next_back cmp) d o)) (snd (deque_step d D)).
  Proof.
    intros (<- & HW & ->). destruct o as [q l]. cbn [ov_query ov_iter] in *. destruct d; cbn [both].
    - unfold ov_next. cbn [ov_query ov_iter]. destruct l as [|e l]; cbn [it_next].
      + cbn. splits; auto. unfold ov_rel. cbn. auto.
      + apply WF_cons in HW as (He & HW & Hs). cbn [filter]. destruct (ltb (st e) (r_end q)) eqn:E.
        * cbn. split; [reflexivity|]. unfold ov_rel; cbn; auto.
        * assert (E2 : filter (fun e0 : entry => ltb (st e0) (r_end q)) l = []).
          { apply filter_all_false. intros a Ha. destruct (Hs a Ha) as [H1 _]. ord. }
          rewrite E2. cbn. split; [reflexivity|]. unfold ov_rel; cbn; auto.
    - unfold ov_next_back. cbn [ov_query ov_iter].
      induction l as [|e l IH] using rev_ind.
      + cbn. split; [reflexivity|]. unfold ov_rel; cbn; auto.
      + rewrite rev_app_distr. cbn [rev app ov_back_loop].
        rewrite filter_app. cbn [filter].
        apply WF_app in HW as (HW & _ & _).
        destruct (ltb (st e) (r_end q)) eqn:E.
        * cbn [fst snd]. rewrite deque_back_snoc. cbn [fst snd].
          split; [reflexivity|]. unfold ov_rel; cbn. rewrite rev_involutive. auto.
        * rewrite app_nil_r. apply IH; exact HW.
  Qed.

  Lemma hits_filter m q L N : m = L ++ N ->
    (forall a, In a L -> leb (en a) (r_start q) = true) ->
    (forall b, In b N -> ltb (r_start q) (en b) = true) ->
    filter (hits q) m = filter (fun e => ltb (st e) (r_end q)) N.
  Proof.
    intros -> HL HN. rewrite filter_app. rewrite (filter_all_false _ L).
    - cbn. apply filter_ext_in. intros a Ha. specialize (HN a Ha). unfold hits, meets. rewrite HN. reflexivity.
    - intros a Ha. specialize (HL a Ha). unfold hits, meets. ord.
  Qed.

  Lemma overlapping_schedule m q sched : WF m ->
    exists o, rm_overlapping cmp m q = Ret o /\
      map fst (sched_trace (both (ov_next cmp) (ov_next_back cmp)) (fun _ => tt) sched o) =
      deque_run sched (filter (hits q) m).
  Proof.
    intros HW. destruct (overlapping_split m q HW) as (L & N & E & HL & HN & HR).
    exists (mkOverlapping q N). split; [exact HR|]. unfold deque_run. f_equal.
    rewrite (hits_filter m q L N E HL HN).
    apply (sched_trace_sim (ov_rel q)).
    - intros d s t Hr. apply ov_rel_step; exact Hr.
    - reflexivity.
    - unfold ov_rel; cbn. splits; auto. subst m. apply WF_app in HW as (_ & HW & _). exact HW.
  Qed.

  Lemma overlaps_ok m q : WF m ->
    rm_overlaps cmp m q = Ret (existsb (hits q) m).
  Proof.
    intros HW. destruct (overlapping_split m q HW) as (L & N & E & HL & HN & HR).
    unfold rm_overlaps, omap. rewrite HR. cbn [obind]. f_equal.
    assert (HR' : ov_rel q (mkOverlapping q N) (filter (hits q) m)).
    { unfold ov_rel; cbn. rewrite (hits_filter m q L N E HL HN). splits; auto.
      subst m. apply WF_app in HW as (_ & HW & _). exact HW. }
    destruct (ov_rel_step q Front _ _ HR') as [H _]. cbn [both] in H. rewrite H.
    destruct (existsb (hits q) m) eqn:Ex.
    - apply existsb_exists in Ex as (e & He1 & He2).
      destruct (filter (hits q) m) as [|x l] eqn:Ef; [|reflexivity].
      assert (Hin : In e (filter (hits q) m)) by (apply filter_In; auto). rewrite Ef in Hin. destruct Hin.
    - rewrite filter_all_false; [reflexivity|]. intros a Ha. destruct (hits q a) eqn:Eh; [|reflexivity].
      rewrite <- Ex. symmetry. apply existsb_exists. eauto.
  Qed.

  (** a non-empty query reports an entry iff they share a key *)
  Lemma hits_share q e : valid_range cmp q = true -> valid_range cmp (fst e) = true ->
    hits q e = true <-> exists k, in_range cmp q k = true /\ in_range cmp (fst e) k = true.
  Proof.
    unfold valid_range, hits, meets, in_range. intros Hq He. split.
    - intros H. exists (kmax cmp (r_start q) (st e)). unfold kmax.
      destruct (ltb (st e) (r_start q)) eqn:E; split; ord.
    - intros (k & H1 & H2). ord.
  Qed.

  (** ** [gaps] *)

  (** the gaps still to be yielded *)
  Fixpoint glist (cand qend : K) (l : list entry) : list (range K) :=
    match l with
    | [] => if ltb cand qend then [mkR cand qend] else []
    | (o, _) :: l' =>
        if leb qend (r_start o) then (if ltb cand qend then [mkR cand qend] else [])
        else (if ltb cand (r_start o) then [mkR cand (r_start o)] else []) ++
             glist (r_end o) qend l'
    end.

  Lemma glist_done cand qend l : WF l -> leb qend cand = true ->
    (forall e, In e l -> leb qend (en e) = true) ->
    glist cand qend l = [].
  Proof.
    revert cand. induction l as [|[o v] l IH]; intros cand HW Hc He; cbn.
    - destruct (ltb cand qend) eqn:E; [exfalso; ord|reflexivity].
    - pose proof (He (o, v) (or_introl eq_refl)) as Ho. cbn in Ho.
      destruct (leb qend (r_start o)) eqn:E1.
      + destruct (ltb cand qend) eqn:E; [exfalso; ord|reflexivity].
      + destruct (ltb cand (r_start o)) eqn:E; [exfalso; ord|]. cbn. apply IH; auto.
        * apply WF_cons in HW as (_ & HW & _). exact HW.
        * intros e Hin. apply He. right; exact Hin.
  Qed.

  (** invariant of the iterator: everything left ends after the candidate *)
  Definition gp_rel (g : gaps K V) (l : list (range K)) : Prop :=
    WF (gp_iter g) /\
    (forall e, In e (gp_iter g) -> ltb (gp_candidate_start g) (en e) = true) /\
    l = glist (gp_candidate_start g) (gp_query_end g) (gp_iter g).

  Lemma gp_step g l : gp_rel g l ->
    match l with
    | [] => fst (gp_next cmp g) = None /\ gp_rel (snd (gp_next cmp g)) []
    | a :: l' => fst (gp_next cmp g) = Some a /\ gp_rel (snd (gp_next cmp g)) l'
    end.
  Proof.
    destruct g as [cand qend l0]. unfold gp_rel, gp_next.
    cbn [gp_iter gp_candidate_start gp_query_end].
    revert cand l. induction l0 as [|[o v] l0 IH]; intros cand l (HW & Hc & ->).
    - cbn. destruct (ltb cand qend) eqn:E; cbn; splits; auto.
      + assert (E2 : ltb qend qend = false) by ord. rewrite E2. reflexivity.
      + rewrite E. reflexivity.
    - pose proof HW as HW0. apply WF_cons in HW0 as (Ho & HW' & Hs). cbn in Ho.
      pose proof (Hc (o, v) (or_introl eq_refl)) as Hco. cbn in Hco.
      cbn [gp_loop glist].
      destruct (leb qend (r_start o)) eqn:E1.
      + (* break *)
        assert (Hs' : forall e, In e l0 -> ltb qend (en e) = true).
        { intros e He. destruct (Hs e He) as [H1 _]. cbn in H1. pose proof (proj2 HW' e He). ord. }
        destruct (ltb cand qend) eqn:E2; cbn [fst snd gp_iter gp_candidate_start gp_query_end].
        * splits; auto. symmetry. apply glist_done; auto; [ord|].
          intros e He. specialize (Hs' e He). ord.
        * splits; auto.
          -- intros e He. apply Hc. right; exact He.
          -- symmetry. apply glist_done; auto; [ord|]. intros e He. specialize (Hs' e He). ord.
      + assert (Hs' : forall e, In e l0 -> ltb (r_end o) (en e) = true).
        { intros e He. destruct (Hs e He) as [H1 _]. cbn in H1. pose proof (proj2 HW' e He). ord. }
        destruct (ltb cand (r_start o)) eqn:E2.
        * cbn [app fst snd gp_iter gp_candidate_start gp_query_end]. splits; auto.
        * cbn [app]. specialize (IH (r_end o) (glist (r_end o) qend l0)).
          apply IH. splits; auto.
  Qed.

  Lemma gaps_iter_ok m outer : WF m ->
    exists g L N, rm_gaps cmp m outer = Ret g /\ m = L ++ N /\
      (forall a, In a L -> leb (en a) (r_start outer) = true) /\
      (forall b, In b N -> ltb (r_start outer) (en b) = true) /\
      gp_rel g (glist (r_start outer) (r_end outer) N) .
  Proof.
    intros HW. destruct (overlapping_split m outer HW) as (L & N & E & HL & HN & HR).
    exists (mkGaps (r_start outer) (r_end outer) N), L, N.
    unfold rm_gaps, omap. rewrite HR. cbn. splits; auto.
    unfold gp_rel. cbn. splits; auto. subst m. apply WF_app in HW as (_ & HW & _). exact HW.
  Qed.

  (** what [glist] denotes *)
  Lemma glist_spec qend l : forall cand, WF l ->
    (forall e, In e l -> ltb cand (en e) = true) ->
    (forall g, In g (glist cand qend l) ->
       ltb (r_start g) (r_end g) = true /\ leb cand (r_start g) = true /\ leb (r_end g) qend = true) /\
    StronglySorted (fun a b => ltb (r_end a) (r_start b) = true) (glist cand qend l) /\
    (forall k, (exists g, In g (glist cand qend l) /\ in_range cmp g k = true) <->
       leb cand k = true /\ ltb k qend = true /\ lk l k = None).
  Proof.
    induction l as [|[o v] l IH]; intros cand HW Hc.
    - cbn. destruct (ltb cand qend) eqn:E.
      + splits.
        * intros g [<-|[]]. cbn. splits; auto; ord.
        * repeat constructor.
        * intros k. split.
          -- intros (g & [<-|[]] & H). unfold in_range in H. cbn in H. splits; auto; ord.
          -- intros (H1 & H2 & _). eexists; split; [left; reflexivity|]. unfold in_range. cbn. ord.
      + splits.
        * intros g [].
        * constructor.
        * intros k. split; [intros (g & [] & _)|]. intros (H1 & H2 & _). exfalso. ord.
    - pose proof HW as HW0. apply WF_cons in HW0 as (Ho & HW' & Hs). cbn in Ho.
      pose proof (Hc (o, v) (or_introl eq_refl)) as Hco. cbn in Hco.
      cbn [glist MapProofs.lk].
      assert (Hs' : forall e, In e l -> ltb (r_end o) (en e) = true).
      { intros e He. destruct (Hs e He) as [H1 _]. cbn in H1. pose proof (proj2 HW' e He). ord. }
      destruct (leb qend (r_start o)) eqn:E1.
      + assert (Hnone : forall k, ltb k qend = true ->
                  (if r_contains cmp o k then Some v else lk l k) = None).
        { intros k Hk. assert (C : r_contains cmp o k = false) by (unfold r_contains; ord). rewrite C.
          apply (lk_above HO l k (r_end o)); [|ord]. intros b Hb. apply (Hs b Hb). }
        destruct (ltb cand qend) eqn:E.
        * splits.
          -- intros g [<-|[]]. cbn. splits; auto; ord.
          -- repeat constructor.
          -- intros k. split.
             ++ intros (g & [<-|[]] & H). unfold in_range in H. cbn in H. splits; [ord|ord|apply Hnone; ord].
             ++ intros (H1 & H2 & _). eexists; split; [left; reflexivity|]. unfold in_range. cbn. ord.
        * splits.
          -- intros g [].
          -- constructor.
          -- intros k. split; [intros (g & [] & _)|]. intros (H1 & H2 & _). exfalso. ord.
      + destruct (IH (r_end o) HW' Hs') as (I1 & I2 & I3).
        assert (Hrest : forall k,
          (exists g, In g (glist (r_end o) qend l) /\ in_range cmp g k = true) <->
          leb (r_start o) k = true /\ leb cand k = true /\ ltb k qend = true /\
          (if r_contains cmp o k then Some v else lk l k) = None).
        { intros k. rewrite I3. split.
          - intros (H1 & H2 & H3). splits; auto; try ord.
            assert (C : r_contains cmp o k = false) by (unfold r_contains; ord). rewrite C. exact H3.
          - intros (H1 & H2 & H3 & H4). destruct (r_contains cmp o k) eqn:C; [discriminate|].
            unfold r_contains in C. splits; auto; ord. }
        destruct (ltb cand (r_start o)) eqn:E2; cbn [app].
        * splits.
          -- intros g [<-|Hg]; [cbn; splits; auto; ord|]. destruct (I1 g Hg) as (H1 & H2 & H3).
             splits; auto; ord.
          -- apply SS_cons. split; [exact I2|]. intros b Hb. destruct (I1 b Hb) as (H1 & H2 & H3). cbn. ord.
          -- intros k. split.
             ++ intros (g & [<-|Hg] & H).
                ** unfold in_range in H. cbn in H. splits; try ord.
                   assert (C : r_contains cmp o k = false) by (unfold r_contains; ord). rewrite C.
                   apply (lk_above HO l k (r_end o)); [|ord]. intros b Hb. apply (Hs b Hb).
                ** destruct (proj1 (Hrest k)) as (H1 & H2 & H3 & H4); [eauto|]. auto.
             ++ intros (H1 & H2 & H3). destruct (ltb k (r_start o)) eqn:Ek.
                ** eexists; split; [left; reflexivity|]. unfold in_range. cbn. ord.
                ** destruct (proj2 (Hrest k)) as (g & G1 & G2); [splits; auto; ord|].
                   exists g. split; [right; exact G1|exact G2].
        * splits.
          -- intros g Hg. destruct (I1 g Hg) as (H1 & H2 & H3). splits; auto; ord.
          -- exact I2.
          -- intros k. rewrite Hrest. split.
             ++ intros (H1 & H2 & H3 & H4). auto.
             ++ intros (H1 & H2 & H3). splits; auto; ord.
  Qed.

  Notation gaps_of := (@gaps_of K V cmp).
  Lemma glist_gaps_of L N outer : WF (L ++ N) ->
    (forall a, In a L -> leb (en a) (r_start outer) = true) ->
    (forall b, In b N -> ltb (r_start outer) (en b) = true) ->
    gaps_of (lk (L ++ N)) outer (glist (r_start outer) (r_end outer) N).
  Proof.
    intros HW HL HN. apply WF_app in HW as (_ & HWN & _).
    destruct (glist_spec (r_end outer) N (r_start outer) HWN HN) as (H1 & H2 & H3).
    unfold gaps_of. splits; auto.
    intros k. rewrite H3. rewrite lk_app. split.
    - intros (A1 & A2 & A3). rewrite (lk_below HO L k (r_start outer)) by auto.
      split; [unfold in_range; ord|exact A3].
    - intros (A1 & A2). unfold in_range in A1. rewrite (lk_below HO L k (r_start outer)) in A2.
      + splits; auto; ord.
      + auto.
      + ord.
  Qed.
  Lemma gaps_ok m outer : WF m ->
    exists g gs, rm_gaps cmp m outer = Ret g /\
      (forall n, nexts (gp_next cmp) n g = yields n gs) /\ gaps_of (lk m) outer gs.
  Proof.
    intros HW. destruct (gaps_iter_ok m outer HW) as (g & L & N & E & -> & HL & HN & HG).
    exists g, (glist (r_start outer) (r_end outer) N). splits; auto.
    - intros n. apply (nexts_yields _ gp_rel); [apply gp_step|exact HG].
    - apply glist_gaps_of; assumption.
  Qed.

  (** maximality follows from the contract *)
  Lemma gaps_maximal f outer gs : gaps_of f outer gs ->
    forall g r', In g gs ->
      leb (r_start r') (r_start g) = true -> leb (r_end g) (r_end r') = true ->
      (forall k, in_range cmp r' k = true -> in_range cmp outer k = true /\ f k = None) ->
      eqb (r_start r') (r_start g) = true /\ eqb (r_end r') (r_end g) = true.
  Proof.
    intros (H1 & H2 & H3) g r' Hg Hs He Hr.
    destruct (H1 g Hg) as (Hv & _ & _). unfold valid_range in Hv.
    assert (Hno : forall x, In x gs -> forall k, in_range cmp x k = true ->
              leb (r_start r') k = true -> leb (r_end x) (r_start g) = true -> False).
    { intros x Hx k Hk Hrk Hxg. unfold in_range in Hk.
      destruct (SS_In_cases _ _ x g H2 Hx Hg) as [->|[Hlt|Hlt]].
      - ord.
      - destruct (proj2 (H3 (r_end x))) as (y & Hy & Hyk).
        { apply Hr. unfold in_range. ord. }
        unfold in_range in Hyk. destruct (H1 y Hy) as (Hvy & _).
        unfold valid_range in Hvy.
        destruct (SS_In_cases _ _ x y H2 Hx Hy) as [->|[Hxy|Hxy]]; ord.
      - ord. }
    split.
    - destruct (eqb (r_start r') (r_start g)) eqn:E; [reflexivity|exfalso].
      destruct (proj2 (H3 (r_start r'))) as (x & Hx & Hxk).
      { apply Hr. unfold in_range. ord. }
      apply (Hno x Hx (r_start r') Hxk); [ord|].
      unfold in_range in Hxk. destruct (H1 x Hx) as (Hvx & _).
      destruct (SS_In_cases _ _ x g H2 Hx Hg) as [->|[Hlt|Hlt]]; ord.
    - destruct (eqb (r_end r') (r_end g)) eqn:E; [reflexivity|exfalso].
      destruct (proj2 (H3 (r_end g))) as (y & Hy & Hyk).
      { apply Hr. unfold in_range. ord. }
      unfold in_range in Hyk. destruct (H1 y Hy) as (Hvy & _). unfold valid_range in Hvy.
      destruct (SS_In_cases _ _ g y H2 Hg Hy) as [->|[Hxy|Hxy]]; ord.
  Qed.

  Lemma gaps_of_ext f g outer gs : (forall k, f k = None <-> g k = None) ->
    gaps_of f outer gs -> gaps_of g outer gs.
  Proof.
    intros H (H1 & H2 & H3). unfold Spec.gaps_of. splits; auto. intros k. rewrite H3, H. reflexivity.
  Qed.

  (** the gaps are determined by the contract (up to [Eq] keys) *)
  Lemma gaps_empty_outer f outer gs : gaps_of f outer gs ->
    valid_range cmp outer = false -> gs = [].
  Proof.
    intros (H1 & _) Ho. destruct gs as [|g gs]; [reflexivity|exfalso].
    destruct (H1 g (or_introl eq_refl)) as (A1 & A2 & A3). unfold valid_range in *. ord.
  Qed.

  (** ** first / last / iter *)
  Lemma first_ok m : WF m ->
    match rm_first_range_value m with
    | None => m = []
    | Some e => In e m /\ forall x, In x m -> x = e \/ leb (en e) (st x) = true
    end.
  Proof.
    intros HW. destruct m as [|e m]; cbn; [reflexivity|]. split; [left; reflexivity|].
    intros x [->|Hx]; [left; reflexivity|right].
    apply WF_cons in HW as (_ & _ & Hs). apply (Hs x Hx).
  Qed.
  Lemma last_ok m : WF m ->
    match rm_last_range_value m with
    | None => m = []
    | Some e => In e m /\ forall x, In x m -> x = e \/ leb (en x) (st e) = true
    end.
  Proof.
    intros HW. unfold rm_last_range_value.
    destruct (rev_cases m) as [->|(m' & e & ->)]; [reflexivity|]. rewrite last_opt_app.
    split; [apply in_mid|]. intros x Hx. apply in_app_or in Hx as [Hx|[->|[]]]; [right|left; reflexivity].
    apply WF_app in HW as (_ & _ & Hs). apply (Hs x e Hx (or_introl eq_refl)).
  Qed.

  Lemma iter_schedule {A} (l : list A) sched :
    sched_trace (both it_next it_next_back) it_size_hint sched l =
    sched_trace deque_step (fun r => (length r, Some (length r))) sched l.
  Proof. apply (sched_trace_ext (both it_next it_next_back) deque_step). intros d s. apply it_deque. Qed.

  Lemma empty_iff m : WF m -> rm_is_empty m = true <-> forall k, lk m k = None.
  Proof.
    intros HW. destruct m as [|[r v] m]; cbn; [split; reflexivity|].
    split; [discriminate|]. intros H. specialize (H (r_start r)).
    apply WF_cons in HW as (Hr & _). cbn in Hr.
    assert (C : r_contains cmp r (r_start r) = true) by (unfold r_contains; ord).
    rewrite C in H. discriminate.
  Qed.
End Iter.
