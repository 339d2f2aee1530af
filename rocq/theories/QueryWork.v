(** How many items range queries take out of the underlying [BTreeMap] iterator. *)
From Coq Require Import List Bool Sorting.Sorted Arith Lia.
From Verif Require Import ListLemmas Order Outcome BTree Ranges History Spec MapModel IMapModel
  MapProofs MapFacts MapIter IMapProps Exhausted.
Import ListNotations.

Lemma iter_S {A} n (f : A -> A) a : Nat.iter (S n) f a = f (Nat.iter n f a).
Proof. reflexivity. Qed.
Lemma skipn_next {A} n : forall l : list A, skipn 1 (skipn n l) = skipn (S n) l.
Proof. induction n as [|n IH]; intros [|a l]; try reflexivity. exact (IH l). Qed.
Notation count p l := (length (filter p l)).
Lemma count_app {A} (p : A -> bool) l1 l2 : count p (l1 ++ l2) = count p l1 + count p l2.
Proof. rewrite filter_app, app_length. reflexivity. Qed.
Lemma drop_while_filter {A} (R : A -> A -> Prop) (p : A -> bool) l : StronglySorted R l ->
  (forall a b, In a l -> In b l -> R a b -> p b = true -> p a = true) ->
  drop_while p l = filter (fun a => negb (p a)) l.
Proof.
  intros HS Hd. destruct (split_sorted R p l HS Hd) as (L & N & E & H1 & H2 & _ & H4).
  rewrite H4, E, filter_app. rewrite filter_all_false, filter_all_true; [reflexivity| |].
  - intros a Ha. rewrite (H2 a Ha). reflexivity.
  - intros a Ha. rewrite (H1 a Ha). reflexivity.
Qed.

Section Half.
  Context {K V : Type} {cmp : K -> K -> comparison} {veqb : V -> V -> bool}.
  Notation far q := (fun e : range K * V => leb cmp (r_end q) (r_start (fst e))).
  Notation near qend := (fun e : range K * V => ltb cmp (r_start (fst e)) qend).

  Lemma q_next (o : overlapping K V) : ov_iter (snd (ov_next cmp o)) = skipn 1 (ov_iter o).
  Proof. destruct o as [q [|e l]]; reflexivity. Qed.
  Lemma q_nexts n : forall o : overlapping K V,
    ov_iter (Nat.iter n (fun o => snd (ov_next cmp o)) o) = skipn n (ov_iter o).
  Proof.
    induction n as [|n IH]; intros o; [reflexivity|]. rewrite iter_S, q_next, IH. apply skipn_next.
  Qed.
  Context (HO : TotalOrd cmp) (HV : PartialEquiv veqb).
  Lemma q_back q rl : length rl <= length (snd (ov_back_loop (V := V) cmp q rl)) + 1 +
    (count (far q) rl - count (far q) (snd (ov_back_loop cmp q rl))) /\
    count (far q) (snd (ov_back_loop cmp q rl)) <= count (far q) rl.
  Proof.
    induction rl as [|e rl IH]; cbn [ov_back_loop filter length snd]; [lia|].
    destruct (ltb cmp (r_start (fst e)) (r_end q)) eqn:El; cbn [snd].
    - replace (leb cmp (r_end q) (r_start (fst e))) with false by (symmetry; ord). lia.
    - replace (leb cmp (r_end q) (r_start (fst e))) with true by (symmetry; ord). cbn [length]. lia.
  Qed.
  Lemma q_sched sched : forall o : overlapping K V,
    length (ov_iter o) <= length (ov_iter (sched_end (both (ov_next cmp) (ov_next_back cmp)) sched o))
      + length sched + count (far (ov_query o)) (ov_iter o).
  Proof.
    induction sched as [|d sched IH]; intros o; cbn [sched_end length]; [lia|].
    specialize (IH (snd (both (ov_next cmp) (ov_next_back cmp) d o))).
    assert (E : ov_query (snd (both (ov_next cmp) (ov_next_back cmp) d o)) = ov_query o).
    { destruct o as [q l]. destruct d; cbn [both].
      - destruct l; reflexivity.
      - unfold ov_next_back. cbn [ov_query ov_iter]. destruct (ov_back_loop cmp q (rev l)). reflexivity. }
    rewrite E in IH.
    assert (Hs : length (ov_iter o) + count (far (ov_query o)) (ov_iter (snd (both (ov_next cmp) (ov_next_back cmp) d o)))
      <= length (ov_iter (snd (both (ov_next cmp) (ov_next_back cmp) d o))) + 1 + count (far (ov_query o)) (ov_iter o)).
    { clear - HO. destruct o as [q l]. destruct d; cbn [both].
      - destruct l as [|e l]; cbn [ov_next ov_iter ov_query it_next snd length filter]; [lia|].
        destruct (leb cmp (r_end q) (r_start (fst e))); cbn [length]; lia.
      - unfold ov_next_back. cbn [ov_query ov_iter]. pose proof (q_back q (rev l)) as H.
        destruct (ov_back_loop cmp q (rev l)) as [x rl]. cbn [snd ov_iter] in *.
        assert (R : forall l : list (range K * V), count (far q) (rev l) = count (far q) l).
        { clear. induction l as [|e l IH]; [reflexivity|]. cbn [rev]. rewrite count_app. cbn [filter].
          destruct (leb cmp (r_end q) (r_start (fst e))); cbn [length]; lia. }
        rewrite !R, rev_length in H. rewrite R, rev_length. lia. }
    lia.
  Qed.
  Lemma g_loop qend l : forall cand,
    length l + count (near qend) (snd (gp_loop (V := V) cmp cand qend l)) <=
    length (snd (gp_loop cmp cand qend l)) + 1 + count (near qend) l.
  Proof.
    induction l as [|[r v] l IH]; intros cand; cbn [gp_loop filter length snd fst]; [lia|].
    destruct (leb cmp qend (r_start r)) eqn:El; cbn [snd].
    - destruct (ltb cmp (r_start r) qend); cbn [length]; lia.
    - replace (ltb cmp (r_start r) qend) with true by (symmetry; ord). cbn [length].
      destruct (ltb cmp cand (r_start r)); cbn [snd]; [lia|]. specialize (IH (r_end r)). lia.
  Qed.
  Lemma g_next (g : gaps K V) : gp_query_end (snd (gp_next cmp g)) = gp_query_end g /\
    gp_iter (snd (gp_next cmp g)) = snd (gp_loop cmp (gp_candidate_start g) (gp_query_end g) (gp_iter g)).
  Proof.
    unfold gp_next. destruct (gp_loop _ _ _ _) as [[[x|] c] l]; cbn; [auto|]. destruct (ltb cmp c (gp_query_end g)); auto.
  Qed.
  Lemma g_nexts n : forall g : gaps K V,
    gp_query_end (Nat.iter n (fun g => snd (gp_next cmp g)) g) = gp_query_end g /\
    length (gp_iter g) + count (near (gp_query_end g)) (gp_iter (Nat.iter n (fun g => snd (gp_next cmp g)) g)) <=
    length (gp_iter (Nat.iter n (fun g => snd (gp_next cmp g)) g)) + n + count (near (gp_query_end g)) (gp_iter g).
  Proof.
    induction n as [|n IH]; intros g; [cbn; split; [reflexivity|lia]|].
    destruct (IH g) as [I1 I2]. rewrite iter_S. revert I1 I2.
    set (h := Nat.iter n (fun g0 => snd (gp_next cmp g0)) g). intros I1 I2.
    destruct (g_next h) as [E1 E2]. rewrite E1, E2, I1. split; [reflexivity|].
    pose proof (g_loop (gp_query_end g) (gp_iter h) (gp_candidate_start h)). lia.
  Qed.

  Notation run := (rm_run cmp veqb).
  Lemma q_seek ops q : rm_overlapping cmp (run ops) q =
    Ret (mkOverlapping q (filter (fun e => ltb cmp (r_start q) (r_end (fst e))) (run ops))).
  Proof.
    pose proof (run_WF HO HV ops) as HW.
    destruct (overlapping_split (veqb := veqb) HO (run ops) q HW) as (L & N & E & HL & HN & ->).
    rewrite E, filter_app, filter_all_false, filter_all_true; [reflexivity| |].
    - exact HN.
    - intros a Ha. specialize (HL a Ha). ord.
  Qed.
  Lemma q_half ops q : exists o, rm_overlapping cmp (run ops) q = Ret o /\
    ov_iter o = filter (fun e => ltb cmp (r_start q) (r_end (fst e))) (run ops) /\
    (forall n, ov_iter (Nat.iter n (fun o => snd (ov_next cmp o)) o) = skipn n (ov_iter o)) /\
    (forall sched, length (ov_iter o) <=
      length (ov_iter (sched_end (both (ov_next cmp) (ov_next_back cmp)) sched o)) + length sched
      + count (far q) (run ops)).
  Proof.
    eexists. split; [apply q_seek|]. cbn [ov_iter]. split; [reflexivity|]. split; [intros n; apply q_nexts|].
    intros sched. pose proof (q_sched sched (mkOverlapping q (filter (fun e => ltb cmp (r_start q) (r_end (fst e))) (run ops)))) as H.
    cbn [ov_iter ov_query] in H. etransitivity; [exact H|]. apply Nat.add_le_mono_l.
    clear. induction (run ops) as [|e l IH]; cbn [filter length]; [lia|].
    destruct (ltb cmp (r_start q) (r_end (fst e))); cbn [filter]; destruct (leb cmp (r_end q) (r_start (fst e))); cbn [length]; lia.
  Qed.
  Lemma g_half ops q : exists g, rm_gaps cmp (run ops) q = Ret g /\
    gp_iter g = filter (fun e => ltb cmp (r_start q) (r_end (fst e))) (run ops) /\
    (forall n, length (gp_iter g) <= length (gp_iter (Nat.iter n (fun g => snd (gp_next cmp g)) g)) + n
      + count (fun e => meets cmp q (fst e)) (run ops)).
  Proof.
    unfold rm_gaps. rewrite q_seek. cbn [omap obind]. eexists. split; [reflexivity|]. cbn [gp_iter ov_iter].
    split; [reflexivity|]. intros n.
    match goal with |- _ <= length (gp_iter (Nat.iter n _ ?g)) + _ + _ => destruct (g_nexts n g) as [_ H] end.
    cbn [gp_iter gp_query_end] in H.
    assert (E : count (near (r_end q)) (filter (fun e => ltb cmp (r_start q) (r_end (fst e))) (run ops)) =
      count (fun e => meets cmp q (fst e)) (run ops)).
    { clear. induction (run ops) as [|e l IH]; [reflexivity|]. cbn [filter]. unfold meets at 1.
      destruct (ltb cmp (r_start q) (r_end (fst e))), (ltb cmp (r_start (fst e)) (r_end q)) eqn:E2; cbn [andb filter]; rewrite ?E2; cbn [length]; rewrite ?IH; reflexivity. }
    rewrite E in H. lia.
  Qed.
End Half.
Section Incl.
  Context {K V : Type} {cmp : K -> K -> comparison} {veqb : V -> V -> bool} {st : stepfns K}.
  Notation far q := (fun e : rangei K * V => ltb cmp (ri_end q) (ri_start (fst e))).
  Notation near qend := (fun e : rangei K * V => leb cmp (ri_start (fst e)) qend).

  Lemma qi_next (o : overlappingi K V) : ovi_iter (snd (ovi_next cmp o)) = skipn 1 (ovi_iter o).
  Proof. destruct o as [q [|e l]]; reflexivity. Qed.
  Lemma qi_nexts n : forall o : overlappingi K V,
    ovi_iter (Nat.iter n (fun o => snd (ovi_next cmp o)) o) = skipn n (ovi_iter o).
  Proof.
    induction n as [|n IH]; intros o; [reflexivity|]. rewrite iter_S, qi_next, IH. apply skipn_next.
  Qed.
  Context (HO : TotalOrd cmp) (HS : StepLaws cmp st) (HV : PartialEquiv veqb).
  Lemma qi_back q rl : length rl <= length (snd (ovi_back_loop (V := V) cmp q rl)) + 1 +
    (count (far q) rl - count (far q) (snd (ovi_back_loop cmp q rl))) /\
    count (far q) (snd (ovi_back_loop cmp q rl)) <= count (far q) rl.
  Proof.
    induction rl as [|e rl IH]; cbn [ovi_back_loop filter length snd]; [lia|].
    destruct (leb cmp (ri_start (fst e)) (ri_end q)) eqn:El; cbn [snd].
    - replace (ltb cmp (ri_end q) (ri_start (fst e))) with false by (symmetry; ord). lia.
    - replace (ltb cmp (ri_end q) (ri_start (fst e))) with true by (symmetry; ord). cbn [length]. lia.
  Qed.
  Lemma qi_sched sched : forall o : overlappingi K V,
    length (ovi_iter o) <= length (ovi_iter (sched_end (both (ovi_next cmp) (ovi_next_back cmp)) sched o))
      + length sched + count (far (ovi_query o)) (ovi_iter o).
  Proof.
    induction sched as [|d sched IH]; intros o; cbn [sched_end length]; [lia|].
    specialize (IH (snd (both (ovi_next cmp) (ovi_next_back cmp) d o))).
    assert (E : ovi_query (snd (both (ovi_next cmp) (ovi_next_back cmp) d o)) = ovi_query o).
    { destruct o as [q l]. destruct d; cbn [both].
      - destruct l; reflexivity.
      - unfold ovi_next_back. cbn [ovi_query ovi_iter]. destruct (ovi_back_loop cmp q (rev l)). reflexivity. }
    rewrite E in IH.
    assert (Hs : length (ovi_iter o) + count (far (ovi_query o)) (ovi_iter (snd (both (ovi_next cmp) (ovi_next_back cmp) d o)))
      <= length (ovi_iter (snd (both (ovi_next cmp) (ovi_next_back cmp) d o))) + 1 + count (far (ovi_query o)) (ovi_iter o)).
    { clear - HO. destruct o as [q l]. destruct d; cbn [both].
      - destruct l as [|e l]; cbn [ovi_next ovi_iter ovi_query it_next snd length filter]; [lia|].
        destruct (ltb cmp (ri_end q) (ri_start (fst e))); cbn [length]; lia.
      - unfold ovi_next_back. cbn [ovi_query ovi_iter]. pose proof (qi_back q (rev l)) as H.
        destruct (ovi_back_loop cmp q (rev l)) as [x rl]. cbn [snd ovi_iter] in *.
        assert (R : forall l : list (rangei K * V), count (far q) (rev l) = count (far q) l).
        { clear. induction l as [|e l IH]; [reflexivity|]. cbn [rev]. rewrite count_app. cbn [filter].
          destruct (ltb cmp (ri_end q) (ri_start (fst e))); cbn [length]; lia. }
        rewrite !R, rev_length in H. rewrite R, rev_length. lia. }
    lia.
  Qed.
  Lemma gi_loop qend l : forall needs cand,
    length l + count (near qend) (snd (gpi_loop (V := V) cmp st needs cand qend l)) <=
    length (snd (gpi_loop cmp st needs cand qend l)) + 1 + count (near qend) l.
  Proof.
    induction l as [|[r v] l IH]; intros needs cand; cbn [gpi_loop filter length snd fst]; [lia|].
    destruct (ltb cmp qend (ri_start r)) eqn:El; cbn [snd].
    - destruct (leb cmp (ri_start r) qend); cbn [length]; lia.
    - replace (leb cmp (ri_start r) qend) with true by (symmetry; ord). cbn [length].
      destruct (if needs then step_o (add_one st cand) else Ret cand) as [cur|p|]; cbn [snd]; [|lia|lia].
      destruct (ltb cmp cur (ri_start r)); cbn [snd]; [lia|]. specialize (IH true (ri_end r)). lia.
  Qed.
  Lemma gi_next (g : gapsi K V) : gpi_query_end (snd (gpi_next cmp st g)) = gpi_query_end g /\
    gpi_iter (snd (gpi_next cmp st g)) =
      snd (gpi_loop cmp st (gpi_needs_plus_one g) (gpi_candidate_start g) (gpi_query_end g) (gpi_iter g)).
  Proof.
    unfold gpi_next. destruct (gpi_loop _ _ _ _ _ _) as [[[[[x|]|p|] nd] c] l]; cbn; auto.
    destruct nd; [destruct (ltb cmp c (gpi_query_end g))|destruct (leb cmp c (gpi_query_end g))]; auto.
  Qed.
  Lemma gi_nexts n : forall g : gapsi K V,
    gpi_query_end (Nat.iter n (fun g => snd (gpi_next cmp st g)) g) = gpi_query_end g /\
    length (gpi_iter g) + count (near (gpi_query_end g)) (gpi_iter (Nat.iter n (fun g => snd (gpi_next cmp st g)) g)) <=
    length (gpi_iter (Nat.iter n (fun g => snd (gpi_next cmp st g)) g)) + n + count (near (gpi_query_end g)) (gpi_iter g).
  Proof.
    induction n as [|n IH]; intros g; [cbn; split; [reflexivity|lia]|].
    destruct (IH g) as [I1 I2]. rewrite iter_S. revert I1 I2.
    set (h := Nat.iter n (fun g0 => snd (gpi_next cmp st g0)) g). intros I1 I2.
    destruct (gi_next h) as [E1 E2]. rewrite E1, E2, I1. split; [reflexivity|].
    pose proof (gi_loop (gpi_query_end g) (gpi_iter h) (gpi_needs_plus_one h) (gpi_candidate_start h)). lia.
  Qed.

  Notation run := (im_run cmp veqb st).
  Lemma qi_seek ops q : im_overlapping cmp (run ops) q =
    Ret (mkOverlappingI q (filter (fun e => leb cmp (ri_start q) (ri_end (fst e))) (run ops))).
  Proof.
    pose proof (iiter_valid_ascending HO HS HV (map freshen_op ops) (freshen_fresh ops)) as [HA HW].
    unfold im_iter in HA, HW. rewrite x_run in HA, HW.
    unfold im_overlapping, bt_range. cbn [bad_bounds obind]. do 2 f_equal.
    rewrite take_while_all by (intros; reflexivity).
    rewrite (drop_while_filter (fun a b => ltb cmp (ri_end (fst a)) (ri_start (fst b)) = true)).
    - apply filter_ext. intros e. cbn. unfold cmpi_end. cbn. pose proof HO as HO'.
      assert (E : leb cmp (ri_start q) (ri_end (fst e)) = negb (ltb cmp (ri_end (fst e)) (ri_start q))) by ord.
      rewrite E. unfold ltb. destruct (cmp (ri_end (fst e)) (ri_start q)); reflexivity.
    - revert HA. unfold ascendingi. generalize (run ops). clear.
      intros l. induction l as [|e l IH]; intros H; [constructor|]. cbn [map] in H. apply SS_cons in H as [H1 H2].
      apply SS_cons. split; [auto|]. intros b Hb. apply (H2 (freshen_entry b)). apply in_map. exact Hb.
    - intros a b Ha Hb Hab. cbn. unfold cmpi_end. cbn. intros Hp.
      pose proof (in_map freshen_entry _ _ Hb) as Hb'. destruct b as [b bv]. cbn [freshen_entry fst snd] in *.
      destruct (HW _ _ Hb') as [Hv _]. unfold valid_rangei in Hv. cbn [freshen ri_start ri_end fst] in Hv. apply negb_true_iff in Hv.
      assert (Hp' : ltb cmp (ri_end b) (ri_start q) = true) by (unfold ltb; destruct (cmp (ri_end b) (ri_start q)); congruence).
      assert (G : ltb cmp (ri_end (fst a)) (ri_start q) = true) by (clear - HO Hab Hp' Hv; ord).
      unfold ltb in G. destruct (cmp (ri_end (fst a)) (ri_start q)); congruence.
  Qed.
  Lemma qi_half ops q : exists o, im_overlapping cmp (run ops) q = Ret o /\
    ovi_iter o = filter (fun e => leb cmp (ri_start q) (ri_end (fst e))) (run ops) /\
    (forall n, ovi_iter (Nat.iter n (fun o => snd (ovi_next cmp o)) o) = skipn n (ovi_iter o)) /\
    (forall sched, length (ovi_iter o) <=
      length (ovi_iter (sched_end (both (ovi_next cmp) (ovi_next_back cmp)) sched o)) + length sched
      + count (far q) (run ops)).
  Proof.
    eexists. split; [apply qi_seek|]. cbn [ovi_iter]. split; [reflexivity|]. split; [intros n; apply qi_nexts|].
    intros sched. pose proof (qi_sched sched (mkOverlappingI q (filter (fun e => leb cmp (ri_start q) (ri_end (fst e))) (run ops)))) as H.
    cbn [ovi_iter ovi_query] in H. etransitivity; [exact H|]. apply Nat.add_le_mono_l.
    clear. induction (run ops) as [|e l IH]; cbn [filter length]; [lia|].
    destruct (leb cmp (ri_start q) (ri_end (fst e))); cbn [filter]; destruct (ltb cmp (ri_end q) (ri_start (fst e))); cbn [length]; lia.
  Qed.
  Lemma gi_half ops q : exists g, im_gaps cmp (run ops) q = Ret g /\
    gpi_iter g = filter (fun e => leb cmp (ri_start q) (ri_end (fst e))) (run ops) /\
    (forall n, length (gpi_iter g) <= length (gpi_iter (Nat.iter n (fun g => snd (gpi_next cmp st g)) g)) + n
      + count (fun e => meetsi cmp q (fst e)) (run ops)).
  Proof.
    unfold im_gaps. rewrite qi_seek. cbn [omap obind]. eexists. split; [reflexivity|]. cbn [gpi_iter ovi_iter].
    split; [reflexivity|]. intros n.
    match goal with |- _ <= length (gpi_iter (Nat.iter n _ ?g)) + _ + _ => destruct (gi_nexts n g) as [_ H] end.
    cbn [gpi_iter gpi_query_end] in H.
    assert (E : count (near (ri_end q)) (filter (fun e => leb cmp (ri_start q) (ri_end (fst e))) (run ops)) =
      count (fun e => meetsi cmp q (fst e)) (run ops)).
    { clear. induction (run ops) as [|e l IH]; [reflexivity|]. cbn [filter]. unfold meetsi at 1.
      destruct (leb cmp (ri_start q) (ri_end (fst e))), (leb cmp (ri_start (fst e)) (ri_end q)) eqn:E2; cbn [andb filter]; rewrite ?E2; cbn [length]; rewrite ?IH; reflexivity. }
    rewrite E in H. lia.
  Qed.
End Incl.
