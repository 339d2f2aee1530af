(** Exhausted [RangeInclusive]s (C38): the flag has no influence on updates and
    range queries; it only hides the last key of an entry from [get], and is
    seen by [==], [Hash] and [Debug]. *)
From Coq Require Import List Bool Sorting.Sorted.
From Verif Require Import Order Outcome BTree Ranges History Spec MapModel IMapModel ListLemmas IFacts IMapProps.
Import ListNotations.

Section Flags.
  Context {K V : Type} {cmp : K -> K -> comparison} {veqb : V -> V -> bool} {st : stepfns K}.
  Notation fr := (@freshen K).
  Notation fe := (@freshen_entry K V).
  Notation c_start := (cmpi_start cmp).
  Notation c_end := (cmpi_end cmp).

  Definition fres {A B} (F : A -> B) (x : outcome A * imap K V) : outcome B * imap K V :=
    (omap F (fst x), map fe (snd x)).
  Definition hom {A B} (F : A -> B) (c : M (imap K V) A) (c' : M (imap K V) B) : Prop :=
    forall m, c' (map fe m) = fres F (c m).
  Notation id := (fun x : unit => x).

  Lemma hom_ret {A B} (F : A -> B) a : hom F (ret a) (ret (F a)).
  Proof. intros m. reflexivity. Qed.
  Lemma hom_bind {A B C D} (F : A -> B) (G : C -> D) c c' h h' :
    hom F c c' -> (forall a, hom G (h a) (h' (F a))) -> hom G (bind c h) (bind c' h').
  Proof.
    intros H1 H2 m. unfold bind. rewrite H1. unfold fres.
    destruct (c m) as [[a|p|] m1]; cbn; [|reflexivity|reflexivity]. apply H2.
  Qed.
  Lemma hom_get : hom (map fe) get get.
  Proof. intros m. reflexivity. Qed.
  Lemma hom_modify h h' : (forall m, h' (map fe m) = map fe (h m)) -> hom id (modify h) (modify h').
  Proof. intros H m. unfold modify, fres. cbn. rewrite H. reflexivity. Qed.
  Lemma hom_lift {A B} (F : A -> B) o o' : o' = omap F o -> hom F (lift o) (lift o').
  Proof. intros -> m. reflexivity. Qed.
  Lemma hom_lift_id {A} (o : outcome A) : hom (fun x => x) (lift o) (lift o).
  Proof. intros m. unfold fres, lift. cbn. destruct o; reflexivity. Qed.
  Lemma hom_if {A B} (F : A -> B) (b : bool) c d c' d' :
    hom F c c' -> hom F d d' -> hom F (if b then c else d) (if b then c' else d').
  Proof. intros H1 H2. destruct b; assumption. Qed.
  Lemma hom_nofuel {A B} (F : A -> B) : hom F nofuel nofuel.
  Proof. intros m. reflexivity. Qed.
  Lemma hom_assert b : hom id (assert_ b) (assert_ b).
  Proof. destruct b; intros m; reflexivity. Qed.

  Lemma x_bt_insert k v (m : imap K V) :
    bt_insert c_start (fr k) v (map fe m) = map fe (bt_insert c_start k v m).
  Proof.
    induction m as [|[k' v'] m IH]; [reflexivity|]. cbn [map bt_insert freshen_entry fst snd].
    change (c_start (fr k) (fr k')) with (c_start k k').
    destruct (c_start k k'); cbn; rewrite ?IH; reflexivity.
  Qed.
  Lemma x_bt_remove k (m : imap K V) : bt_remove c_start (fr k) (map fe m) = map fe (bt_remove c_start k m).
  Proof.
    induction m as [|[k' v'] m IH]; [reflexivity|]. cbn [map bt_remove freshen_entry fst snd].
    change (c_start (fr k) (fr k')) with (c_start k k').
    destruct (c_start k k'); cbn; rewrite ?IH; reflexivity.
  Qed.
  Definition fb (b : bound (rangei K)) : bound (rangei K) :=
    match b with Unbounded => Unbounded | Included q => Included (fr q) | Excluded q => Excluded (fr q) end.
  Lemma x_take p p' (m : imap K V) : (forall e, p' (fe e) = p e) ->
    take_while p' (map fe m) = map fe (take_while p m).
  Proof. intros H. induction m as [|e m IH]; [reflexivity|]. cbn. rewrite H, IH. destruct (p e); reflexivity. Qed.
  Lemma x_drop p p' (m : imap K V) : (forall e, p' (fe e) = p e) ->
    drop_while p' (map fe m) = map fe (drop_while p m).
  Proof. intros H. induction m as [|e m IH]; [reflexivity|]. cbn. rewrite H, IH. destruct (p e); reflexivity. Qed.
  Lemma x_range c lo hi (m : imap K V) : (forall a b, c (fr a) (fr b) = c a b) ->
    bt_range c (fb lo) (fb hi) (map fe m) = omap (map fe) (bt_range c lo hi m).
  Proof.
    intros Hc. unfold bt_range.
    assert (E : bad_bounds c (fb lo) (fb hi) = bad_bounds c lo hi)
      by (destruct lo, hi; cbn; rewrite ?Hc; reflexivity).
    rewrite E. destruct (bad_bounds c lo hi); [reflexivity|]. cbn. f_equal.
    rewrite (x_drop (fun e => below c lo (fst e)))
      by (intros e; destruct lo; cbn; rewrite ?Hc; reflexivity).
    apply x_take. intros e. destruct hi; cbn; rewrite ?Hc; reflexivity.
  Qed.
  Lemma x_start a b : c_start (fr a) (fr b) = c_start a b. Proof. reflexivity. Qed.
  Lemma x_end a b : c_end (fr a) (fr b) = c_end a b. Proof. reflexivity. Qed.
  Lemma x_last (m : imap K V) : last_opt (map fe m) = option_map fe (last_opt m).
  Proof. unfold last_opt, it_next_back. rewrite <- map_rev. destruct (rev m); reflexivity. Qed.
  Lemma x_filter_o p p' (m : imap K V) : (forall e, p' (fe e) = p e) ->
    filter_o p' (map fe m) = omap (map fe) (filter_o p m).
  Proof.
    intros H. induction m as [|e m IH]; [reflexivity|]. cbn. rewrite H, IH.
    destruct (p e) as [b| |]; cbn; try reflexivity. destruct (filter_o p m) as [x| |]; cbn; try reflexivity.
    destruct b; reflexivity.
  Qed.

  Lemma hom_insert_piece r v :
    hom id (modify (bt_insert c_start r v)) (modify (bt_insert c_start (fr r) v)).
  Proof. apply hom_modify. intros m. apply x_bt_insert. Qed.
  Lemma hom_remove_piece r : hom id (modify (bt_remove c_start r)) (modify (bt_remove c_start (fr r))).
  Proof. apply hom_modify. intros m. apply x_bt_remove. Qed.

  Lemma x_adjust_insert s sv r v :
    hom fr (im_adjust_touching_ranges_for_insert cmp veqb st s sv r v)
           (im_adjust_touching_ranges_for_insert cmp veqb st (fr s) sv (fr r) v).
  Proof.
    unfold im_adjust_touching_ranges_for_insert. apply hom_if.
    - cbn [freshen ri_start ri_end].
      eapply hom_bind; [apply hom_remove_piece|]. intros _.
      exact (hom_ret fr (incl (kmin cmp (ri_start r) (ri_start s)) (kmax cmp (ri_end r) (ri_end s)))).
    - change (ri_overlaps cmp (fr r) (fr s)) with (ri_overlaps cmp r s).
      apply hom_if; [|apply hom_ret].
      eapply hom_bind; [apply hom_remove_piece|]. intros _. cbn [freshen ri_start ri_end].
      eapply hom_bind; [apply hom_if; [|apply (hom_ret id tt)]|].
      { eapply hom_bind; [apply hom_lift_id|]. intros p. exact (hom_insert_piece (incl (ri_start s) p) sv). }
      intros _. eapply hom_bind; [apply hom_if; [|apply (hom_ret id tt)]|].
      { eapply hom_bind; [apply hom_lift_id|]. intros p. exact (hom_insert_piece (incl p (ri_end s)) sv). }
      intros _. exact (hom_ret fr r).
  Qed.
  Lemma x_insert_loop fuel : forall r v e,
    hom fr (im_insert_loop cmp veqb st fuel r v e) (im_insert_loop cmp veqb st fuel (fr r) v (fr e)).
  Proof.
    induction fuel as [|fuel IH]; intros r v e; cbn [im_insert_loop]; [apply hom_nofuel|].
    eapply hom_bind; [apply hom_get|]. intros m.
    eapply hom_bind; [apply hom_lift, (x_range c_start (Included r) Unbounded), x_start|].
    intros [|[s sv] l]; cbn [map it_next fst freshen_entry snd]; [apply hom_ret|].
    cbn [freshen ri_start]. eapply hom_bind; [apply hom_lift_id|]. intros b.
    apply hom_if; [exact (hom_ret fr r)|].
    eapply hom_bind; [apply x_adjust_insert|]. intros new'. apply IH.
  Qed.
  Lemma x_insert r v : hom id (im_insert cmp veqb st r v) (im_insert cmp veqb st (fr r) v).
  Proof.
    unfold im_insert. eapply hom_bind; [apply hom_assert|]. intros _.
    eapply hom_bind; [apply hom_get|]. intros m.
    eapply hom_bind; [apply hom_lift, (x_range c_start Unbounded (Included r)), x_start|].
    intros l. eapply hom_bind.
    { apply hom_lift. rewrite <- map_rev, firstn_map.
      apply (x_filter_o (fun e => ri_touches cmp st (fst e) r)). reflexivity. }
    intros cands. eapply hom_bind.
    { destruct cands as [|[a av] [|[b bv] l']]; cbn [map freshen_entry fst snd];
        [apply (hom_ret fr)|apply x_adjust_insert|apply x_adjust_insert]. }
    intros new1. eapply hom_bind; [apply hom_get|]. intros m1. rewrite map_length.
    eapply hom_bind; [apply (x_insert_loop _ new1 v (incl (ri_end new1) (ri_end new1)))|].
    intros new2. apply hom_insert_piece.
  Qed.
  Lemma x_adjust_remove s (sv : V) r :
    hom id (im_adjust_overlapping_ranges_for_remove cmp st s sv r)
           (im_adjust_overlapping_ranges_for_remove cmp st (fr s) sv (fr r)).
  Proof.
    unfold im_adjust_overlapping_ranges_for_remove.
    eapply hom_bind; [apply hom_remove_piece|]. intros _. cbn [freshen ri_start ri_end].
    eapply hom_bind; [apply hom_if; [|apply (hom_ret id tt)]|].
    { eapply hom_bind; [apply hom_lift_id|]. intros p. exact (hom_insert_piece (incl (ri_start s) p) sv). }
    intros _. apply hom_if; [|apply (hom_ret id tt)].
    eapply hom_bind; [apply hom_lift_id|]. intros p. exact (hom_insert_piece (incl p (ri_end s)) sv).
  Qed.
  Lemma x_remove_loop fuel : forall r e,
    hom id (im_remove_loop cmp st fuel r e) (im_remove_loop cmp st fuel (fr r) (fr e)).
  Proof.
    induction fuel as [|fuel IH]; intros r e; cbn [im_remove_loop]; [apply hom_nofuel|].
    eapply hom_bind; [apply hom_get|]. intros m.
    eapply hom_bind; [apply hom_lift, (x_range c_start (Excluded r) (Included e)), x_start|].
    intros [|[s sv] l]; cbn [map it_next fst freshen_entry snd]; [apply (hom_ret id tt)|].
    eapply hom_bind; [apply x_adjust_remove|]. intros _. apply IH.
  Qed.
  Lemma x_remove r : hom id (im_remove cmp st r) (im_remove cmp st (fr r)).
  Proof.
    unfold im_remove. eapply hom_bind; [apply hom_assert|]. intros _.
    eapply hom_bind; [apply hom_get|]. intros m.
    eapply hom_bind; [apply hom_lift, (x_range c_start Unbounded (Included r)), x_start|].
    intros l. eapply hom_bind.
    - rewrite x_last. destruct (last_opt l) as [[s sv]|]; cbn [option_map freshen_entry fst snd];
        [|apply (hom_ret id tt)].
      apply hom_if; [apply x_adjust_remove|apply (hom_ret id tt)].
    - intros _. eapply hom_bind; [apply hom_get|]. intros m1. rewrite map_length.
      apply (x_remove_loop _ r (incl (ri_end r) (ri_end r))).
  Qed.
  Lemma x_exec o : hom id (im_exec cmp veqb st o) (im_exec cmp veqb st (freshen_op o)).
  Proof.
    destruct o as [r v|r| |l]; cbn [im_exec freshen_op].
    - apply x_insert.
    - apply x_remove.
    - apply hom_modify. reflexivity.
    - unfold im_extend. induction l as [|e l IH]; cbn [map for_each]; [apply (hom_ret id tt)|].
      eapply hom_bind; [apply x_insert|]. intros _. exact IH.
  Qed.
  Lemma x_outcome o m : fst (im_exec cmp veqb st (freshen_op o) (map fe m)) = fst (im_exec cmp veqb st o m).
  Proof. rewrite x_exec. unfold fres. cbn. destruct (fst (im_exec cmp veqb st o m)) as [[]| |]; reflexivity. Qed.
  Notation run := (im_run cmp veqb st).
  Lemma x_run ops : run (map freshen_op ops) = map fe (run ops).
  Proof.
    unfold im_run, run_ops. change (@im_new K V) with (map fe (@im_new K V)) at 1. generalize (@im_new K V).
    induction ops as [|o ops IH]; intros m; cbn [map fold_left]; [reflexivity|].
    rewrite x_exec. apply IH.
  Qed.
  Lemma freshen_fresh ops : fresh_ops (map (@freshen_op K V) ops).
  Proof.
    unfold fresh_ops. induction ops as [|o ops IH]; [reflexivity|]. cbn. rewrite IH, andb_true_r.
    destruct o as [r v|r| |l]; cbn; try reflexivity. induction l as [|e l IHl]; [reflexivity|exact IHl].
  Qed.

  (** ** Range queries *)
  Definition fov (o : overlappingi K V) : overlappingi K V :=
    mkOverlappingI (fr (ovi_query o)) (map fe (ovi_iter o)).
  Lemma x_overlapping m q : im_overlapping cmp (map fe m) (fr q) = omap fov (im_overlapping cmp m q).
  Proof.
    unfold im_overlapping.
    pose proof (x_range c_end (Included (incl (ri_start q) (ri_start q))) Unbounded m x_end) as E.
    cbn [fb] in E. unfold freshen at 1 in E. cbn [incl ri_start ri_end] in E.
    cbn [freshen ri_start]. unfold incl in *. rewrite E.
    destruct (bt_range _ _ _ m) as [l|p|]; reflexivity.
  Qed.
  Lemma x_ov_step d o :
    both (ovi_next cmp) (ovi_next_back cmp) d (fov o) =
    (option_map fe (fst (both (ovi_next cmp) (ovi_next_back cmp) d o)),
     fov (snd (both (ovi_next cmp) (ovi_next_back cmp) d o))).
  Proof.
    destruct o as [q l]. destruct d; cbn [both].
    - destruct l as [|[s sv] l]; unfold ovi_next; cbn; [reflexivity|].
      destruct (leb cmp (ri_start s) (ri_end q)); reflexivity.
    - unfold ovi_next_back. cbn [fov ovi_iter ovi_query]. rewrite <- map_rev.
      assert (E : forall rl, ovi_back_loop cmp (fr q) (map fe rl) =
                    (option_map fe (fst (ovi_back_loop cmp q rl)), map fe (snd (ovi_back_loop cmp q rl)))).
      { induction rl as [|[s sv] rl IH]; [reflexivity|]. cbn.
        destruct (leb cmp (ri_start s) (ri_end q)); [reflexivity|exact IH]. }
      rewrite E. destruct (ovi_back_loop cmp q (rev l)) as [x rl]. cbn. unfold fov. cbn. rewrite map_rev. reflexivity.
  Qed.
  Definition fgp (x : gapsi K V) : gapsi K V :=
    mkGapsI (gpi_needs_plus_one x) (gpi_candidate_start x) (gpi_query_end x) (map fe (gpi_iter x)).
  Lemma x_gaps m q : im_gaps cmp (map fe m) (fr q) = omap fgp (im_gaps cmp m q).
  Proof. unfold im_gaps. rewrite x_overlapping. destruct (im_overlapping cmp m q); reflexivity. Qed.
  Lemma x_gp_next x : gpi_next cmp st (fgp x) = (fst (gpi_next cmp st x), fgp (snd (gpi_next cmp st x))).
  Proof.
    destruct x as [nd c q l]. unfold gpi_next. cbn [fgp gpi_needs_plus_one gpi_candidate_start gpi_query_end gpi_iter].
    assert (E : forall l nd c, gpi_loop cmp st nd c q (map fe l) =
      (fst (fst (fst (gpi_loop cmp st nd c q l))), snd (fst (fst (gpi_loop cmp st nd c q l))),
       snd (fst (gpi_loop cmp st nd c q l)), map fe (snd (gpi_loop cmp st nd c q l)))).
    { clear l nd c. induction l as [|[o ov] l IH]; intros nd c; [reflexivity|].
      cbn [map gpi_loop freshen_entry fst snd freshen ri_start ri_end].
      destruct (ltb cmp q (ri_start o)); [reflexivity|].
      destruct (if nd then step_o (add_one st c) else Ret c) as [cur|p|]; [|reflexivity|reflexivity].
      destruct (ltb cmp cur (ri_start o)); [reflexivity|]. apply IH. }
    rewrite E. destruct (gpi_loop cmp st nd c q l) as [[[o needs] cand] l']. cbn.
    destruct o as [[gap|]|p|]; cbn; try reflexivity.
    destruct needs; [destruct (ltb cmp cand q)|destruct (leb cmp cand q)]; reflexivity.
  Qed.
  Lemma x_traces {S A B R} (stp : side -> S -> option A * S) (stp' : side -> S -> option B * S)
      (f : A -> B) (h : S -> S) :
    (forall d s, stp' d (h s) = (option_map f (fst (stp d s)), h (snd (stp d s)))) ->
    forall (obs : S -> R) (obs' : S -> R), (forall s, obs' (h s) = obs s) ->
    forall sched s, sched_trace stp' obs' sched (h s) =
      map (fun x => (option_map f (fst x), snd x)) (sched_trace stp obs sched s).
  Proof.
    intros H obs obs' Ho. induction sched as [|d sched IH]; intros s; [reflexivity|].
    cbn [sched_trace]. rewrite H. destruct (stp d s) as [x s']. cbn [fst snd map].
    rewrite IH, ?Ho. reflexivity.
  Qed.
  Lemma x_overlapping_all ops q : exists o o',
    im_overlapping cmp (run ops) q = Ret o /\
    im_overlapping cmp (run (map freshen_op ops)) (fr q) = Ret o' /\
    forall sched, sched_trace (both (ovi_next cmp) (ovi_next_back cmp)) (fun _ => tt) sched o' =
      map (fun x => (option_map fe (fst x), snd x))
          (sched_trace (both (ovi_next cmp) (ovi_next_back cmp)) (fun _ => tt) sched o).
  Proof.
    rewrite x_run, x_overlapping. unfold im_overlapping at 1 2. unfold bt_range. cbn.
    eexists. eexists. split; [reflexivity|]. split; [reflexivity|]. intros sched.
    apply (x_traces _ _ fe fov x_ov_step). reflexivity.
  Qed.
  Lemma x_gaps_nexts n : forall g, nexts_m (gpi_next cmp st) n (fgp g) = nexts_m (gpi_next cmp st) n g.
  Proof.
    induction n as [|n IH]; intros g; cbn [nexts_m]; [reflexivity|]. rewrite x_gp_next.
    destruct (gpi_next cmp st g) as [o g']. cbn. rewrite IH. reflexivity.
  Qed.
  Lemma x_gaps_all ops q : exists g g',
    im_gaps cmp (run ops) q = Ret g /\ im_gaps cmp (run (map freshen_op ops)) (fr q) = Ret g' /\
    forall n, nexts_m (gpi_next cmp st) n g' = nexts_m (gpi_next cmp st) n g.
  Proof.
    rewrite x_run, x_gaps. unfold im_gaps, im_overlapping, bt_range. cbn.
    eexists. eexists. split; [reflexivity|]. split; [reflexivity|]. intros n. apply x_gaps_nexts.
  Qed.
  Lemma x_cmp vcmp (m1 m2 : imap K V) : im_cmp cmp vcmp (map fe m1) (map fe m2) = im_cmp cmp vcmp m1 m2.
  Proof.
    unfold im_cmp, im_expanded_iter. rewrite !map_map. reflexivity.
  Qed.

  (** ** Lookups *)
  Context (HO : TotalOrd cmp) (HS : StepLaws cmp st) (HV : PartialEquiv veqb).

  (** the entry a lookup looks at *)
  Definition floor (m : imap K V) (k : K) : outcome (option (rangei K * V)) :=
    omap last_opt (bt_range c_start Unbounded (Included (incl k k)) m).
  Lemma x_floor m k : floor (map fe m) k = omap (option_map fe) (floor m k).
  Proof.
    unfold floor. pose proof (x_range c_start Unbounded (Included (incl k k)) m x_start) as E.
    cbn [fb] in E. change (fr (incl k k)) with (incl k k) in E. rewrite E.
    destruct (bt_range _ _ _ m); cbn; rewrite ?x_last; reflexivity.
  Qed.
  Lemma floor_get m k : im_get_key_value cmp m k =
    obind (floor m k) (fun o => Ret (match o with
      | Some e => if ri_contains cmp (fst e) k then Some e else None | None => None end)).
  Proof.
    unfold im_get_key_value, floor. destruct (bt_range _ _ _ m); reflexivity.
  Qed.
  Lemma floor_ret m k : exists o, floor m k = Ret o /\ forall e, o = Some e -> In e m.
  Proof.
    unfold floor, bt_range. cbn. eexists. split; [reflexivity|]. intros e He.
    unfold last_opt, it_next_back in He.
    destruct (rev _) as [|x l] eqn:E; cbn in He; [discriminate|]. injection He as ->.
    assert (Hin : In e (rev (e :: l))) by (apply -> in_rev; left; reflexivity).
    rewrite <- E, rev_involutive in Hin.
    rewrite <- (take_drop_while (fun _ : rangei K * V => false) m). apply in_or_app. right.
    rewrite <- (take_drop_while (fun e : rangei K * V => negb (above c_start (Included (incl k k)) (fst e)))
                 (drop_while (fun _ : rangei K * V => false) m)).
    apply in_or_app. left. exact Hin.
  Qed.
  Lemma asc_fresh_inj m a b : ascendingi cmp m -> (forall e, In e m -> valid_rangei cmp (fst e) = true) ->
    In a m -> In b m -> fe a = fe b -> a = b.
  Proof.
    intros HA HW Ha Hb E. destruct a as [a av], b as [b bv]. injection E as E1 E2 E3.
    assert (HI : forall x y, In x m -> In y m -> ri_start (fst x) = ri_start (fst y) -> x = y).
    { clear - HA HW HO. induction HA as [|e m HA IH HF]; intros x y Hx Hy E; [contradiction|].
      rewrite Forall_forall in HF.
      assert (HX : forall z, In z m -> ri_start (fst z) = ri_start (fst e) -> False).
      { intros z Hz Ez. pose proof (HF z Hz) as H1. pose proof (HW e (or_introl eq_refl)) as H2.
        rewrite Ez in H1. unfold valid_rangei in H2. ord. }
      destruct Hx as [<-|Hx], Hy as [<-|Hy]; [reflexivity| | |].
      - exfalso. eapply HX; [exact Hy|congruence].
      - exfalso. eapply HX; [exact Hx|congruence].
      - apply IH; auto. intros z Hz. apply HW. right. exact Hz. }
    apply (HI _ _ Ha Hb E1).
  Qed.
  Lemma x_get ops k :
    ((exists e, In e (im_iter (run ops)) /\ ri_exhausted (fst e) = true /\ eqb cmp k (ri_end (fst e)) = true) ->
     im_get_key_value cmp (run ops) k = Ret None) /\
    ((forall e, In e (im_iter (run ops)) -> ri_exhausted (fst e) = true -> eqb cmp k (ri_end (fst e)) = false) ->
     im_get_key_value cmp (run (map freshen_op ops)) k =
     omap (option_map fe) (im_get_key_value cmp (run ops) k)).
  Proof.
    unfold im_iter. destruct (floor_ret (run ops) k) as (o & Eo & Ho). split.
    - intros (e & He & Hx & Hk).
      pose proof (freshen_fresh ops) as HF.
      destruct (iiter_valid_ascending HO HS HV (map freshen_op ops) HF) as (HA & HW).
      assert (HA' : ascendingi cmp (run ops)).
      { unfold im_iter in HA. rewrite x_run in HA. revert HA. unfold ascendingi. generalize (run ops). clear.
        induction i as [|x m IH]; intros H; [constructor|]. cbn in H. apply StronglySorted_inv in H as [H1 H2].
        constructor; [apply IH, H1|]. rewrite Forall_forall in *. intros y Hy.
        exact (H2 (fe y) (in_map fe _ _ Hy)). }
      assert (HW' : forall e, In e (run ops) -> valid_rangei cmp (fst e) = true).
      { intros x Hin. refine (proj1 (HW (fr (fst x)) (snd x) _)). rewrite x_run.
        exact (in_map fe _ _ Hin). }
      assert (G : im_get_key_value cmp (run (map freshen_op ops)) k = Ret (Some (fe e))).
      { apply (proj2 (iget_iff HO HS HV (map freshen_op ops) k _ _ HF)). split.
        - rewrite x_run. exact (in_map fe _ _ He).
        - pose proof (HW' e He) as H1. unfold valid_rangei in H1. unfold in_rangei. cbn. ord. }
      rewrite floor_get, Eo. cbn [obind]. f_equal. rewrite x_run, floor_get, x_floor, Eo in G. cbn in G.
      destruct o as [e0|]; [|reflexivity]. cbn in G.
      destruct (ri_contains cmp (fr (fst e0)) k); [|discriminate]. injection G as G1 G2.
      assert (E : e0 = e).
      { apply (asc_fresh_inj (run ops)); auto. unfold freshen_entry, freshen. congruence. }
      subst e0. unfold ri_contains. rewrite Hx.
      replace (ltb cmp k (ri_end (fst e))) with false by ord. rewrite andb_false_r. reflexivity.
    - intros H. rewrite x_run, !floor_get, x_floor, Eo. cbn. f_equal. destruct o as [e|]; [|reflexivity]. cbn.
      specialize (H e (Ho e eq_refl)). unfold ri_contains. cbn.
      destruct (ri_exhausted (fst e)); [|destruct (_ && _); reflexivity].
      specialize (H eq_refl). replace (leb cmp k (ri_end (fst e))) with (ltb cmp k (ri_end (fst e))) by ord.
      destruct (_ && _); reflexivity.
  Qed.
End Flags.
