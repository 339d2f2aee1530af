(** [RangeInclusiveMap] updates whose questions [==] and [!=] are answered in any
    way (AskModel.v), with ranges that may be exhausted: AskFacts.v carried over by
    AskSim.v. *)
From Coq Require Import List Bool Sorting.Sorted Lia.
From Verif Require Import Order Outcome BTree SearchTree Ranges History Spec SpecExact MapModel IMapModel StepModel
  ListLemmas MapProofs MapRemove AnyEq MapFacts MapIter ISim Cuts IFacts IMapProps CrashModel CrashFacts CrashSim
  CrashProps Exhausted ExhaustedCrash ExhaustedEq IExact CrashAny AnyFacts AnyCrash AnyCrashIncl AskModel AskFacts AskSim.
Import ListNotations.

Section Incl.
  Context {K V : Type} {cmp : K -> K -> comparison} {st : stepfns K}.
  Context (HO : TotalOrd cmp) (HS : StepLaws cmp st).
  Notation never := (fun _ _ : V => false).
  Notation always := (fun _ _ : V => true).
  Notation const b := (fun _ _ : V => b).
  Notation entry := (rangei K * V)%type.
  Notation s0 e := (ri_start (fst e)).
  Notation e0 e := (ri_end (fst e)).
  Notation fr := (@freshen K).
  Notation fe := (@freshen_entry K V).
  Notation covers := (in_rangei cmp).
  Notation c_start := (cmpi_start cmp).
  Notation qexec := (@imq_exec K V cmp st).
  Notation WWi := (@WFi K (cut K) V (cmp_cut cmp st) never Before After).
  Notation Rm := (@Rm K (cut K) V (cmp_cut cmp st) Before After).
  Notation enc_op := (@enc_op K (cut K) V Before After).
  Notation encr := (@ISim.encr K (cut K) Before After).
  Notation ence := (@ISim.ence K (cut K) V Before After).
  Notation HC := (cuts cmp st HO HS).
  Notation HO' := (cut_order cmp st HO HS).
  Notation no_more := (@no_more K V cmp).
  Notation alive x e :=
    (exists y, In y x /\ eqb cmp (s0 y) (s0 e) = true /\ eqb cmp (e0 y) (e0 e) = true /\ snd y = snd e).
  Notation yes bs := (length (filter (fun b : bool => b) bs)).
  Notation J m := (WWi (map fe m)).

  (** ** The recorded states are one [BTreeMap] modification apart *)
  Notation step := (@bt_step (rangei K) V c_start).
  Lemma qch_bind {A B} (c : Q (imap K V) A) (f : A -> Q (imap K V) B) bs :
    (forall bs, chained step (c bs)) -> (forall a bs, chained step (f a bs)) -> chained step (qbind c f bs).
  Proof. intros H1 H2. apply ch_bind; [apply H1|]. intros a. apply H2. Qed.
  Lemma qch_lift {A} (c : C (imap K V) A) bs : chained step c -> chained step (qlift c bs).
  Proof. intros H. apply ch_bind; [exact H|]. intros a. apply ch_ret. Qed.
  Lemma qch_ask bs : chained step (ask bs).
  Proof. destruct bs; [apply ch_nofuel|apply ch_ret]. Qed.
  Lemma qch_adjust s sv r v bs : chained step (imq_adjust_touching_ranges_for_insert cmp st s sv r v bs).
  Proof. apply qch_bind; [apply qch_ask|]. intros b bs'. apply qch_lift, ch_iadjust. Qed.
  Lemma qch_insert r v bs : chained step (imq_insert cmp st r v bs).
  Proof.
    assert (HL : forall n x cur bs, chained step (imq_insert_loop cmp st n cur v x bs)).
    { induction n as [|n IH]; intros x cur bs0; cbn [imq_insert_loop]; [apply ch_nofuel|].
      apply qch_bind; [intros; apply qch_lift, ch_get|]. intros m bs1.
      apply qch_bind; [intros; apply qch_lift, ch_lift|]. intros l bs2.
      destruct (fst (it_next l)) as [[s sv]|]; [|apply ch_ret].
      apply qch_bind.
      - intros bs3. destruct (gtb _ _ _); [|apply ch_ret]. apply qch_bind; [intros; apply qch_lift, ch_lift|].
        intros a bs4. destruct (gtb _ _ _); [apply ch_ret|]. destruct (eqb _ _ _); [apply qch_ask|apply ch_ret].
      - intros b bs3. destruct b; [apply ch_ret|]. apply qch_bind; [intros; apply qch_adjust|]. intros a bs4. apply IH. }
    unfold imq_insert.
    apply qch_bind; [intros; apply qch_lift, ch_assert|]. intros _ bs1.
    apply qch_bind; [intros; apply qch_lift, ch_get|]. intros m bs2.
    apply qch_bind; [intros; apply qch_lift, ch_lift|]. intros l bs3.
    apply qch_bind; [intros; apply qch_lift, ch_lift|]. intros c bs4.
    apply qch_bind; [intros; destruct c as [|[s sv] [|[t tv] l']]; [apply ch_ret|apply qch_adjust|apply qch_adjust]|].
    intros n1 bs5. apply qch_bind; [intros; apply HL|]. intros n2 bs6. apply qch_lift, ch_modify. intros. apply step_insert.
  Qed.
  Lemma ch_tracked {A} (c : C (imap K V) A) : chained step c -> tracked c.
  Proof. intros H m. apply (proj2 (H m)). Qed.
  Lemma qt_exec_incl o bs : tracked (qexec o bs).
  Proof.
    destruct o as [r v|r| |l]; cbn [imq_exec].
    - apply ch_tracked, qch_insert.
    - apply ch_tracked, qch_lift, ch_iremove.
    - apply qt_lift, t_modify.
    - apply ch_tracked. unfold imq_extend. revert bs. induction l as [|e l IH]; intros bs; [apply ch_ret|].
      cbn [qfor_each]. apply qch_bind; [intros; apply qch_insert|]. intros _ bs'. apply IH.
  Qed.
  Lemma qlast_in {S A} (c : C S A) m : tracked c -> In (snd (snd (c m))) (crash_states c m).
  Proof.
    intros H. rewrite <- (H m). unfold crash_states. destruct (fst (c m)) as [|a l] using rev_ind; [left; reflexivity|].
    rewrite last_last. right. apply in_or_app. right. left. reflexivity.
  Qed.

  (** ** The flag has no influence *)
  Notation wi F := (fun x => (F (fst x), snd x)).
  Notation id := (fun x : unit => x).
  Definition qhom {A B} (F : A -> B) (c : Q (imap K V) A) (c' : Q (imap K V) B) : Prop :=
    forall bs, chom (fun x => (F (fst x), snd x)) (c bs) (c' bs).
  Lemma qhom_ret {A B} (F : A -> B) a : qhom F (qret a) (qret (F a)).
  Proof. intros bs. exact (chom_ret (fun x => (F (fst x), snd x)) (a, bs)). Qed.
  Lemma qhom_bind {A B X Y} (F : A -> B) (G : X -> Y) c c' h h' :
    qhom F c c' -> (forall a, qhom G (h a) (h' (F a))) -> qhom G (qbind c h) (qbind c' h').
  Proof. intros H1 H2 bs. eapply chom_bind; [apply H1|]. intros [a bs']. apply H2. Qed.
  Lemma qhom_lift {A B} (F : A -> B) c c' : chom F c c' -> qhom F (qlift c) (qlift c').
  Proof.
    intros H bs. eapply chom_bind; [exact H|]. intros a. exact (chom_ret (fun x => (F (fst x), snd x)) (a, bs)).
  Qed.
  Lemma qhom_ask : qhom (fun b => b) ask ask.
  Proof.
    intros [|b bs]; [apply chom_nofuel|]. exact (chom_ret (fun x => (fst x, snd x)) (b, bs)).
  Qed.
  Lemma qhom_if {A B} (F : A -> B) (b : bool) c d c' d' :
    qhom F c c' -> qhom F d d' -> qhom F (if b then c else d) (if b then c' else d').
  Proof. destruct b; auto. Qed.
  Lemma qhom_adjust s sv r v :
    qhom fr (imq_adjust_touching_ranges_for_insert cmp st s sv r v)
            (imq_adjust_touching_ranges_for_insert cmp st (fr s) sv (fr r) v).
  Proof. eapply qhom_bind; [apply qhom_ask|]. intros b. apply qhom_lift, cx_adjust_insert. Qed.
  Lemma qhom_loop fuel : forall r v e,
    qhom fr (imq_insert_loop cmp st fuel r v e) (imq_insert_loop cmp st fuel (fr r) v (fr e)).
  Proof.
    induction fuel as [|fuel IH]; intros r v e; cbn [imq_insert_loop]; [intros bs; apply chom_nofuel|].
    eapply qhom_bind; [apply qhom_lift, chom_get|]. intros m.
    eapply qhom_bind; [apply qhom_lift, chom_lift, (x_range c_start (Included r) Unbounded), x_start|].
    intros [|[s sv] l]; cbn [map it_next fst freshen_entry snd]; [apply qhom_ret|].
    cbn [freshen ri_start]. eapply (qhom_bind (fun b => b)).
    { apply qhom_if; [|apply (qhom_ret (fun b => b))].
      eapply qhom_bind; [apply qhom_lift, chom_lift_id|]. intros a.
      apply qhom_if; [apply (qhom_ret (fun b => b))|]. apply qhom_if; [apply qhom_ask|apply (qhom_ret (fun b => b))]. }
    intros b. apply qhom_if; [exact (qhom_ret fr r)|].
    eapply qhom_bind; [apply qhom_adjust|]. intros new'. apply IH.
  Qed.
  Lemma qhom_insert r v : qhom id (imq_insert cmp st r v) (imq_insert cmp st (fr r) v).
  Proof.
    unfold imq_insert. eapply qhom_bind; [apply qhom_lift, chom_assert|]. intros _.
    eapply qhom_bind; [apply qhom_lift, chom_get|]. intros m.
    eapply qhom_bind; [apply qhom_lift, chom_lift, (x_range c_start Unbounded (Included r)), x_start|].
    intros l. eapply qhom_bind.
    { apply qhom_lift, chom_lift. rewrite <- map_rev, firstn_map.
      apply (x_filter_o (fun e => ri_touches cmp st (fst e) r)). reflexivity. }
    intros cands. eapply qhom_bind.
    { destruct cands as [|[a av] [|[b bv] l']]; cbn [map freshen_entry fst snd];
        [apply (qhom_ret fr)|apply qhom_adjust|apply qhom_adjust]. }
    intros new1.
    eapply (qhom_bind fr); [intros bs; apply (qhom_loop _ new1 v (incl (ri_end new1) (ri_end new1)))|].
    intros new2. apply qhom_lift, chom_insert_piece.
  Qed.
  Lemma qhom_exec o : qhom id (qexec o) (qexec (freshen_op o)).
  Proof.
    destruct o as [r v|r| |l]; cbn [imq_exec freshen_op].
    - apply qhom_insert.
    - apply qhom_lift, cx_remove.
    - apply qhom_lift, chom_modify. reflexivity.
    - unfold imq_extend. induction l as [|e l IH]; cbn [map qfor_each]; [apply (qhom_ret id tt)|].
      eapply qhom_bind; [apply qhom_insert|]. intros _. exact IH.
  Qed.
  Lemma q_states o bs m :
    crash_states (qexec (freshen_op o) bs) (map fe m) = map (map fe) (crash_states (qexec o bs) m).
  Proof. unfold crash_states. rewrite (qhom_exec o bs). reflexivity. Qed.
  Lemma fresh_freshen (o : op (rangei K) V) : fresh_op (freshen_op o) = true.
  Proof. pose proof (freshen_fresh [o]) as H. unfold fresh_ops in H. cbn in H. rewrite andb_true_r in H. exact H. Qed.

  (** ** Every state of every call *)
  Lemma qexec_crash_fresh o bs m x : fresh_op o = true -> WWi m -> In x (crash_states (qexec o bs) m) -> WWi x.
  Proof.
    intros Hf HW Hx. destruct (WFi_sim HO' m HW) as [H1 H3].
    destruct (crash_sim _ _ _ _ _ _ H1 (q_exec_sim HC HO' o bs m _ H1 H3 Hf) Hx) as (x' & Hx' & H2).
    eapply (Rm_WFi HO'); [exact H2|]. apply (qexec_crash HO' _ _ _ _ H3 Hx').
  Qed.
  Lemma qexec_J o bs m x : J m -> In x (crash_states (qexec o bs) m) -> J x.
  Proof.
    intros HW Hx. apply (qexec_crash_fresh (freshen_op o) bs (map fe m)); [apply fresh_freshen|exact HW|].
    rewrite q_states. apply in_map, Hx.
  Qed.
  Notation qrun := (@imq_run K V cmp st).
  Lemma qrun_J qs : J (qrun qs).
  Proof.
    unfold imq_run. assert (H : forall m, J m -> J (fold_left (qstep qexec) qs m)).
    2:{ apply H. split; [intros e []|apply WF_nil]. }
    induction qs as [|q qs IH]; intros m HW; cbn [fold_left]; [exact HW|]. apply IH. unfold qstep.
    apply (qexec_J (q_op q) (q_answers q) m _ HW).
    destruct (nth_in_or_default (q_cut q) (crash_states (qexec (q_op q) (q_answers q)) m)
      (snd (snd (qexec (q_op q) (q_answers q) m)))) as [Hi | ->]; [exact Hi|]. apply qlast_in, qt_exec_incl.
  Qed.
  Lemma qrun_never_incl qs : exists ops, qrun qs = im_run cmp never st ops.
  Proof. apply (J_reachable HO HS), qrun_J. Qed.

  (** ** An insertion *)
  Notation far y r :=
    ((exists k, ltb cmp (e0 y) k = true /\ ltb cmp k (ri_start r) = true) \/
     (exists k, ltb cmp (ri_end r) k = true /\ ltb cmp k (s0 y) = true)).
  Notation pieces m r v := (part (cmp := cmp_cut cmp st) (veqb := never)
    (near_hit (veqb := always) (cmp := cmp_cut cmp st) (map ence m) (encr r) v) (map ence m)).
  (** every recorded state, but the one in which the call returned, is what is left of the old map *)
  Lemma qinsert_pieces m r v bs x : WWi m -> ri_exhausted r = false ->
    In x (removelast (crash_states (imq_insert cmp st r v bs) m)) \/
    In x (crash_states (imq_insert cmp st r v bs) m) /\ (forall a s, snd (imq_insert cmp st r v bs m) <> (Ret a, s)) ->
    exists x', pieces m r v x' /\ Rm x x'.
  Proof.
    intros HW Hfr Hx.
    destruct (WFi_sim HO' _ HW) as [S1 S2].
    destruct (q_insert_sim HC HO' r (encr r) v bs m _ (encr_Rn HO' r Hfr) S1 S2) as [T1 [T2 _]].
    pose proof (Forall2_cons _ _ S1 T1) as T0.
    destruct (qgoodE_insert HO' (map ence m) (encr r) v bs S2) as (T & HT & HF).
    assert (HF' : Forall (pieces m r v) (map ence m :: T)) by (constructor; [apply part_refl, S2|exact HF]).
    rewrite Forall_forall in HF'. destruct HT as [HT | (y & HT & _ & a & Ha)].
    - rewrite HT in T0. assert (Hx' : In x (crash_states (imq_insert cmp st r v bs) m)).
      { destruct Hx as [Hx|[Hx _]]; [|exact Hx].
        destruct (crash_states (imq_insert cmp st r v bs) m) as [|z l] using rev_ind; [destruct Hx|].
        rewrite removelast_last in Hx. apply in_or_app. left. exact Hx. }
      apply (Forall2_In_l _ _ _ _ T0) in Hx' as (x' & Hx' & Hr). exists x'. auto.
    - destruct Hx as [Hx|[_ Hx]].
      2:{ exfalso. rewrite Ha in T2. cbn in T2.
          destruct (snd (imq_insert cmp st r v bs m)) as [[b|p|] s] eqn:E; cbn in T2; try contradiction. apply (Hx b s eq_refl). }
      rewrite HT in T0. rewrite app_comm_cons in T0.
      apply Forall2_removelast in T0. rewrite removelast_last in T0.
      apply (Forall2_In_l _ _ _ _ T0) in Hx as (x' & Hx' & Hr). exists x'. auto.
  Qed.
  Lemma qinsert_before m r v bs x : WWi m -> ri_exhausted r = false ->
    In x (removelast (crash_states (imq_insert cmp st r v bs) m)) \/
    In x (crash_states (imq_insert cmp st r v bs) m) /\ (forall a s, snd (imq_insert cmp st r v bs m) <> (Ret a, s)) ->
    WWi x /\ (forall k, im_get cmp x k = im_get cmp m k \/ im_get cmp x k = Ret None).
  Proof.
    intros HW Hfr Hx. destruct (qinsert_pieces m r v bs x HW Hfr Hx) as (x' & HP & Hr).
    destruct (part_incl HO HS _ _ _ _ HW Hr HP) as (H0 & H1 & _). auto.
  Qed.
  Lemma qinsert_frame m r v bs x e : WWi m -> ri_exhausted r = false -> In e m -> far e r ->
    (forall y, In y m -> far y r \/ far e (fst y)) ->
    In x (crash_states (imq_insert cmp st r v bs) m) -> alive x e.
  Proof.
    intros HW Hfr He H1 H2 Hx.
    destruct (leb cmp (ri_start r) (ri_end r)) eqn:Hr.
    2:{ unfold imq_insert in Hx. unfold crash_states, qbind, qlift, cbind, cassert, assert_ in Hx. cbn in Hx. rewrite Hr in Hx.
        cbn in Hx. destruct Hx as [<-|[]]. exists e. splits; auto; ord. }
    destruct (WFi_sim HO' _ HW) as [S1 S2].
    destruct (crash_sim _ _ _ _ _ _ S1 (q_insert_sim HC HO' r (encr r) v bs m _ (encr_Rn HO' r Hfr) S1 S2) Hx) as (x' & Hx' & Hm).
    destruct (qinsert_crash HO' _ _ _ _ _ S2 Hx') as (_ & _ & H3).
    specialize (H3 (ence e) (in_map ence m e He)
      (near_far HO HS (veqb := always) m r v e HW He Hr H1 (fun y Hy _ => H2 y Hy))).
    apply (Forall2_In_r _ _ _ _ Hm) in H3 as (y & Hy & [[[Y1 Y2] _] Y3]). exists y. split; [exact Hy|].
    cbn [ISim.ence ISim.encr fst snd r_start r_end] in Y1, Y2, Y3.
    rewrite (lo_eq HC), (hi_eq HC). unfold eqb. rewrite Y1, Y2. auto.
  Qed.
  Lemma q_insert_interrupted_incl qs r v bs x : In x (crash_states (imq_insert cmp st r v bs) (qrun qs)) ->
    ((exists bs', snd (imq_insert cmp st r v bs (qrun qs)) = (Ret (tt, bs'), x)) \/ no_more x (qrun qs)) /\
    (forall e, In e (im_iter (qrun qs)) -> far e r ->
       (forall y, In y (im_iter (qrun qs)) -> far y r \/ far e (fst y)) -> In e (im_iter x)).
  Proof.
    generalize (qrun_J qs). generalize (qrun qs). intros m HW Hx. unfold im_iter. split.
    - assert (HB : In (map fe x) (removelast (crash_states (imq_insert cmp st (fr r) v bs) (map fe m))) \/
        In (map fe x) (crash_states (imq_insert cmp st (fr r) v bs) (map fe m)) /\
        (forall a s, snd (imq_insert cmp st (fr r) v bs (map fe m)) <> (Ret a, s)) -> no_more x m).
      { intros H. apply no_more_flags. destruct (qinsert_before _ (fr r) v bs _ HW eq_refl H) as [H1 H2].
        apply (get_no_more_any HO HS); assumption. }
      change (imq_insert cmp st (fr r) v bs) with (qexec (freshen_op (OInsert r v)) bs) in HB.
      rewrite q_states in HB.
      destruct (last_or _ m _ Hx) as [H|H].
      2:{ right. apply HB. left. rewrite removelast_map. apply in_map. exact H. }
      assert (Hl : x = snd (snd (imq_insert cmp st r v bs m))).
      { rewrite <- (ch_tracked _ (qch_insert r v bs) m). rewrite H. unfold crash_states.
        destruct (fst (imq_insert cmp st r v bs m)) as [|a l]; [reflexivity|].
        change (last (m :: a :: l) m) with (last (a :: l) m). reflexivity. }
      destruct (snd (imq_insert cmp st r v bs m)) as [[[[] bs']|p|] s] eqn:E; cbn in Hl; subst s.
      + left. exists bs'. reflexivity.
      + right. apply HB. right. split; [apply in_map; exact Hx|]. intros a s.
        rewrite (qhom_exec (OInsert r v) bs m). cbn [snd imq_exec]. unfold fres. rewrite E. discriminate.
      + right. apply HB. right. split; [apply in_map; exact Hx|]. intros a s.
        rewrite (qhom_exec (OInsert r v) bs m). cbn [snd imq_exec]. unfold fres. rewrite E. discriminate.
    - intros e He H1 H2. revert x Hx. apply (keeps_itself_any HO (veqb := never) (st := st)).
      + apply qch_insert.
      + apply (J_IWF HO HS), HW.
      + intros x Hx. split; [apply (J_IWF HO HS), (qexec_J (OInsert r v) bs m x HW Hx)|]. apply alive_fe.
        apply (qinsert_frame (map fe m) (fr r) v bs (map fe x) (fe e) HW eq_refl).
        * apply in_map, He.
        * exact H1.
        * intros y Hy. apply in_map_iff in Hy as (y' & <- & Hy). exact (H2 y' Hy).
        * change (imq_insert cmp st (fr r) v bs) with (qexec (freshen_op (OInsert r v)) bs).
          rewrite q_states. apply in_map, Hx.
      + exact He.
  Qed.
  Lemma iq_panics (m : imap K V) r v bs : leb cmp (ri_start r) (ri_end r) = false ->
    imq_insert cmp st r v bs m = ([], (Panicked PAssert, m)).
  Proof. intros E. unfold imq_insert, qbind, qlift, cassert, assert_, cbind. rewrite E. reflexivity. Qed.
  Notation valid := (valid_rangei cmp).
  Notation lki := (@lki K V cmp).
  Lemma qinsert_incl_fresh m r v bs : WWi m -> ri_exhausted r = false -> valid r = true ->
    match snd (imq_insert cmp st r v bs m) with
    | (Ret _, m') => length m' <= length m + 2 /\
        exists n, In (n, v) (im_iter m') /\ (forall k, covers r k = true -> covers n k = true) /\
        forall k, exists o o', im_get cmp m k = Ret o /\ im_get cmp m' k = Ret o' /\
          if covers r k then o' = Some v
          else o' = o \/ covers n k = true /\ o <> None /\ o' = Some v
    | (OutOfFuel, _) => yes bs <= length m + 2
    | (Panicked _, _) => False
    end.
  Proof.
    intros HW0 Hr Hv.
    destruct (WFi_sim HO' (veqb := never) _ HW0) as [Hm HW'].
    pose proof (q_insert_sim HC HO' r (encr r) v bs m _ (encr_Rn HO' r Hr) Hm HW') as [_ [S1 S2]].
    assert (Hv' : ltb (cmp_cut cmp st) (r_start (encr r)) (r_end (encr r)) = true).
    { rewrite (valid_sim HC HO') in Hv. exact Hv. }
    pose proof (qinsert HO' (map ence m) (encr r) v bs HW' Hv') as HQ.
    destruct (snd (rmq_insert (cmp_cut cmp st) (encr r) v bs (map ence m))) as [o1 m1'],
      (snd (imq_insert cmp st r v bs m)) as [o m1]. cbn in S1, S2.
    destruct o as [u| |], o1 as [u'| |]; try contradiction.
    2:{ rewrite (len_sim _ _ Hm). exact HQ. }
    destruct HQ as (HW1 & Hlen & n & N1 & N2 & N3 & Hlk). split.
    { rewrite (len_sim m1 m1' S2), (len_sim _ _ Hm). exact Hlen. }
    destruct (Rm_In HO' m1 m1' n v S2 N1) as (x & X1 & X2 & X3).
    exists x. split; [exact X1|].
    assert (Hx : forall k, covers x k = r_contains (cmp_cut cmp st) n (Before k)).
    { intros k. rewrite (in_sim HC HO'), (in_range_contains HO'). unfold r_contains. ord_by (cut_order cmp st HO HS). }
    split.
    { intros k. rewrite Hx, (in_sim HC HO'). unfold in_range, r_contains. intros Hk. ord_by (cut_order cmp st HO HS). }
    intros k. exists (lki m k), (lki m1 k). split; [apply (get_iok HC HO' (veqb := never)); exact HW0|].
    split.
    { apply (get_iok HC HO' (veqb := never)). exact (Rm_WFi HO' m1 m1' S2 HW1). }
    rewrite (lki_sim HC HO' m1 m1' k S2), (lki_sim HC HO' _ _ k Hm), Hx, (in_sim HC HO'), (in_range_contains HO').
    specialize (Hlk (Before k)). unfold ov in Hlk.
    destruct (r_contains (cmp_cut cmp st) (encr r) (Before k)).
    - destruct Hlk as [H2 | (_ & w & _ & _ & H2)]; exact H2.
    - destruct Hlk as [H2 | (H1 & w & H2 & _ & H3)]; [left; exact H2|right]. rewrite H2. splits; auto. discriminate.
  Qed.
  Lemma q_insert_incl qs r v bs :
    if valid r
    then match snd (imq_insert cmp st r v bs (qrun qs)) with
         | (Ret _, m') => length m' <= length (qrun qs) + 2 /\
             exists n, In (n, v) (im_iter m') /\ (forall k, covers r k = true -> covers n k = true) /\
             forall k, exists o o', im_get cmp (map fe (qrun qs)) k = Ret o /\ im_get cmp (map fe m') k = Ret o' /\
               if covers r k then o' = Some v
               else o' = o \/ covers n k = true /\ o <> None /\ o' = Some v
         | (OutOfFuel, _) => yes bs <= length (qrun qs) + 2
         | (Panicked _, _) => False
         end
    else imq_insert cmp st r v bs (qrun qs) = ([], (Panicked PAssert, qrun qs)).
  Proof.
    generalize (qrun_J qs). generalize (qrun qs). intros m HW. destruct (valid r) eqn:Hv.
    2:{ apply iq_panics. unfold valid_rangei in Hv. ord. }
    pose proof (qinsert_incl_fresh (map fe m) (fr r) v bs HW eq_refl Hv) as H.
    change (covers (fr r)) with (covers r) in H.
    pose proof (qhom_exec (OInsert r v) bs m) as X. cbn [imq_exec freshen_op] in X. rewrite X in H. cbn [snd] in H.
    unfold fres in H. destruct (snd (imq_insert cmp st r v bs m)) as [[u|p|] m']; cbn in H; rewrite ?map_length in H; auto.
    destruct H as (H2 & n & H3 & H4 & H5). split; [exact H2|].
    unfold im_iter in *. apply in_map_iff in H3 as ([n' v'] & En & Hn). injection En as <- ->.
    exists n'. split; [exact Hn|]. split; assumption.
  Qed.
  Lemma q_iter_incl qs :
    ascendingi cmp (im_iter (qrun qs)) /\
    (forall r v, In (r, v) (im_iter (qrun qs)) -> valid r = true) /\
    (forall k r v, im_get_key_value cmp (qrun qs) k = Ret (Some (r, v)) <->
       In (r, v) (im_iter (qrun qs)) /\ covers r k = true /\ (ri_exhausted r = true -> eqb cmp k (ri_end r) = false)) /\
    (forall k, im_get_key_value cmp (qrun qs) k = Ret None <->
       (forall r v, In (r, v) (im_iter (qrun qs)) ->
          ~ (covers r k = true /\ (ri_exhausted r = true -> eqb cmp k (ri_end r) = false)))).
  Proof.
    destruct (qrun_never_incl qs) as (ops & ->). destruct (e_iter HO HS (veqb := never) ops) as (H1 & H2 & H3 & H4).
    splits; auto. intros r v H. apply (H2 r v H).
  Qed.

  Lemma q_remove_incl qs r bs :
    if valid r
    then exists t m', qexec (ORemove r) bs (qrun qs) = (t, (Ret (tt, bs), m')) /\
      length m' <= length (qrun qs) + 1 /\
      forall k, im_get cmp (map fe m') k = if covers r k then Ret None else im_get cmp (map fe (qrun qs)) k
    else qexec (ORemove r) bs (qrun qs) = ([], (Panicked PAssert, qrun qs)).
  Proof.
    cbn [imq_exec]. unfold qlift, cbind.
    destruct (valid r) eqn:Hv.
    - destruct (qrun_never_incl qs) as (ops & ->). pose proof (ExhaustedEq.e_remove HO HS (veqb := never) ops r) as H. rewrite Hv in H.
      destruct H as (m' & H1 & H2 & H3). rewrite <- e_iremove in H1.
      destruct (imx_remove cmp st r (im_run cmp never st ops)) as [t [o s]]. cbn in H1. injection H1 as -> ->.
      eexists. exists m'. splits; auto. reflexivity.
    - unfold valid_rangei in Hv. unfold imx_remove, cbind, cassert, assert_.
      replace (leb cmp (ri_start r) (ri_end r)) with false by ord. reflexivity.
  Qed.

  (** ** A [==] that is a function of the values gives some answers *)
  Section Function.
    Context (veqb : V -> V -> bool).
    Lemma ia_adjust s sv r v m t1 n1 m1 : imx_adjust_touching_ranges_for_insert cmp veqb st s sv r v m = (t1, (Ret n1, m1)) ->
      forall rest, imq_adjust_touching_ranges_for_insert cmp st s sv r v (veqb sv v :: rest) m = (t1, (Ret (n1, rest), m1)).
    Proof.
      intros E rest. unfold imq_adjust_touching_ranges_for_insert. erewrite qbind_Ret by reflexivity.
      unfold qlift, cbind.
      assert (E' : imx_adjust_touching_ranges_for_insert cmp (const (veqb sv v)) st s sv r v m = (t1, (Ret n1, m1))) by exact E.
      rewrite E'. cbn. rewrite app_nil_r. reflexivity.
    Qed.
    Lemma ia_loop v end0 fuel : forall cur m t cur' m',
      imx_insert_loop cmp veqb st fuel cur v end0 m = (t, (Ret cur', m')) ->
      exists bs, forall rest fuel', length bs < fuel' ->
        imq_insert_loop cmp st fuel' cur v end0 (bs ++ rest) m = (t, (Ret (cur', rest), m')).
    Proof.
      induction fuel as [|fuel IH]; intros cur m t cur' m' H; [discriminate H|].
      cbn [imx_insert_loop] in H. rewrite (cbind_Ret cget _ m m m eq_refl) in H.
      destruct (bt_range c_start (Included cur) Unbounded m) as [l|p|] eqn:El; try discriminate H.
      rewrite (cbind_Ret (clift (Ret l)) _ m l m eq_refl) in H.
      assert (Hq : forall fuel' bs, imq_insert_loop cmp st (S fuel') cur v end0 bs m =
        (match fst (it_next l) with
         | None => qret cur
         | Some (stored, stored_value) =>
             brk <- (if gtb cmp (ri_start stored) (ri_start end0)
                     then latest <- qlift (clift (step_o (add_one st (ri_start end0)))) ;;
                          if gtb cmp (ri_start stored) latest then qret true
                          else if eqb cmp (ri_start stored) latest then ask
                          else qret false
                     else qret false) ;;
             if brk : bool then qret cur
             else new' <- imq_adjust_touching_ranges_for_insert cmp st stored stored_value cur v ;;
                  imq_insert_loop cmp st fuel' new' v end0
         end)%Q bs m).
      { intros fuel' bs. cbn [imq_insert_loop].
        rewrite (qbind_Ret (qlift cget) _ bs m m bs m) by (apply qlift_Ret; reflexivity).
        rewrite El. rewrite (qbind_Ret (qlift (clift (Ret l))) _ bs m l bs m) by (apply qlift_Ret; reflexivity).
        reflexivity. }
      destruct (fst (it_next l)) as [[s sv]|] eqn:En.
      2:{ cbn in H. injection H as <- <- <-. exists []. intros rest fuel' Hf. destruct fuel' as [|fuel']; [lia|].
          rewrite Hq. reflexivity. }
      (* the question whether to stop *)
      assert (HB : exists brk bs0, (if gtb cmp (ri_start s) (ri_start end0)
                     then omap (fun latest => gtb cmp (ri_start s) latest || (eqb cmp (ri_start s) latest && negb (veqb sv v)))
                               (step_o (add_one st (ri_start end0)))
                     else Ret false) = Ret brk /\ forall rest,
        (if gtb cmp (ri_start s) (ri_start end0)
         then latest <- qlift (clift (step_o (add_one st (ri_start end0)))) ;;
              if gtb cmp (ri_start s) latest then qret true
              else if eqb cmp (ri_start s) latest then ask
              else qret false
         else qret false)%Q (bs0 ++ rest) m = ([], (Ret (brk, rest), m))).
      { destruct (gtb cmp (ri_start s) (ri_start end0)).
        2:{ exists false, []. split; [reflexivity|]. intros rest. reflexivity. }
        destruct (step_o (add_one st (ri_start end0))) as [a|p|]; try (cbn in H; discriminate H).
        cbn [omap]. destruct (gtb cmp (ri_start s) a) eqn:Eg.
        { exists true, []. split; [cbn; rewrite Eg; reflexivity|]. intros rest. erewrite qbind_Ret by (apply qlift_Ret; reflexivity).
          rewrite Eg. reflexivity. }
        destruct (eqb cmp (ri_start s) a) eqn:Ee.
        - exists (negb (veqb sv v)), [negb (veqb sv v)]. split; [cbn; rewrite Eg, Ee; reflexivity|]. intros rest.
          erewrite qbind_Ret by (apply qlift_Ret; reflexivity). rewrite Eg, Ee. reflexivity.
        - exists false, []. split; [cbn; rewrite Eg, Ee; reflexivity|]. intros rest.
          erewrite qbind_Ret by (apply qlift_Ret; reflexivity). rewrite Eg, Ee. reflexivity. }
      destruct HB as (brk & bs0 & HB1 & HB2). rewrite HB1 in H. rewrite (cbind_Ret (clift (Ret brk)) _ m brk m eq_refl) in H.
      destruct brk.
      { cbn in H. injection H as <- <- <-. exists bs0.
        intros rest fuel' Hf. destruct fuel' as [|fuel']; [lia|]. rewrite Hq.
        erewrite qbind_Ret by apply HB2. reflexivity. }
      unfold cbind in H. destruct (imx_adjust_touching_ranges_for_insert cmp veqb st s sv cur v m) as [t1 [[n1|p|] m1]] eqn:Ea;
        try discriminate H.
      destruct (imx_insert_loop cmp veqb st fuel n1 v end0 m1) as [t2 [o2 m2]] eqn:E2. injection H as <- -> ->.
      destruct (IH n1 m1 t2 cur' m' E2) as (bs & Hbs).
      exists (bs0 ++ veqb sv v :: bs).
      intros rest fuel' Hf. destruct fuel' as [|fuel']; [lia|]. rewrite Hq, <- app_assoc.
      erewrite qbind_Ret by apply HB2. cbn [app]. unfold qbind, cbind. rewrite (ia_adjust _ _ _ _ _ _ _ _ Ea). cbn [fst snd].
      rewrite Hbs by (rewrite app_length in Hf; cbn in Hf; lia). reflexivity.
    Qed.
    Lemma ia_insert r v m t m' : imx_insert cmp veqb st r v m = (t, (Ret tt, m')) ->
      exists bs, forall rest, imq_insert cmp st r v (bs ++ rest) m = (t, (Ret (tt, rest), m')).
    Proof.
      intros H. unfold imx_insert in H. unfold cassert, assert_ in H.
      destruct (leb cmp (ri_start r) (ri_end r)) eqn:Hv; [|discriminate H].
      rewrite (cbind_Ret (fun s => ([], ret tt s)) _ m tt m eq_refl) in H.
      rewrite (cbind_Ret cget _ m m m eq_refl) in H.
      destruct (bt_range c_start Unbounded (Included r) m) as [l|p|] eqn:El; try discriminate H.
      rewrite (cbind_Ret (clift (Ret l)) _ m l m eq_refl) in H.
      destruct (filter_o (fun e => ri_touches cmp st (fst e) r) (firstn 2 (rev l))) as [c|p|] eqn:Ec; try discriminate H.
      rewrite (cbind_Ret (clift (Ret c)) _ m c m eq_refl) in H.
      assert (H1 : forall t1 n1 m1,
        (match c with
         | [] => cret r
         | [(s, sv)] => imx_adjust_touching_ranges_for_insert cmp veqb st s sv r v
         | _ :: (s, sv) :: _ => imx_adjust_touching_ranges_for_insert cmp veqb st s sv r v
         end) m = (t1, (Ret n1, m1)) ->
        exists bs, forall rest,
        (match c with
         | [] => qret r
         | [(s, sv)] => imq_adjust_touching_ranges_for_insert cmp st s sv r v
         | _ :: (s, sv) :: _ => imq_adjust_touching_ranges_for_insert cmp st s sv r v
         end) (bs ++ rest) m = (t1, (Ret (n1, rest), m1))).
      { destruct c as [|[s sv] [|[s' sv'] l']]; intros t1 n1 m1 E.
        - exists []. intros rest. cbn in E. injection E as <- <- <-. reflexivity.
        - exists [veqb sv v]. intros rest. apply (ia_adjust _ _ _ _ _ _ _ _ E).
        - exists [veqb sv' v]. intros rest. apply (ia_adjust _ _ _ _ _ _ _ _ E). }
      unfold cbind at 1 in H.
      destruct (match c with [] => cret r | [(s, sv)] => _ | _ :: (s, sv) :: _ => _ end m) as [t1 [[n1|p|] m1]]; try discriminate H.
      destruct (H1 _ _ _ eq_refl) as (bs1 & Hb1). unfold cbind in H. cbn [cget] in H.
      destruct (imx_insert_loop cmp veqb st (length m1 + 2) n1 v (incl (ri_end n1) (ri_end n1)) m1) as [t2 [[n2|p|] m2]] eqn:E2; try discriminate H.
      destruct (ia_loop _ _ _ _ _ _ _ _ E2) as (bs2 & Hb2).
      cbn in H. injection H as <- <-. exists (bs1 ++ bs2). intros rest. rewrite <- app_assoc.
      unfold imq_insert. unfold cassert, assert_. rewrite Hv.
      erewrite qbind_Ret by (apply qlift_Ret; reflexivity).
      erewrite qbind_Ret by (apply qlift_Ret; reflexivity). rewrite El.
      erewrite qbind_Ret by (apply qlift_Ret; reflexivity). rewrite Ec.
      erewrite qbind_Ret by (apply qlift_Ret; reflexivity).
      unfold qbind at 1, cbind at 1. rewrite Hb1. cbn [fst snd].
      unfold qbind at 1, cbind at 1. rewrite Hb2 by (rewrite app_length; lia). cbn [fst snd].
      unfold qlift, cbind, cmodify, cret. cbn [app]. rewrite ?app_nil_r. reflexivity.
    Qed.
    Lemma ia_exec o m t m' : imx_exec cmp veqb st o m = (t, (Ret tt, m')) ->
      exists bs, forall rest, imq_exec cmp st o (bs ++ rest) m = (t, (Ret (tt, rest), m')).
    Proof.
      destruct o as [r v|r| |l]; cbn [imx_exec imq_exec].
      - apply ia_insert.
      - intros H. exists []. intros rest. unfold qlift, cbind. cbn [app]. rewrite H. cbn. rewrite app_nil_r. reflexivity.
      - intros H. exists []. intros rest. unfold qlift, cbind. cbn [app]. rewrite H. cbn. rewrite app_nil_r. reflexivity.
      - unfold imx_extend, imq_extend. revert m t m'. induction l as [|[r v] l IH]; intros m t m' H; cbn [cfor_each qfor_each fst snd] in *.
        { exists []. intros rest. cbn in H. injection H as <- <-. reflexivity. }
        unfold cbind in H. destruct (imx_insert cmp veqb st r v m) as [t1 [[[]|p|] m1]] eqn:E1; try discriminate H.
        destruct (cfor_each _ l m1) as [t2 [o2 m2]] eqn:E2. injection H as <- -> ->.
        destruct (ia_insert _ _ _ _ _ E1) as (bs1 & H1). destruct (IH _ _ _ E2) as (bs2 & H2).
        exists (bs1 ++ bs2). intros rest. rewrite <- app_assoc. unfold qbind, cbind. rewrite H1. cbn [fst snd].
        rewrite H2. reflexivity.
    Qed.
  End Function.
End Incl.
