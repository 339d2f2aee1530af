(** Everything observable about reachable [RangeMap]s, derived from the
    invariant and from [insert_ok] / [remove_ok]. *)
From Coq Require Import List Bool Sorting.Sorted Lia ZArith.
From Verif Require Import Order Outcome BTree Ranges History Spec MapModel ListLemmas
  MapProofs MapRemove.
Import ListNotations.

Section Facts.
  Context {K V : Type} {cmp : K -> K -> comparison} {veqb : V -> V -> bool}.
  Context (HO : TotalOrd cmp) (HV : PartialEquiv veqb).

  Notation ltb := (ltb cmp).
  Notation leb := (leb cmp).
  Notation eqb := (eqb cmp).
  Notation c_start := (cmp_start cmp).
  Notation c_end := (cmp_end cmp).
  Notation entry := (range K * V)%type.
  Notation st e := (r_start (fst e)).
  Notation en e := (r_end (fst e)).
  Notation WF := (@WF K V cmp veqb).
  Notation sep := (@sep K V cmp veqb).
  Notation lk := (@lk K V cmp).
  Notation osame := (same_opt veqb).
  Notation spec := (spec_run (valid_range cmp) (in_range cmp)).
  Notation spec1 := (spec_op (valid_range cmp) (in_range cmp)).
  Notation run := (rm_run cmp veqb).
  Notation exec := (rm_exec cmp veqb).

  Lemma in_range_contains r k : in_range cmp r k = r_contains cmp r k.
  Proof. unfold in_range, r_contains. ord. Qed.

  (** ** Histories *)
  Lemma put_all_ext (l : list entry) : forall f g,
    (forall k, osame (f k) (g k)) ->
    forall k, osame (put_all (valid_range cmp) (in_range cmp) l f k)
                    (put_all (valid_range cmp) (in_range cmp) l g k).
  Proof.
    induction l as [|[r v] l IH]; intros f g H k; cbn; [apply H|].
    destruct (valid_range cmp r); [|apply H]. apply IH. intros k'. unfold put.
    destruct (in_range cmp r k'); [apply osame_refl|apply H].
  Qed.

  Lemma extend_ok (l : list entry) : forall m,
    WF m ->
    exists o m', rm_extend cmp veqb l m = (o, m') /\ WF m' /\
      o = (if forallb (fun e => valid_range cmp (fst e)) l then Ret tt else Panicked PAssert) /\
      (forall k, osame (lk m' k) (put_all (valid_range cmp) (in_range cmp) l (lk m) k)).
  Proof.
    induction l as [|[r v] l IH]; intros m HW.
    - exists (Ret tt), m. cbn. splits; auto. intros; apply osame_refl.
    - unfold rm_extend in *. cbn [for_each fst snd put_all forallb]. unfold bind.
      unfold valid_range at 1 3.
      destruct (ltb (r_start r) (r_end r)) eqn:E.
      + destruct (insert_ok HO HV m r v HW E) as (m1 & H1 & H2 & H3 & _).
        rewrite H1. destruct (IH m1 H2) as (o & m' & I1 & I2 & I3 & I4).
        exists o, m'. splits; auto. intros k. eapply (osame_trans HV); [apply I4|].
        apply put_all_ext. intros k'. unfold put. rewrite in_range_contains. apply H3.
      + rewrite insert_panics by exact E. exists (Panicked PAssert), m. splits; auto.
        intros; apply osame_refl.
  Qed.

  Lemma exec_ok o m : WF m ->
    WF (snd (exec o m)) /\ (forall k, osame (lk (snd (exec o m)) k) (spec1 (lk m) o k)).
  Proof.
    intros HW. destruct o as [r v|r| |l]; cbn [rm_exec spec_op].
    - unfold valid_range. destruct (ltb (r_start r) (r_end r)) eqn:E.
      + destruct (insert_ok HO HV m r v HW E) as (m' & H1 & H2 & H3 & _). rewrite H1.
        split; [exact H2|]. intros k. unfold put. rewrite in_range_contains. apply H3.
      + rewrite insert_panics by exact E. split; [exact HW|]. intros; apply osame_refl.
    - unfold valid_range. destruct (ltb (r_start r) (r_end r)) eqn:E.
      + destruct (remove_ok HO (veqb := veqb) m r HW E) as (m' & H1 & H2 & H3 & _). rewrite H1.
        split; [exact H2|]. intros k. cbn [snd]. rewrite H3. unfold del. rewrite in_range_contains.
        apply osame_refl.
      + rewrite remove_panics by exact E. split; [exact HW|]. intros; apply osame_refl.
    - cbn. split; [apply WF_nil|]. intros k. exact I.
    - destruct (extend_ok l m HW) as (o & m' & H1 & H2 & _ & H3). rewrite H1. auto.
  Qed.

  Lemma spec1_ext o f g : (forall k, osame (f k) (g k)) ->
    forall k, osame (spec1 f o k) (spec1 g o k).
  Proof.
    intros H k. destruct o as [r v|r| |l]; cbn.
    - destruct (valid_range cmp r); [|apply H]. unfold put.
      destruct (in_range cmp r k); [apply osame_refl|apply H].
    - destruct (valid_range cmp r); [|apply H]. unfold del.
      destruct (in_range cmp r k); [exact I|apply H].
    - exact I.
    - apply put_all_ext; exact H.
  Qed.

  Lemma run_from_ok ops : forall m f, WF m -> (forall k, osame (lk m k) (f k)) ->
    WF (run_ops exec ops m) /\
    (forall k, osame (lk (run_ops exec ops m) k) (fold_left spec1 ops f k)).
  Proof.
    induction ops as [|o ops IH]; intros m f HW Hf; [split; auto|].
    cbn. destruct (exec_ok o m HW) as [H1 H2]. apply IH; [exact H1|].
    intros k. eapply (osame_trans HV); [apply H2|]. apply spec1_ext; exact Hf.
  Qed.

  Lemma run_WF ops : WF (run ops).
  Proof. apply (run_from_ok ops [] (fun _ => None)); [apply WF_nil|]. intros; exact I. Qed.
  Lemma run_lk ops k : osame (lk (run ops) k) (spec ops k).
  Proof. apply (run_from_ok ops [] (fun _ => None)); [apply WF_nil|]. intros; exact I. Qed.
  Lemma run_snoc ops o : run (ops ++ [o]) = snd (exec o (run ops)).
  Proof. unfold rm_run, run_ops. rewrite fold_left_app. reflexivity. Qed.

  (** ** Lookup *)
  Lemma get_key_value_ok m k : WF m ->
    rm_get_key_value cmp m k = Ret (find (fun e => r_contains cmp (fst e) k) m).
  Proof.
    intros HW. unfold rm_get_key_value.
    destruct (split_le HO m (mkR k k) HW) as (L & N & -> & HL & HN & HR). cbn in HL, HN.
    rewrite HR. cbn [obind]. f_equal.
    assert (EN : find (fun e => r_contains cmp (fst e) k) N = None).
    { clear - HN HO. induction N as [|e N IH]; [reflexivity|]. cbn.
      pose proof (HN e (or_introl eq_refl)) as H.
      assert (E : r_contains cmp (fst e) k = false) by (unfold r_contains; ord).
      rewrite E. apply IH. intros b Hb. apply HN. right; exact Hb. }
    apply WF_app in HW as (HWL & _ & _).
    destruct (rev_cases L) as [->|(L' & x & ->)].
    - cbn. symmetry. exact EN.
    - rewrite last_opt_app.
      pose proof (HL x (in_mid L' x [])) as Hx.
      apply WF_app in HWL as (HWL' & HWx & HL'x).
      assert (EL : find (fun e => r_contains cmp (fst e) k) L' = None).
      { clear - HL'x Hx HO. induction L' as [|e L' IH]; [reflexivity|]. cbn.
        destruct (HL'x e x (or_introl eq_refl) (or_introl eq_refl)) as [H _].
        assert (E : r_contains cmp (fst e) k = false) by (unfold r_contains; ord).
        rewrite E. apply IH. intros a b Ha Hb. apply HL'x; [right|]; auto. }
      rewrite <- app_assoc. 
      assert (F : forall (p : entry -> bool) l1 l2, find p (l1 ++ l2) =
                match find p l1 with Some a => Some a | None => find p l2 end).
      { intros p l1 l2. induction l1 as [|a l1 IH]; cbn; [reflexivity|]. destruct (p a); auto. }
      rewrite F, EL. cbn [app find]. destruct (r_contains cmp (fst x) k); [reflexivity|].
      symmetry; exact EN.
  Qed.

  Lemma find_lk m k : option_map snd (find (fun e => r_contains cmp (fst e) k) m) = lk m k.
  Proof.
    induction m as [|[r v] m IH]; cbn; [reflexivity|]. destruct (r_contains cmp r k); auto.
  Qed.

  Lemma get_ok m k : WF m -> rm_get cmp m k = Ret (lk m k).
  Proof.
    intros HW. unfold rm_get, omap. rewrite get_key_value_ok by exact HW. cbn [obind].
    rewrite find_lk. reflexivity.
  Qed.

  Lemma run_get_spec ops k :
    exists o, rm_get cmp (run ops) k = Ret o /\ osame o (spec ops k).
  Proof. exists (lk (run ops) k). split; [apply get_ok, run_WF|apply run_lk]. Qed.

  Lemma run_get_spec_eq ops k : (forall a b, veqb a b = true -> a = b) ->
    rm_get cmp (run ops) k = Ret (spec ops k).
  Proof.
    intros H. rewrite get_ok by apply run_WF. f_equal. pose proof (run_lk ops k) as Hs.
    destruct (lk (run ops) k), (spec ops k); cbn in Hs; try tauto; try reflexivity.
    f_equal. destruct Hs as [Hs|Hs]; auto.
  Qed.

  (** the value found is the one inserted last over an equal value *)
  Lemma insert_get_exact ops r v k :
    valid_range cmp r = true -> in_range cmp r k = true ->
    rm_get cmp (run (ops ++ [OInsert r v])) k = Ret (Some v).
  Proof.
    intros Hv Hk. rewrite get_ok by apply run_WF. f_equal. rewrite run_snoc. cbn.
    destruct (insert_ok HO HV (run ops) r v (run_WF ops) Hv)
      as (m' & H1 & H2 & _ & _ & _ & r' & H3 & H4 & H5).
    rewrite H1. cbn. apply (lk_WF_In HO m' r' v k H2 H3).
    unfold in_range in Hk. unfold r_contains. ord.
  Qed.

  Lemma get_key_value_iff m k r v : WF m ->
    rm_get_key_value cmp m k = Ret (Some (r, v)) <-> In (r, v) m /\ in_range cmp r k = true.
  Proof.
    intros HW. rewrite get_key_value_ok by exact HW. rewrite in_range_contains. split.
    - intros [= H]. apply find_some in H. exact H.
    - intros [H1 H2]. f_equal.
      destruct (find (fun e => r_contains cmp (fst e) k) m) as [e|] eqn:E.
      + apply find_some in E as [E1 E2].
        rewrite (WF_unique HO m e (r, v) k HW E1 H1 E2 H2). reflexivity.
      + apply find_none with (x := (r, v)) in E; auto. cbn in E. congruence.
  Qed.

  Lemma get_key_value_none m k : WF m ->
    rm_get_key_value cmp m k = Ret None <->
    (forall r v, In (r, v) m -> in_range cmp r k = false).
  Proof.
    intros HW. rewrite get_key_value_ok by exact HW. split.
    - intros [= H] r v Hin. rewrite in_range_contains. exact (find_none _ _ H (r, v) Hin).
    - intros H. f_equal. destruct (find (fun e => r_contains cmp (fst e) k) m) as [[r v]|] eqn:E; [|reflexivity].
      apply find_some in E as [E1 E2]. specialize (H r v E1). rewrite in_range_contains in H. cbn in E2. congruence.
  Qed.

  Lemma get_total m k : WF m -> exists o, rm_get_key_value cmp m k = Ret o /\
    rm_get cmp m k = Ret (option_map snd o) /\
    rm_contains_key cmp m k = Ret (match o with Some _ => true | None => false end).
  Proof.
    intros HW. exists (find (fun e => r_contains cmp (fst e) k) m).
    pose proof (get_key_value_ok m k HW) as H.
    splits; auto; unfold rm_contains_key, rm_get, omap; rewrite H; cbn; [reflexivity|].
    destruct (find _ m); reflexivity.
  Qed.

  (** ** Structure *)
  Lemma WF_ascending m : WF m -> ascending cmp m.
  Proof. intros [H _]. unfold ascending. eapply SS_impl; [|exact H]. intros a b _ _ [H1 _]. exact H1. Qed.
  Lemma WF_coalesced m : WF m -> coalesced cmp veqb m.
  Proof.
    intros [HS HN] a b Ha Hb E. pose proof (HN a Ha). pose proof (HN b Hb).
    destruct (SS_In_cases _ _ a b HS Ha Hb) as [<-|[[_ H1]|[H1 _]]]; auto; exfalso; ord.
  Qed.
  Lemma WF_valid m r v : WF m -> In (r, v) m -> valid_range cmp r = true.
  Proof. intros [_ HN] H. exact (HN _ H). Qed.

  Lemma WF_iff m : WF m <->
    ascending cmp m /\ coalesced cmp veqb m /\ (forall r v, In (r, v) m -> valid_range cmp r = true).
  Proof.
    split.
    - intros H. splits; [apply WF_ascending, H|apply WF_coalesced, H|]. intros; eapply WF_valid; eauto.
    - intros (H1 & H2 & H3). split.
      + eapply SS_impl; [|exact H1]. intros a b Ha Hb H. split; [exact H|]. apply H2; auto.
      + intros [r v] He. apply (H3 r v He).
  Qed.

  (** ** Maximal runs *)
  Lemma maximal_run m r v r' : WF m -> In (r, v) m ->
    leb (r_start r') (r_start r) = true -> leb (r_end r) (r_end r') = true ->
    (forall k, in_range cmp r' k = true -> in_range cmp r k = false ->
       exists w, lk m k = Some w /\ veqb v w = true) ->
    eqb (r_start r') (r_start r) = true /\ eqb (r_end r') (r_end r) = true.
  Proof.
    intros HW Hin H1 H2 H. pose proof (proj2 HW _ Hin) as Hne. cbn in Hne.
    split.
    - destruct (eqb (r_start r') (r_start r)) eqn:E; [reflexivity|exfalso].
      destruct (in_split _ _ Hin) as (A & B & ->).
      pose proof HW as HW0. apply WF_app in HW0 as (HWA & HWB & HAB).
      apply WF_cons in HWB as (_ & HWB & HrB).
      assert (HB : forall x, ltb x (r_start r) = true -> lk ((r, v) :: B) x = None).
      { intros x Hx. apply (lk_above HO _ x (r_start r)); [|exact Hx].
        intros b [<-|Hb]; [cbn; ord|]. destruct (HrB b Hb) as [Hb1 _]. cbn in Hb1. ord. }
      destruct (rev_cases A) as [->|(A' & [a va] & ->)].
      + destruct (H (r_start r')) as (w & Hw & _); [unfold in_range; ord|unfold in_range; ord|].
        cbn [app] in Hw. rewrite HB in Hw; [discriminate|ord].
      + destruct (HAB (a, va) (r, v)) as [Ha1 Ha2];
          [apply in_or_app; right; left; reflexivity|left; reflexivity|]. cbn in Ha1, Ha2.
        pose proof HWA as HWA0. apply WF_app in HWA0 as (_ & HWa & HA'a).
        apply WF_cons in HWa as (Hane & _ & _). cbn in Hane.
        destruct (eqb (r_end a) (r_start r)) eqn:Ea.
        * (* the left neighbour touches, so its value differs *)
          set (x := kmax cmp (r_start r') (r_start a)).
          assert (Hx : leb (r_start r') x = true /\ leb (r_start a) x = true /\ ltb x (r_start r) = true).
          { unfold x, kmax. destruct (ltb (r_start a) (r_start r')) eqn:E1; splits; ord. }
          destruct Hx as (X1 & X2 & X3).
          destruct (H x) as (w & Hw & Hvw); [unfold in_range; ord|unfold in_range; ord|].
          rewrite (lk_WF_In HO _ a va x HW) in Hw.
          -- injection Hw as <-. apply (veq_sym _ HV) in Hvw. rewrite Ha2 in Hvw; auto. discriminate.
          -- apply in_or_app; left. apply in_or_app; right; left; reflexivity.
          -- unfold r_contains. ord.
        * set (x := kmax cmp (r_start r') (r_end a)).
          assert (Hx : leb (r_start r') x = true /\ leb (r_end a) x = true /\ ltb x (r_start r) = true).
          { unfold x, kmax. destruct (ltb (r_end a) (r_start r')) eqn:E1; splits; ord. }
          destruct Hx as (X1 & X2 & X3).
          destruct (H x) as (w & Hw & Hvw); [unfold in_range; ord|unfold in_range; ord|].
          rewrite lk_app, (HB x X3), (lk_below HO _ x (r_end a)) in Hw; [discriminate| |exact X2].
          intros b Hb. apply in_app_or in Hb as [Hb|[<-|[]]]; [|cbn; ord].
          destruct (HA'a b (a, va) Hb (or_introl eq_refl)) as [Hb1 _]. cbn in Hb1. ord.
    - destruct (eqb (r_end r') (r_end r)) eqn:E; [reflexivity|exfalso].
      destruct (H (r_end r)) as (w & Hw & Hvw); [unfold in_range; ord|unfold in_range; ord|].
      destruct (lk_In _ _ _ Hw) as (rb & B1 & B2). unfold r_contains in B2.
      destruct (SS_In_cases _ _ _ _ (proj1 HW) Hin B1) as [[= <- <-]|[[H3 H4]|[H3 _]]]; cbn in *.
      + ord.
      + rewrite H4 in Hvw; [discriminate|]. ord.
      + ord.
  Qed.

  (** ** Equality is extensional *)
  Definition entry_eq (x y : entry) : Prop :=
    eqb (st x) (st y) = true /\ eqb (en x) (en y) = true /\ veqb (snd x) (snd y) = true.

  Lemma rm_eqb_Forall2 a b : rm_eqb cmp veqb a b = true <-> Forall2 entry_eq a b.
  Proof.
    unfold rm_eqb, rm_iter. revert b. induction a as [|x a IH]; intros [|y b]; cbn; split; intros H;
      try discriminate; try constructor; try (inversion H; fail).
    - unfold r_eqb in H. apply andb_prop in H as [H _]. unfold entry_eq.
      apply andb_prop in H as [H1 H3]. apply andb_prop in H1 as [H1 H2]. auto.
    - apply IH. apply andb_prop in H as [_ H]. exact H.
    - inversion H as [|? ? ? ? H1 H2]; subst. apply IH in H2. rewrite H2.
      destruct H1 as (H3 & H4 & H5). unfold r_eqb. rewrite H3, H4, H5. reflexivity.
  Qed.

  Lemma head_start_le (a : entry) T x y T' : WF (a :: T) -> WF (x :: T') ->
    (forall k, osame (lk (a :: T) k) (lk (x :: T') k)) -> y = st a -> leb (st x) y = true.
  Proof.
    intros HWa HWx H ->. destruct (leb (st x) (st a)) eqn:E; [reflexivity|exfalso].
    specialize (H (st a)). apply WF_cons in HWa as (Ha & _ & _).
    apply WF_cons in HWx as (Hx & _ & Hs).
    rewrite (lk_above HO (x :: T') (st a) (st x)) in H.
    - destruct a as [r v]. cbn [MapProofs.lk fst] in H, Ha.
      assert (C : r_contains cmp r (r_start r) = true) by (unfold r_contains; ord).
      rewrite C in H. exact H.
    - intros b [<-|Hb]; [ord|]. destruct (Hs b Hb) as [H1 _]. ord.
    - ord.
  Qed.

  Lemma head_end_le r1 v1 T r2 v2 T' :
    WF ((r1, v1) :: T) -> WF ((r2, v2) :: T') -> veqb v1 v1 = true ->
    (forall k, osame (lk ((r1, v1) :: T) k) (lk ((r2, v2) :: T') k)) ->
    eqb (r_start r1) (r_start r2) = true -> same_val veqb v1 v2 ->
    leb (r_end r2) (r_end r1) = true.
  Proof.
    intros HW1 HW2 Hrefl H Hs Hv. destruct (leb (r_end r2) (r_end r1)) eqn:E; [reflexivity|exfalso].
    specialize (H (r_end r1)). apply WF_cons in HW1 as (Hr1 & HWT & HsT). cbn in Hr1.
    cbn [MapProofs.lk] in H.
    assert (C1 : r_contains cmp r1 (r_end r1) = false) by (unfold r_contains; ord).
    assert (C2 : r_contains cmp r2 (r_end r1) = true) by (unfold r_contains; ord).
    rewrite C1, C2 in H. destruct (lk T (r_end r1)) as [w|] eqn:Ew; [|exact H]. cbn in H.
    destruct (lk_In _ _ _ Ew) as (rb & B1 & B2). unfold r_contains in B2.
    destruct (HsT _ B1) as [H1 H2]. cbn in H1, H2.
    assert (H3 : veqb v1 w = false) by (apply H2; ord).
    assert (H4 : veqb v1 v2 = true) by (destruct Hv as [<-|Hv]; auto).
    destruct H as [->|H]; [congruence|].
    apply (veq_sym _ HV) in H. rewrite (veq_trans _ HV _ _ _ H4 H) in H3. discriminate.
  Qed.

  Lemma canonical (Hrefl : forall v, veqb v v = true) a : forall b,
    WF a -> WF b -> (forall k, osame (lk a k) (lk b k)) -> Forall2 entry_eq a b.
  Proof.
    induction a as [|[r1 v1] a IH]; intros [|[r2 v2] b] HWa HWb H.
    - constructor.
    - exfalso. specialize (H (r_start r2)). cbn [MapProofs.lk] in H.
      apply WF_cons in HWb as (Hb & _). cbn in Hb.
      assert (C : r_contains cmp r2 (r_start r2) = true) by (unfold r_contains; ord).
      rewrite C in H. exact H.
    - exfalso. specialize (H (r_start r1)). cbn [MapProofs.lk] in H.
      apply WF_cons in HWa as (Ha & _). cbn in Ha.
      assert (C : r_contains cmp r1 (r_start r1) = true) by (unfold r_contains; ord).
      rewrite C in H. exact H.
    - assert (H' : forall k, osame (lk ((r2, v2) :: b) k) (lk ((r1, v1) :: a) k))
        by (intros k; apply (osame_sym HV), H).
      pose proof (head_start_le (r1, v1) a (r2, v2) _ b HWa HWb H eq_refl) as S1.
      pose proof (head_start_le (r2, v2) b (r1, v1) _ a HWb HWa H' eq_refl) as S2. cbn in S1, S2.
      assert (Es : eqb (r_start r1) (r_start r2) = true) by ord.
      pose proof HWa as HWa0. apply WF_cons in HWa0 as (Ha & HWa' & Hsa). cbn in Ha.
      pose proof HWb as HWb0. apply WF_cons in HWb0 as (Hb & HWb' & Hsb). cbn in Hb.
      assert (Ev : same_val veqb v1 v2).
      { specialize (H (r_start r1)). cbn [MapProofs.lk] in H.
        assert (C1 : r_contains cmp r1 (r_start r1) = true) by (unfold r_contains; ord).
        assert (C2 : r_contains cmp r2 (r_start r1) = true) by (unfold r_contains; ord).
        rewrite C1, C2 in H. exact H. }
      assert (Ev' : veqb v1 v2 = true) by (destruct Ev as [<-|Ev]; auto).
      assert (Ee1 := head_end_le r1 v1 a r2 v2 b HWa HWb (Hrefl v1) H Es Ev).
      assert (Ee2 : leb (r_end r1) (r_end r2) = true).
      { apply (head_end_le r2 v2 b r1 v1 a HWb HWa (Hrefl v2) H'); [ord|].
        right. apply (veq_sym _ HV); exact Ev'. }
      constructor; [unfold entry_eq; cbn; splits; auto; ord|].
      apply IH; auto. intros k. specialize (H k). cbn [MapProofs.lk] in H.
      destruct (ltb k (r_end r1)) eqn:Ek.
      + rewrite (lk_above HO a k (r_end r1)), (lk_above HO b k (r_end r1)); try exact I; auto.
        * intros x Hx. destruct (Hsb x Hx) as [H1 _]. cbn in H1. ord.
        * intros x Hx. apply (Hsa x Hx).
      + assert (C1 : r_contains cmp r1 k = false) by (unfold r_contains; ord).
        assert (C2 : r_contains cmp r2 k = false) by (unfold r_contains; ord).
        rewrite C1, C2 in H. exact H.
  Qed.

  Lemma Forall2_lk a b k : Forall2 entry_eq a b -> osame (lk a k) (lk b k).
  Proof.
    induction 1 as [|[r1 v1] [r2 v2] a b (H1 & H2 & H3) HF IH]; cbn in *; [exact I|].
    assert (E : r_contains cmp r1 k = r_contains cmp r2 k) by (unfold r_contains; ord).
    rewrite E. destruct (r_contains cmp r2 k); [right; exact H3|exact IH].
  Qed.

  Lemma eqb_extensional (Hrefl : forall v, veqb v v = true) a b : WF a -> WF b ->
    rm_eqb cmp veqb a b = true <-> (forall k, osame (lk a k) (lk b k)).
  Proof.
    intros HWa HWb. rewrite rm_eqb_Forall2. split.
    - intros H k. apply Forall2_lk; exact H.
    - intros H. apply canonical; assumption.
  Qed.

  Lemma run_eqb_spec (Hrefl : forall v, veqb v v = true) ops1 ops2 :
    rm_eqb cmp veqb (run ops1) (run ops2) = true <->
    (forall k, osame (spec ops1 k) (spec ops2 k)).
  Proof.
    rewrite eqb_extensional; auto using run_WF. split; intros H k.
    - eapply (osame_trans HV); [apply (osame_sym HV), run_lk|].
      eapply (osame_trans HV); [apply H|apply run_lk].
    - eapply (osame_trans HV); [apply run_lk|].
      eapply (osame_trans HV); [apply H|]. apply (osame_sym HV), run_lk.
  Qed.
End Facts.
