(** Lemmas about the [RangeMap] model: the invariant, [insert] and [remove]. *)
From Coq Require Import List Bool Sorting.Sorted Lia ZArith.
From Verif Require Import Order Outcome BTree Ranges History Spec MapModel ListLemmas.
Import ListNotations.

Section Proofs.
  Context {K V : Type} {cmp : K -> K -> comparison} {veqb : V -> V -> bool}.
  Context (HO : TotalOrd cmp) (HV : PartialEquiv veqb).

  Notation ltb := (ltb cmp).
  Notation leb := (leb cmp).
  Notation eqb := (eqb cmp).
  Notation c_start := (cmp_start cmp).
  Notation c_end := (cmp_end cmp).
  Notation entry := (range K * V)%type.
  Notation st e := (r_start (fst e)).
  Notation en e := (r_end (fst e)).
  Notation osame := (same_opt veqb).

  (** ** The invariant *)
  Definition sep (a b : entry) : Prop :=
    leb (en a) (st b) = true /\
    (eqb (en a) (st b) = true -> veqb (snd a) (snd b) = false).
  Definition WF (m : rmap K V) : Prop :=
    StronglySorted sep m /\ (forall e, In e m -> ltb (st e) (en e) = true).

  Lemma WF_nil : WF [].
  Proof. split; [constructor|intros e []]. Qed.

  Lemma WF_app l1 l2 :
    WF (l1 ++ l2) <-> WF l1 /\ WF l2 /\ (forall a b, In a l1 -> In b l2 -> sep a b).
  Proof.
    unfold WF. rewrite SS_app. split.
    - intros ((H1 & H2 & H3) & H4). splits; auto; intros e He; apply H4, in_or_app; auto.
    - intros ((H1 & H2) & (H3 & H4) & H5). splits; auto.
      intros e He. apply in_app_or in He as [He|He]; auto.
  Qed.

  Lemma WF_cons a l :
    WF (a :: l) <-> ltb (st a) (en a) = true /\ WF l /\ (forall b, In b l -> sep a b).
  Proof.
    unfold WF. rewrite SS_cons. split.
    - intros ((H1 & H2) & H3). splits; auto.
      + apply H3; left; reflexivity.
      + intros e He. apply H3; right; exact He.
    - intros (H1 & (H2 & H3) & H4). splits; auto. intros e [<-|He]; auto.
  Qed.

  Lemma WF_sep_lt m a b : WF m -> In a m -> In b m -> sep a b -> ltb (st a) (st b) = true.
  Proof.
    intros [_ H] Ha Hb [H1 _]. pose proof (H a Ha). pose proof (H b Hb). ord.
  Qed.

  (** ** Lookup *)
  Fixpoint lk (m : rmap K V) (k : K) : option V :=
    match m with
    | [] => None
    | (r, v) :: m' => if r_contains cmp r k then Some v else lk m' k
    end.

  Lemma lk_app l1 l2 k :
    lk (l1 ++ l2) k = match lk l1 k with Some v => Some v | None => lk l2 k end.
  Proof.
    induction l1 as [|[r v] l1 IH]; cbn; [reflexivity|]. destruct (r_contains cmp r k); auto.
  Qed.

  Lemma lk_below l k x :
    (forall a, In a l -> leb (en a) x = true) -> leb x k = true -> lk l k = None.
  Proof.
    induction l as [|[r v] l IH]; intros H Hk; [reflexivity|]. cbn.
    pose proof (H (r, v) (or_introl eq_refl)) as H0. cbn in H0.
    assert (E : r_contains cmp r k = false) by (unfold r_contains; ord).
    rewrite E. apply IH; auto. intros a Ha. apply H. right; exact Ha.
  Qed.

  Lemma lk_above l k x :
    (forall a, In a l -> leb x (st a) = true) -> ltb k x = true -> lk l k = None.
  Proof.
    induction l as [|[r v] l IH]; intros H Hk; [reflexivity|]. cbn.
    pose proof (H (r, v) (or_introl eq_refl)) as H0. cbn in H0.
    assert (E : r_contains cmp r k = false) by (unfold r_contains; ord).
    rewrite E. apply IH; auto. intros a Ha. apply H. right; exact Ha.
  Qed.

  Lemma lk_In m k v : lk m k = Some v -> exists r, In (r, v) m /\ r_contains cmp r k = true.
  Proof.
    induction m as [|[r w] m IH]; cbn; [discriminate|].
    destruct (r_contains cmp r k) eqn:E.
    - intros [= ->]. exists r. auto.
    - intros H. destruct (IH H) as (r' & H1 & H2). exists r'. auto.
  Qed.

  Lemma lk_None m k : lk m k = None <-> (forall r v, In (r, v) m -> r_contains cmp r k = false).
  Proof.
    induction m as [|[r w] m IH]; cbn; [split; [tauto|reflexivity]|].
    destruct (r_contains cmp r k) eqn:E.
    - split; [discriminate|]. intros H. rewrite (H r w) in E by auto. discriminate.
    - rewrite IH. split.
      + intros H r' v [[= <- <-]|Hin]; eauto.
      + intros H r' v Hin. eauto.
  Qed.

  Lemma SS_In_cases {A} (R : A -> A -> Prop) l a b :
    StronglySorted R l -> In a l -> In b l -> a = b \/ R a b \/ R b a.
  Proof.
    induction l as [|x l IH]; intros HS Ha Hb; [destruct Ha|].
    apply SS_cons in HS as [H1 H2].
    destruct Ha as [->|Ha]; destruct Hb as [->|Hb]; auto.
  Qed.

  (** a key is in at most one stored range *)
  Lemma WF_unique m a b k :
    WF m -> In a m -> In b m ->
    r_contains cmp (fst a) k = true -> r_contains cmp (fst b) k = true -> a = b.
  Proof.
    intros [HS HN] Ha Hb Ka Kb. unfold r_contains in *.
    destruct (SS_In_cases _ _ a b HS Ha Hb) as [H|[[H _]|[H _]]]; [exact H| |]; exfalso; ord.
  Qed.

  Lemma lk_WF_In m r v k :
    WF m -> In (r, v) m -> r_contains cmp r k = true -> lk m k = Some v.
  Proof.
    intros HW Hin Hc. destruct (lk m k) as [w|] eqn:E.
    - destruct (lk_In _ _ _ E) as (r' & H1 & H2).
      pose proof (WF_unique m (r, v) (r', w) k HW Hin H1 Hc H2). congruence.
    - rewrite lk_None in E. rewrite (E r v Hin) in Hc. discriminate.
  Qed.

  (** ** [same_opt] *)
  Lemma osame_refl a : osame a a.
  Proof. destruct a; cbn; auto. left; reflexivity. Qed.
  Lemma osame_trans a b c : osame a b -> osame b c -> osame a c.
  Proof.
    destruct a, b, c; cbn; try tauto.
    intros [->|H1] [->|H2]; unfold same_val; auto. right. eapply veq_trans; eauto.
  Qed.
  Lemma osame_sym a b : osame a b -> osame b a.
  Proof.
    destruct a, b; cbn; try tauto. intros [->|H1]; unfold same_val; auto.
    right. apply veq_sym; auto.
  Qed.

  Lemma veq_diff_l a b c : veqb a b = true -> veqb a c = false -> veqb b c = false.
  Proof.
    intros H1 H2. destruct (veqb b c) eqn:E; [|reflexivity].
    rewrite (veq_trans _ HV a b c H1 E) in H2. discriminate.
  Qed.
  Lemma veq_diff_sym a b : veqb a b = false -> veqb b a = false.
  Proof.
    intros H. destruct (veqb b a) eqn:E; [|reflexivity].
    rewrite (veq_sym _ HV _ _ E) in H. discriminate.
  Qed.

  (** ** [BTreeMap] operations on a decomposed list *)
  Lemma bt_insert_split (L N : rmap K V) r v :
    (forall a, In a L -> ltb (st a) (r_start r) = true) ->
    (forall b, In b N -> ltb (r_start r) (st b) = true) ->
    bt_insert c_start r v (L ++ N) = L ++ (r, v) :: N.
  Proof.
    induction L as [|[a w] L IH]; intros HA HB; cbn [app].
    - destruct N as [|[b w] N]; [reflexivity|]. cbn [bt_insert].
      pose proof (HB (b, w) (or_introl eq_refl)) as Hb. cbn in Hb.
      unfold cmp_start. unfold Order.ltb in Hb. destruct (cmp (r_start r) (r_start b)); congruence.
    - cbn [bt_insert]. pose proof (HA (a, w) (or_introl eq_refl)) as Ha. cbn in Ha.
      assert (E : c_start r a = Gt).
      { unfold cmp_start. rewrite <- (cmp_Lt_Gt HO). unfold Order.ltb in Ha.
        destruct (cmp (r_start a) (r_start r)); congruence. }
      rewrite E. f_equal. apply IH; auto. intros x Hx. apply HA. right; exact Hx.
  Qed.

  Lemma bt_remove_split (L N : rmap K V) e :
    (forall a, In a L -> ltb (st a) (st e) = true) ->
    bt_remove c_start (fst e) (L ++ e :: N) = L ++ N.
  Proof.
    induction L as [|[a w] L IH]; intros HA; cbn [app].
    - destruct e as [r v]. cbn [bt_remove fst]. unfold cmp_start. rewrite (ord_refl _ HO). reflexivity.
    - cbn [bt_remove]. pose proof (HA (a, w) (or_introl eq_refl)) as Ha. cbn in Ha.
      assert (E : c_start (fst e) a = Gt).
      { unfold cmp_start. rewrite <- (cmp_Lt_Gt HO). unfold Order.ltb in Ha.
        destruct (cmp (r_start a) (st e)); congruence. }
      rewrite E. f_equal. apply IH. intros x Hx. apply HA. right; exact Hx.
  Qed.

  Lemma bt_remove_split' (L N : rmap K V) r v :
    (forall a, In a L -> ltb (st a) (r_start r) = true) ->
    bt_remove c_start r (L ++ (r, v) :: N) = L ++ N.
  Proof. exact (bt_remove_split L N (r, v)). Qed.

  Lemma split_le m x :
    WF m -> exists L N, m = L ++ N /\
      (forall a, In a L -> leb (st a) (r_start x) = true) /\
      (forall b, In b N -> ltb (r_start x) (st b) = true) /\
      bt_range c_start Unbounded (Included x) m = Ret L.
  Proof.
    intros HW.
    destruct (split_sorted sep (fun e => leb (st e) (r_start x)) m (proj1 HW))
      as (L & N & E & H1 & H2 & H3 & H4).
    - intros a b Ha Hb Hs Hp. cbn in *. pose proof (WF_sep_lt m a b HW Ha Hb Hs). ord.
    - exists L, N. split; [exact E|]. split; [exact H1|]. split.
      + intros b Hb. specialize (H2 b Hb). cbn in H2. ord.
      + unfold bt_range. cbn [bad_bounds]. f_equal.
        rewrite drop_while_none by (intros; reflexivity).
        rewrite <- H3. apply take_while_ext. intros a Ha. cbn. unfold cmp_start, Order.leb.
        destruct (cmp (st a) (r_start x)); reflexivity.
  Qed.

  Lemma range_incl (A B : rmap K V) lo hi :
    (forall a, In a A -> ltb (st a) (r_start lo) = true) ->
    (forall b, In b B -> leb (r_start lo) (st b) = true) ->
    leb (r_start lo) (r_start hi) = true ->
    bt_range c_start (Included lo) (Included hi) (A ++ B) =
    Ret (take_while (fun e => leb (st e) (r_start hi)) B).
  Proof.
    intros HA HB Hle. unfold bt_range. cbn [bad_bounds].
    assert (E : match c_start lo hi with Gt => true | _ => false end = false).
    { unfold cmp_start. unfold Order.leb in Hle. destruct (cmp (r_start lo) (r_start hi)); congruence. }
    rewrite E. f_equal. rewrite drop_while_app, drop_while_none.
    - apply take_while_ext. intros a Ha. cbn. unfold cmp_start, Order.leb.
      destruct (cmp (st a) (r_start hi)); reflexivity.
    - intros a Ha. specialize (HB a Ha). cbn. unfold cmp_start.
      destruct (cmp (st a) (r_start lo)) eqn:E2; auto. ord.
    - intros a Ha. specialize (HA a Ha). cbn. unfold cmp_start.
      destruct (cmp (st a) (r_start lo)) eqn:E2; auto; ord.
  Qed.

  Lemma range_excl (A B : rmap K V) lo hi :
    (forall a, In a A -> leb (st a) (r_start lo) = true) ->
    (forall b, In b B -> ltb (r_start lo) (st b) = true) ->
    ltb (r_start lo) (r_start hi) = true ->
    bt_range c_start (Excluded lo) (Excluded hi) (A ++ B) =
    Ret (take_while (fun e => ltb (st e) (r_start hi)) B).
  Proof.
    intros HA HB Hle. unfold bt_range. cbn [bad_bounds].
    assert (E : match c_start lo hi with Lt => false | _ => true end = false).
    { unfold cmp_start. unfold Order.ltb in Hle. destruct (cmp (r_start lo) (r_start hi)); congruence. }
    rewrite E. f_equal. rewrite drop_while_app, drop_while_none.
    - apply take_while_ext. intros a Ha. cbn. unfold cmp_start, Order.ltb.
      destruct (cmp (st a) (r_start hi)); reflexivity.
    - intros a Ha. specialize (HB a Ha). cbn. unfold cmp_start.
      destruct (cmp (st a) (r_start lo)) eqn:E2; auto; ord.
    - intros a Ha. specialize (HA a Ha). cbn. unfold cmp_start.
      destruct (cmp (st a) (r_start lo)) eqn:E2; auto; ord.
  Qed.

  (** ** Insert *)

  (** the function described by [m] overlaid with [r -> v] *)
  Definition ov (r : range K) (v : V) (m : rmap K V) (k : K) : option V :=
    if r_contains cmp r k then Some v else lk m k.

  (** everything in [A] is left of [new] and must not be merged with it *)
  Definition left_ok (A : rmap K V) (new : range K) (nv : V) : Prop :=
    forall a, In a A -> leb (en a) (r_start new) = true /\
      (eqb (en a) (r_start new) = true -> veqb (snd a) nv = false).
  Definition right_ok (B : rmap K V) (new : range K) (nv : V) : Prop :=
    forall b, In b B -> leb (r_end new) (st b) = true /\
      (eqb (r_end new) (st b) = true -> veqb nv (snd b) = false).
  Definition starts_from (B : rmap K V) (x : K) : Prop :=
    forall b, In b B -> leb x (st b) = true.

  Lemma left_lt A new nv : WF A -> left_ok A new nv ->
    forall a, In a A -> ltb (st a) (r_start new) = true.
  Proof.
    intros [_ HN] HL a Ha. destruct (HL a Ha) as [H _]. pose proof (HN a Ha). ord.
  Qed.

  Lemma right_ok_cons e T new nv : WF (e :: T) ->
    leb (r_end new) (st e) = true ->
    (eqb (r_end new) (st e) = true -> veqb nv (snd e) = false) ->
    right_ok (e :: T) new nv.
  Proof.
    intros HW H1 H2 b [<-|Hb]; [auto|].
    apply WF_cons in HW as (Hn & _ & Hs). destruct (Hs b Hb) as [H3 _].
    split; [ord|]. intros H4. exfalso; ord.
  Qed.

  (** the loop of [insert] *)
  Lemma insert_loop_ok nv end0 : forall B A new fuel,
    length B + 2 <= fuel ->
    WF (A ++ B) ->
    left_ok A new nv -> starts_from B (r_start new) ->
    ltb (r_start new) (r_end new) = true ->
    leb (r_start end0) (r_end new) = true -> leb (r_start new) (r_start end0) = true ->
    (eqb (r_start end0) (r_end new) = true \/ right_ok B new nv) ->
    exists new' B',
      rm_insert_loop cmp veqb fuel new nv end0 (A ++ B) = (Ret new', A ++ B') /\
      r_start new' = r_start new /\ leb (r_end new) (r_end new') = true /\
      WF (A ++ B') /\ right_ok B' new' nv /\
      length B' <= length B /\
      (forall e, In e B -> right_ok [e] new nv -> In e B') /\
      (forall k, osame (ov new' nv B' k) (ov new nv B k)).
  Proof.
    induction B as [|e T IH]; intros A new fuel Hfuel HW HL HB Hne He0 He1 Hr.
    - destruct fuel as [|fuel]; [nlia|].
      exists new, []. cbn [rm_insert_loop]. unfold bind, get, lift.
      assert (HWA : WF A) by (rewrite app_nil_r in HW; exact HW).
      rewrite range_incl; cbn [r_start]; auto.
      + cbn. splits; auto; try ord; try (intros b []);
          try (intros; apply osame_refl); rewrite app_nil_r in *; apply HW; auto.
      + intros a Ha. apply (left_lt A new nv HWA HL a Ha).
    - destruct fuel as [|fuel]; [nlia|].
      pose proof HW as HW0. apply WF_app in HW0 as (HWA & HWB & HAB).
      pose proof HWB as HWB0. apply WF_cons in HWB0 as (Hen & HWT & HeT).
      assert (Hse : leb (r_start new) (st e) = true) by (apply HB; left; reflexivity).
      cbn [rm_insert_loop]. unfold bind at 1, get at 1, bind at 1, lift at 1.
      rewrite range_incl; cbn [r_start]; auto.
      2:{ intros a Ha. apply (left_lt A new nv HWA HL a Ha). }
      cbn [take_while].
      destruct (leb (st e) (r_start end0)) eqn:Ele.
      2:{ (* next stored range is beyond the end *)
        cbn. exists new, (e :: T). splits; auto; try ord; try (apply HW; auto);
          try (intros; apply osame_refl).
        all: destruct Hr as [Hr|Hr]; [|apply Hr; auto].
        all: apply (right_ok_cons e T new nv HWB); auto; try ord.
        all: intros; exfalso; ord. }
      cbn [it_next fst]. destruct e as [b bv]. cbn [fst snd] in *.
      destruct (eqb (r_start b) (r_end new) && negb (veqb bv nv)) eqn:Ebrk.
      + (* break *)
        apply andb_prop in Ebrk as [E1 E2]. apply negb_true_iff in E2.
        cbn. exists new, ((b, bv) :: T). splits; auto; try ord; try (apply HW; auto);
          try (intros; apply osame_refl).
        all: apply (right_ok_cons (b, bv) T new nv HWB); cbn; auto; try ord.
        all: intros _; apply veq_diff_sym; exact E2.
      + unfold rm_adjust_touching_ranges_for_insert.
        assert (HAb : forall a, In a A -> ltb (st a) (r_start b) = true).
        { intros a Ha. apply (WF_sep_lt (A ++ (b, bv) :: T) a (b, bv) HW);
            auto using in_or_app, in_eq. }
        destruct (veqb bv nv) eqn:Eeq.
        * (* same value: adopt *)
          unfold bind at 1, modify at 1, bind at 1, ret at 1.
          rewrite bt_remove_split' by exact HAb.
          set (new1 := mkR (kmin cmp (r_start new) (r_start b)) (kmax cmp (r_end new) (r_end b))).
          assert (Es : r_start new1 = r_start new).
          { unfold new1, kmin; cbn. destruct (ltb (r_start b) (r_start new)) eqn:E; [exfalso; ord|reflexivity]. }
          assert (Ee : leb (r_end new) (r_end new1) = true /\ leb (r_end b) (r_end new1) = true /\
                       (r_end new1 = r_end new \/ r_end new1 = r_end b)).
          { unfold new1, kmax; cbn. destruct (ltb (r_end b) (r_end new)) eqn:E; splits; auto; ord. }
          destruct Ee as (Ee1 & Ee2 & Ee3).
          assert (HWAT : WF (A ++ T)).
          { apply WF_app. splits; auto; try apply HWA; try apply HWT;
              intros; apply HAB; auto; right; auto. }
          assert (HT : ltb (r_end new) (r_end b) = true -> right_ok T new1 nv).
          { intros Hlt t Ht. destruct (HeT t Ht) as [H1 H2]. cbn in H1, H2.
            assert (E3 : r_end new1 = r_end b) by (destruct Ee3 as [E|E]; [exfalso; rewrite E in *; ord|exact E]).
            rewrite E3. split; [exact H1|]. intros H3. apply (veq_diff_l bv); auto. }
          destruct (IH A new1 fuel) as (new' & B' & I1 & I2 & I3 & I4 & I5 & I6 & I7 & I8).
          -- nlia.
          -- exact HWAT.
          -- intros a Ha. rewrite Es. apply HL; exact Ha.
          -- intros t Ht. rewrite Es. apply HB. right; exact Ht.
          -- rewrite Es. ord.
          -- ord.
          -- rewrite Es. exact He1.
          -- destruct (ltb (r_end new) (r_end b)) eqn:Elt; [right; auto|].
             left. destruct Hr as [Hr|Hr]; [destruct Ee3 as [E|E]; rewrite E in *; ord|]. exfalso.
             destruct (Hr (b, bv) (or_introl eq_refl)) as [H1 _]. cbn in H1. ord.
          -- exists new', B'. rewrite I1. splits; auto; try congruence; try ord;
               try (apply I4; auto); try (apply I5; auto); [nlia| |].
             ++ intros x [<-|Hx] Hrx.
                ** exfalso. destruct (Hrx (b, bv) (or_introl eq_refl)) as [H1 H2]. cbn in H1, H2.
                   assert (E4 : veqb nv bv = true) by (apply (veq_sym _ HV); exact Eeq).
                   assert (E5 : eqb (r_end new) (r_start b) = true) by ord.
                   rewrite (H2 E5) in E4. discriminate.
                ** apply I7; [exact Hx|]. intros y [<-|[]].
                   destruct (ltb (r_end new) (r_end b)) eqn:Elt; [apply HT; auto|].
                   destruct (Hrx x (or_introl eq_refl)) as [H1 H2].
                   destruct (HeT x Hx) as [H3 H4]. cbn in H3, H4.
                   split; [destruct Ee3 as [E|E]; rewrite E; ord|].
                   intros H5. destruct Ee3 as [E|E]; rewrite E in H5.
                   --- apply H2; exact H5.
                   --- apply (veq_diff_l bv); auto.
             ++ intros k. eapply osame_trans; [apply I8|].
                unfold ov. cbn [lk]. unfold r_contains in *. rewrite Es.
                destruct (leb (r_start new) k && ltb k (r_end new)) eqn:C1.
                ** assert (E6 : leb (r_start new) k && ltb k (r_end new1) = true) by ord.
                   rewrite E6. apply osame_refl.
                ** destruct (leb (r_start b) k && ltb k (r_end b)) eqn:C2.
                   --- assert (E6 : leb (r_start new) k && ltb k (r_end new1) = true) by ord.
                       rewrite E6. cbn. right. apply (veq_sym _ HV); exact Eeq.
                   --- assert (E6 : leb (r_start new) k && ltb k (r_end new1) = false).
                       { destruct Ee3 as [E|E]; rewrite E; ord. }
                       rewrite E6. apply osame_refl.
        * (* different value *)
          rewrite andb_true_r in Ebrk.
          assert (Hlt : ltb (r_start b) (r_end new) = true).
          { destruct Hr as [Hr|Hr]; [ord|].
            destruct (Hr (b, bv) (or_introl eq_refl)) as [H1 _]. cbn in H1. exfalso. ord. }
          assert (Hend : eqb (r_start end0) (r_end new) = true).
          { destruct Hr as [Hr|Hr]; [exact Hr|].
            destruct (Hr (b, bv) (or_introl eq_refl)) as [H1 _]. cbn in H1. exfalso. ord. }
          assert (Eov : r_overlaps cmp new b = true).
          { unfold r_overlaps, kmax, kmin.
            destruct (ltb (r_start b) (r_start new)) eqn:X1; destruct (ltb (r_end b) (r_end new)) eqn:X2; ord. }
          rewrite Eov. unfold bind at 1, bind at 1, modify at 1.
          rewrite bt_remove_split' by exact HAb.
          assert (E1 : ltb (r_start b) (r_start new) = false) by ord. rewrite E1.
          unfold bind at 1, ret at 1. unfold gtb.
          assert (HWAT : WF (A ++ T)).
          { apply WF_app. splits; auto; try apply HWA; try apply HWT;
              intros; apply HAB; auto; right; auto. }
          destruct (ltb (r_end new) (r_end b)) eqn:E2.
          -- (* right piece stays *)
             unfold bind at 1, modify at 1, ret at 1.
             rewrite (bt_insert_split A T); cbn [r_start].
             2:{ intros a Ha. specialize (HAb a Ha). ord. }
             2:{ intros t Ht. destruct (HeT t Ht) as [H1 _]. cbn in H1. ord. }
             assert (HWp : WF ((mkR (r_end new) (r_end b), bv) :: T)).
             { apply WF_cons. splits; auto. }
             assert (HWAp : WF (A ++ (mkR (r_end new) (r_end b), bv) :: T)).
             { apply WF_app. splits; try apply HWA; try apply HWp; auto.
               intros a x Ha [<-|Hx]; [|apply HAB; auto; right; auto].
               destruct (HL a Ha) as [H1 _]. split; [cbn; ord|].
               intros H2. cbn in H2. exfalso; ord. }
             destruct fuel as [|fuel]; [nlia|].
             cbn [rm_insert_loop]. unfold bind at 1, get at 1, bind at 1, lift at 1.
             rewrite range_incl; auto.
             2:{ intros a Ha. apply (left_lt A new nv HWA HL a Ha). }
             2:{ intros x [<-|Hx]; [cbn; ord|]. apply HB. right; exact Hx. }
             cbn [take_while fst r_start].
             assert (E3 : leb (r_end new) (r_start end0) = true) by ord. rewrite E3.
             cbn [it_next fst r_start].
             assert (E4 : eqb (r_end new) (r_end new) = true) by ord. rewrite E4, Eeq. cbn [negb andb].
             exists new, ((mkR (r_end new) (r_end b), bv) :: T). splits; auto; try ord; try (apply HWAp; auto).
             ++ apply (right_ok_cons (mkR (r_end new) (r_end b), bv) T new nv HWp); cbn; auto; try ord.
                intros _. apply veq_diff_sym; exact Eeq.
             ++ intros x [<-|Hx] Hrx; [|right; exact Hx].
                exfalso. destruct (Hrx (b, bv) (or_introl eq_refl)) as [H1 _]. cbn in H1. ord.
             ++ intros k. unfold ov. cbn [lk]. unfold r_contains. cbn [r_start r_end].
                destruct (leb (r_start new) k && ltb k (r_end new)) eqn:C1; [apply osame_refl|].
                assert (C2 : leb (r_end new) k && ltb k (r_end b) = leb (r_start b) k && ltb k (r_end b)) by ord.
                rewrite C2. apply osame_refl.
          -- (* stored range swallowed *)
             unfold bind at 1, ret at 1, ret at 1.
             destruct (IH A new fuel) as (new' & B' & I1 & I2 & I3 & I4 & I5 & I6 & I7 & I8); auto.
             ++ nlia.
             ++ intros t Ht. apply HB. right; exact Ht.
             ++ exists new', B'. rewrite I1. splits; auto;
                  try (apply I4; auto); try (apply I5; auto); [nlia| |].
                ** intros x [<-|Hx] Hrx; [|auto].
                   exfalso. destruct (Hrx (b, bv) (or_introl eq_refl)) as [H1 _]. cbn in H1. ord.
                ** intros k. eapply osame_trans; [apply I8|].
                   unfold ov. cbn [lk]. unfold r_contains.
                   destruct (leb (r_start new) k && ltb k (r_end new)) eqn:C1; [apply osame_refl|].
                   assert (C2 : leb (r_start b) k && ltb k (r_end b) = false) by ord.
                   rewrite C2. apply osame_refl.
  Qed.

  (** what an update must keep: entries strictly outside [r], or touching it
      with a different value *)
  Definition outside (e : entry) (r : range K) (nv : V) : Prop :=
    left_ok [e] r nv \/ right_ok [e] r nv.

  (** result of the first half of [insert] *)
  Definition phase1_post (m : rmap K V) (r : range K) (nv : V) (new1 : range K)
      (A B : rmap K V) : Prop :=
    WF (A ++ B) /\ left_ok A new1 nv /\ starts_from B (r_start new1) /\
    leb (r_start new1) (r_start r) = true /\ leb (r_end r) (r_end new1) = true /\
    length (A ++ B) <= length m + 1 /\
    (forall e, In e m -> left_ok [e] r nv -> In e A) /\
    (forall e, In e m -> right_ok [e] r nv -> In e B /\ right_ok [e] new1 nv) /\
    (forall k, osame (ov new1 nv (A ++ B) k) (ov r nv m k)).

  Lemma adjust_left_ok L x xv N r nv :
    WF (L ++ (x, xv) :: N) -> ltb (r_start r) (r_end r) = true ->
    leb (r_start x) (r_start r) = true -> leb (r_start r) (r_end x) = true ->
    (forall a, In a L -> ltb (en a) (r_start r) = true) ->
    (forall b, In b N -> leb (r_start r) (st b) = true) ->
    exists new1 A B,
      rm_adjust_touching_ranges_for_insert cmp veqb x xv r nv (L ++ (x, xv) :: N)
        = (Ret new1, A ++ B) /\
      phase1_post (L ++ (x, xv) :: N) r nv new1 A B.
  Proof.
    intros HW Hv Hs He HL HN.
    pose proof HW as HW0. apply WF_app in HW0 as (HWL & HWx & HLx).
    pose proof HWx as HWx0. apply WF_cons in HWx0 as (Hx & HWN & HxN). cbn in Hx.
    assert (HLst : forall a, In a L -> ltb (st a) (r_start x) = true).
    { intros a Ha. apply (WF_sep_lt _ a (x, xv) HW); auto using in_or_app, in_eq. }
    assert (HWLN : WF (L ++ N)).
    { apply WF_app. splits; auto. intros a b Ha Hb. apply HLx; auto. right; exact Hb. }
    unfold rm_adjust_touching_ranges_for_insert.
    destruct (veqb xv nv) eqn:Eeq.
    - (* same value *)
      unfold bind, modify, ret. rewrite bt_remove_split' by exact HLst.
      set (new1 := mkR (kmin cmp (r_start r) (r_start x)) (kmax cmp (r_end r) (r_end x))).
      exists new1, L, N. split; [reflexivity|].
      assert (E1 : eqb (r_start new1) (r_start x) = true).
      { unfold new1, kmin; cbn. destruct (ltb (r_start x) (r_start r)) eqn:E; ord. }
      assert (E2 : leb (r_end r) (r_end new1) = true /\ leb (r_end x) (r_end new1) = true /\
                   (r_end new1 = r_end r \/ r_end new1 = r_end x)).
      { unfold new1, kmax; cbn. destruct (ltb (r_end x) (r_end r)) eqn:E; splits; auto; ord. }
      destruct E2 as (E2 & E3 & E4).
      unfold phase1_post. splits; auto; try ord.
      + intros a Ha. destruct (HLx a (x, xv) Ha (or_introl eq_refl)) as [H1 H2]. cbn in H1, H2.
        split; [ord|]. intros H3. apply veq_diff_sym, (veq_diff_l xv); auto.
        apply veq_diff_sym. apply H2. ord.
      + intros b Hb. specialize (HN b Hb). ord.
      + nlia.
      + intros e Hin Hl. destruct (Hl e (or_introl eq_refl)) as [H1 H2].
        apply in_app_or in Hin as [Hin|[<-|Hin]]; auto; exfalso.
        * cbn in H1, H2. rewrite H2 in Eeq; [discriminate|]. ord.
        * specialize (HN e Hin). pose proof (proj2 HWN e Hin). ord.
      + intros e Hin Hl. destruct (Hl e (or_introl eq_refl)) as [H1 H2].
        apply in_app_or in Hin as [Hin|[<-|Hin]].
        * exfalso. specialize (HL e Hin). pose proof (proj2 HWL e Hin). ord.
        * exfalso. cbn in H1. ord.
        * split; [exact Hin|]. intros b [<-|[]]. destruct (HxN e Hin) as [H3 H4]. cbn in H3, H4.
          split; [destruct E4 as [E4|E4]; rewrite E4; auto|].
          intros H5. destruct E4 as [E4|E4]; rewrite E4 in H5; auto.
          apply (veq_diff_l xv); auto.
      + intros k. unfold ov. rewrite !lk_app. cbn [lk].
        unfold r_contains.
        destruct (leb (r_start r) k && ltb k (r_end r)) eqn:C1.
        * assert (C2 : leb (r_start new1) k && ltb k (r_end new1) = true) by ord.
          rewrite C2. apply osame_refl.
        * destruct (leb (r_start x) k && ltb k (r_end x)) eqn:C2.
          -- assert (C3 : leb (r_start new1) k && ltb k (r_end new1) = true) by ord.
             rewrite C3. rewrite (lk_below L k (r_start x)).
             ++ cbn. right. apply (veq_sym _ HV); exact Eeq.
             ++ intros a Ha. apply (HLx a (x, xv) Ha (or_introl eq_refl)).
             ++ ord.
          -- assert (C3 : leb (r_start new1) k && ltb k (r_end new1) = false).
             { destruct E4 as [E4|E4]; rewrite E4; ord. }
             rewrite C3. apply osame_refl.
    - assert (Eov : r_overlaps cmp r x = ltb (r_start r) (r_end x)).
      { unfold r_overlaps, kmax, kmin.
        destruct (ltb (r_start x) (r_start r)) eqn:X1; destruct (ltb (r_end x) (r_end r)) eqn:X2; ord. }
      rewrite Eov. destruct (ltb (r_start r) (r_end x)) eqn:Eo.
      + (* different value, overlapping: split *)
        unfold bind at 1, modify at 1. rewrite bt_remove_split' by exact HLst.
        unfold gtb.
        set (A := L ++ (if ltb (r_start x) (r_start r) then [(mkR (r_start x) (r_start r), xv)] else [])).
        set (B := (if ltb (r_end r) (r_end x) then [(mkR (r_end r) (r_end x), xv)] else []) ++ N).
        assert (HxN' : forall b, In b N -> leb (r_end x) (st b) = true).
        { intros b Hb. apply (HxN b Hb). }
        assert (HLr : forall a, In a L -> leb (en a) (r_start x) = true).
        { intros a Ha. apply (HLx a (x, xv) Ha (or_introl eq_refl)). }
        exists r, A, B. split.
        * unfold bind at 1.
          destruct (ltb (r_start x) (r_start r)) eqn:E1.
          -- unfold modify at 1. rewrite bt_insert_split; cbn [r_start]; auto.
             2:{ intros b Hb. specialize (HN b Hb). ord. }
             unfold bind at 1. destruct (ltb (r_end r) (r_end x)) eqn:E2; unfold modify, ret.
             ++ change (L ++ (mkR (r_start x) (r_start r), xv) :: N)
                  with (L ++ [(mkR (r_start x) (r_start r), xv)] ++ N).
                rewrite app_assoc. rewrite bt_insert_split; cbn [r_start].
                ** unfold A, B. reflexivity.
                ** intros a Ha. apply in_app_or in Ha as [Ha|[<-|[]]].
                   --- specialize (HLst a Ha). ord.
                   --- cbn. ord.
                ** intros b Hb. specialize (HxN' b Hb). ord.
             ++ unfold A, B. rewrite <- app_assoc. reflexivity.
          -- unfold ret at 1. unfold bind at 1. destruct (ltb (r_end r) (r_end x)) eqn:E2; unfold modify, ret.
             ++ rewrite bt_insert_split; cbn [r_start].
                ** unfold A, B. rewrite app_nil_r. reflexivity.
                ** intros a Ha. specialize (HLst a Ha). ord.
                ** intros b Hb. specialize (HxN' b Hb). ord.
             ++ unfold A, B. rewrite app_nil_r. reflexivity.
        * assert (HA : left_ok A r nv).
          { intros a Ha. unfold A in Ha. apply in_app_or in Ha as [Ha|Ha].
            - specialize (HL a Ha). split; [ord|]. intros; exfalso; ord.
            - destruct (ltb (r_start x) (r_start r)); [|destruct Ha].
              destruct Ha as [<-|[]]. cbn. split; [ord|auto]. }
          assert (HB : right_ok B r nv \/ In (x, xv) [] \/ starts_from B (r_start r)).
          { right. right. intros b Hb. unfold B in Hb. apply in_app_or in Hb as [Hb|Hb]; [|auto].
            destruct (ltb (r_end r) (r_end x)); [|destruct Hb]. destruct Hb as [<-|[]]. cbn. ord. }
          assert (HB' : starts_from B (r_start r)).
          { intros b Hb. unfold B in Hb. apply in_app_or in Hb as [Hb|Hb]; [|auto].
            destruct (ltb (r_end r) (r_end x)); [|destruct Hb]. destruct Hb as [<-|[]]. cbn. ord. }
          clear HB.
          assert (HWA : WF A).
          { unfold A. apply WF_app. split; [exact HWL|]. split.
            - destruct (ltb (r_start x) (r_start r)) eqn:E1; [|apply WF_nil].
              apply WF_cons. splits; [exact E1|apply WF_nil|intros b []].
            - intros a b Ha Hb. destruct (ltb (r_start x) (r_start r)) eqn:E1; [|destruct Hb].
              destruct Hb as [<-|[]]. apply (HLx a (x, xv) Ha (or_introl eq_refl)). }
          assert (HWB : WF B).
          { unfold B. destruct (ltb (r_end r) (r_end x)) eqn:E1; [|exact HWN].
            apply WF_cons. splits; [exact E1|exact HWN|]. intros b Hb. apply (HxN b Hb). }
          unfold phase1_post. splits; auto; try ord.
          -- apply WF_app. splits; auto. intros a b Ha Hb.
             destruct (HA a Ha) as [H1 H2]. pose proof (HB' b Hb) as H3.
             unfold B in Hb. apply in_app_or in Hb as [Hb|Hb].
             ++ destruct (ltb (r_end r) (r_end x)) eqn:E1; [|destruct Hb].
                destruct Hb as [<-|[]]. cbn in *. split; [cbn; ord|]. cbn. intros; exfalso; ord.
             ++ specialize (HxN' b Hb). split; [ord|]. intros; exfalso; ord.
          -- unfold A, B. destruct (ltb (r_start x) (r_start r)); destruct (ltb (r_end r) (r_end x)); nlia.
          -- intros e Hin Hl. destruct (Hl e (or_introl eq_refl)) as [H1 H2].
             apply in_app_or in Hin as [Hin|[<-|Hin]].
             ++ unfold A. apply in_or_app; auto.
             ++ exfalso. cbn in H1, H2. ord.
             ++ exfalso. specialize (HxN' e Hin). pose proof (proj2 HWN e Hin). ord.
          -- intros e Hin Hl. destruct (Hl e (or_introl eq_refl)) as [H1 H2].
             apply in_app_or in Hin as [Hin|[<-|Hin]].
             ++ exfalso. specialize (HL e Hin). pose proof (proj2 HWL e Hin). ord.
             ++ exfalso. cbn in H1. ord.
             ++ split; [unfold B; apply in_or_app; auto|exact Hl].
          -- intros k. unfold ov. unfold A, B. rewrite !lk_app. cbn [lk].
             destruct (r_contains cmp r k) eqn:C1; [apply osame_refl|].
             destruct (lk L k); [apply osame_refl|].
             unfold r_contains in *.
             assert (C2 : leb (r_start x) k && ltb k (r_end x) =
               (ltb (r_start x) (r_start r) && (leb (r_start x) k && ltb k (r_start r))) ||
               (ltb (r_end r) (r_end x) && (leb (r_end r) k && ltb k (r_end x)))) by ord.
             rewrite C2.
             destruct (ltb (r_start x) (r_start r)) eqn:E1; destruct (ltb (r_end r) (r_end x)) eqn:E2;
               cbn [lk]; unfold r_contains; cbn [r_start r_end andb orb].
             ++ destruct (leb (r_start x) k && ltb k (r_start r)); [apply osame_refl|].
                cbn. destruct (leb (r_end r) k && ltb k (r_end x)); apply osame_refl.
             ++ destruct (leb (r_start x) k && ltb k (r_start r)); apply osame_refl.
             ++ destruct (leb (r_end r) k && ltb k (r_end x)); apply osame_refl.
             ++ apply osame_refl.
      + (* different value, merely touching *)
        unfold ret. exists r, (L ++ [(x, xv)]), N.
        rewrite <- app_assoc. split; [reflexivity|].
        unfold phase1_post. rewrite <- app_assoc. cbn [app]. splits; auto; try ord.
        * intros a Ha. apply in_app_or in Ha as [Ha|[<-|[]]].
          -- specialize (HL a Ha). split; [ord|]. intros; exfalso; ord.
          -- cbn. split; [ord|auto].
        * nlia.
        * intros e Hin Hl. destruct (Hl e (or_introl eq_refl)) as [H1 H2].
          apply in_app_or in Hin as [Hin|[<-|Hin]].
          -- apply in_or_app; auto.
          -- apply in_or_app; right; left; reflexivity.
          -- exfalso. specialize (HN e Hin). pose proof (proj2 HWN e Hin). ord.
        * intros e Hin Hl. destruct (Hl e (or_introl eq_refl)) as [H1 H2].
          apply in_app_or in Hin as [Hin|[<-|Hin]].
          -- exfalso. specialize (HL e Hin). pose proof (proj2 HWL e Hin). ord.
          -- exfalso. cbn in H1. ord.
          -- split; [exact Hin|exact Hl].
        * intros k. apply osame_refl.
  Qed.

  Lemma touch_iff a r : ltb (r_start r) (r_end r) = true ->
    ltb (r_start a) (r_end a) = true -> leb (r_start a) (r_start r) = true ->
    r_touches cmp a r = leb (r_start r) (r_end a).
  Proof.
    intros H1 H2 H3. unfold r_touches, kmax, kmin.
    destruct (ltb (r_start r) (r_start a)) eqn:E1; destruct (ltb (r_end r) (r_end a)) eqn:E2; ord.
  Qed.

  Lemma phase1_ok m r nv :
    WF m -> ltb (r_start r) (r_end r) = true ->
    exists L, bt_range c_start Unbounded (Included r) m = Ret L /\
    exists new1 A B,
      (match filter (fun e => r_touches cmp (fst e) r) (firstn 2 (rev L)) with
       | [] => ret r
       | [(s, sv)] => rm_adjust_touching_ranges_for_insert cmp veqb s sv r nv
       | _ :: (s, sv) :: _ => rm_adjust_touching_ranges_for_insert cmp veqb s sv r nv
       end) m = (Ret new1, A ++ B) /\
      phase1_post m r nv new1 A B.
  Proof.
    intros HW Hv. destruct (split_le m r HW) as (L & N & -> & HL & HN & HR).
    exists L. split; [exact HR|].
    pose proof HW as HW0. apply WF_app in HW0 as (HWL & HWN & HLN).
    destruct (rev_cases L) as [->|(L' & [x xv] & ->)].
    - cbn. exists r, [], N. split; [reflexivity|]. unfold phase1_post. cbn [app].
      splits; auto; try ord; try nlia.
      + intros a [].
      + intros b Hb. specialize (HN b Hb). ord.
      + intros e Hin Hl. exfalso. destruct (Hl e (or_introl eq_refl)) as [H1 _].
        specialize (HN e Hin). pose proof (proj2 HWN e Hin). ord.
      + intros k. apply osame_refl.
    - assert (Hxs : leb (r_start x) (r_start r) = true).
      { apply (HL (x, xv)). apply in_or_app; right; left; reflexivity. }
      pose proof HWL as HWL0. apply WF_app in HWL0 as (HWL' & HWx & HL'x).
      apply WF_cons in HWx as (Hx & _ & _). cbn in Hx.
      assert (HN' : forall b, In b N -> leb (r_start r) (st b) = true).
      { intros b Hb. specialize (HN b Hb). ord. }
      rewrite rev_app_distr. cbn [rev app]. rewrite <- app_assoc in *. cbn [app] in *.
      assert (Tx : r_touches cmp x r = leb (r_start r) (r_end x)) by (apply touch_iff; auto).
      destruct (leb (r_start r) (r_end x)) eqn:Ex.
      + destruct (rev_cases L') as [->|(L'' & [y yv] & ->)].
        * cbn. rewrite Tx. cbn. destruct (adjust_left_ok [] x xv N r nv) as (n1 & A & B & H1 & H2); auto.
          cbn [app] in H1. rewrite H1. exists n1, A, B. auto.
        * rewrite rev_app_distr. cbn [rev app firstn filter fst]. rewrite Tx.
          pose proof HWL' as HWL0. apply WF_app in HWL0 as (HWL'' & HWy & HL''y).
          apply WF_cons in HWy as (Hy & _ & _). cbn in Hy.
          destruct (HL'x (y, yv) (x, xv)) as [Hyx _];
            [apply in_or_app; right; left; reflexivity|left; reflexivity|]. cbn in Hyx.
          assert (Ty : r_touches cmp y r = leb (r_start r) (r_end y)) by (apply touch_iff; auto; ord).
          rewrite Ty. destruct (leb (r_start r) (r_end y)) eqn:Ey.
          -- rewrite <- app_assoc in *. cbn [app] in *.
             destruct (adjust_left_ok L'' y yv ((x, xv) :: N) r nv) as (n1 & A & B & H1 & H2); auto.
             ++ ord.
             ++ intros a Ha. destruct (HL''y a (y, yv) Ha (or_introl eq_refl)) as [H1 _]. cbn in H1. ord.
             ++ intros b [<-|Hb]; [cbn; ord|auto].
             ++ rewrite H1. exists n1, A, B. auto.
          -- destruct (adjust_left_ok (L'' ++ [(y, yv)]) x xv N r nv) as (n1 & A & B & H1 & H2); auto.
             ++ intros a Ha. apply in_app_or in Ha as [Ha|[<-|[]]]; [|cbn; ord].
                destruct (HL''y a (y, yv) Ha (or_introl eq_refl)) as [H1 _]. cbn in H1. ord.
             ++ rewrite H1. exists n1, A, B. auto.
      + (* the last candidate does not touch: none does *)
        assert (HA : forall a, In a (L' ++ [(x, xv)]) -> ltb (en a) (r_start r) = true).
        { intros a Ha. apply in_app_or in Ha as [Ha|[<-|[]]]; [|cbn; ord].
          destruct (HL'x a (x, xv) Ha (or_introl eq_refl)) as [H1 _]. cbn in H1. ord. }
        assert (Hf : filter (fun e => r_touches cmp (fst e) r) (firstn 2 ((x, xv) :: rev L')) = []).
        { destruct (rev_cases L') as [->|(L'' & [y yv] & ->)]; cbn.
          - rewrite Tx. reflexivity.
          - rewrite rev_app_distr. cbn. rewrite Tx.
            assert (H1 : ltb (r_end y) (r_start r) = true)
              by (apply (HA (y, yv)); rewrite <- app_assoc; apply in_or_app; right; left; reflexivity).
            assert (H2 : ltb (r_start y) (r_end y) = true)
              by (apply (proj2 HWL' (y, yv)); apply in_or_app; right; left; reflexivity).
            rewrite touch_iff by (auto; ord).
            assert (H3 : leb (r_start r) (r_end y) = false) by ord. rewrite H3. reflexivity. }
        rewrite Hf. exists r, (L' ++ [(x, xv)]), N. rewrite <- app_assoc. split; [reflexivity|].
        unfold phase1_post. rewrite <- app_assoc. cbn [app]. splits; auto; try ord.
        * intros a Ha. specialize (HA a Ha). split; [ord|]. intros; exfalso; ord.
        * nlia.
        * intros e Hin Hl. destruct (Hl e (or_introl eq_refl)) as [H1 H2].
          apply in_app_or in Hin as [Hin|[<-|Hin]].
          -- apply in_or_app; auto.
          -- apply in_or_app; right; left; reflexivity.
          -- exfalso. specialize (HN e Hin). pose proof (proj2 HWN e Hin). ord.
        * intros e Hin Hl. destruct (Hl e (or_introl eq_refl)) as [H1 H2].
          apply in_app_or in Hin as [Hin|[<-|Hin]].
          -- exfalso. specialize (HA e (in_or_app _ _ _ (or_introl Hin))).
             pose proof (proj2 HWL' e Hin). ord.
          -- exfalso. cbn in H1. ord.
          -- split; [exact Hin|exact Hl].
        * intros k. apply osame_refl.
  Qed.

  (** the whole of [insert] on a valid range *)
  Lemma insert_ok m r v :
    WF m -> ltb (r_start r) (r_end r) = true ->
    exists m', rm_insert cmp veqb r v m = (Ret tt, m') /\ WF m' /\
      (forall k, osame (lk m' k) (ov r v m k)) /\
      length m' <= length m + 2 /\
      (forall e, In e m -> outside e r v -> In e m') /\
      (exists r', In (r', v) m' /\ leb (r_start r') (r_start r) = true /\
                  leb (r_end r) (r_end r') = true).
  Proof.
    intros HW Hv. destruct (phase1_ok m r v HW Hv) as (L & HR & n1 & A & B & H1 & H2).
    destruct H2 as (P1 & P2 & P3 & P4 & P5 & P6 & P7 & P8 & P9).
    unfold rm_insert. unfold bind at 1, assert_. rewrite Hv. unfold ret at 1.
    unfold bind at 1, get at 1, bind at 1, lift at 1. rewrite HR. unfold bind at 1. rewrite H1.
    unfold bind at 1, get at 1, bind at 1.
    assert (Hn1 : ltb (r_start n1) (r_end n1) = true) by ord.
    destruct (insert_loop_ok v (mkR (r_end n1) (r_end n1)) B A n1 (length (A ++ B) + 2))
      as (n2 & B' & I1 & I2 & I3 & I4 & I5 & I6 & I7 & I8); auto; cbn [r_start]; try ord.
    { nlia. }
    { left. ord. }
    rewrite I1. unfold modify.
    apply WF_app in I4 as (W1 & W2 & W3).
    assert (HA : forall a, In a A -> ltb (st a) (r_start n2) = true).
    { rewrite I2. apply (left_lt A n1 v W1 P2). }
    assert (HB : forall b, In b B' -> ltb (r_start n2) (st b) = true).
    { intros b Hb. destruct (I5 b Hb) as [H3 _]. rewrite I2. ord. }
    rewrite bt_insert_split by assumption.
    assert (HWn : WF ((n2, v) :: B')).
    { apply WF_cons. splits; auto. cbn. rewrite I2. ord. }
    exists (A ++ (n2, v) :: B'). split; [reflexivity|].
    assert (HWm : WF (A ++ (n2, v) :: B')).
    { apply WF_app. splits; auto. intros a b Ha [<-|Hb]; [|auto].
      destruct (P2 a Ha) as [H3 H4]. split; cbn; rewrite I2; auto. }
    splits; auto.
    - intros k. eapply osame_trans; [|apply P9]. unfold ov.
      specialize (I8 k). unfold ov in I8. rewrite !lk_app. cbn [lk].
      unfold r_contains in *. rewrite I2 in *.
      destruct (leb (r_start n1) k) eqn:C1.
      + rewrite (lk_below A k (r_start n1)) by (auto; intros a Ha; apply (P2 a Ha)). exact I8.
      + cbn [andb]. rewrite (lk_above B' k (r_start n1)), (lk_above B k (r_start n1)).
        * apply osame_refl.
        * intros b Hb. apply P3; exact Hb.
        * ord.
        * intros b Hb. specialize (HB b Hb). ord.
        * ord.
    - nlia.
    - intros e Hin [Ho|Ho].
      + apply in_or_app. left. apply P7; auto.
      + destruct (P8 e Hin Ho) as [H3 H4]. apply in_or_app. right. right. apply I7; auto.
    - exists n2. splits.
      + apply in_or_app. right. left. reflexivity.
      + rewrite I2. exact P4.
      + ord.
  Qed.

  Lemma insert_panics m r v :
    ltb (r_start r) (r_end r) = false -> rm_insert cmp veqb r v m = (Panicked PAssert, m).
  Proof. intros H. unfold rm_insert, bind at 1, assert_. rewrite H. reflexivity. Qed.
End Proofs.
