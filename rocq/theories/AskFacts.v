(** Updates whose questions [==] and [!=] are answered in any way (AskModel.v):
    what holds whatever the answers are. *)
From Coq Require Import List Bool Sorting.Sorted Lia.
From Verif Require Import Order Outcome BTree SearchTree Ranges History Spec MapModel IMapModel ListLemmas
  MapProofs MapRemove AnyEq MapFacts MapIter MapMore MapProps CrashModel CrashFacts AnyFacts AnyCrash AskModel.
Import ListNotations.

Section Half.
  Context {K V : Type} {cmp : K -> K -> comparison}.
  Context (HO : TotalOrd cmp).
  Notation ltb := (ltb cmp).
  Notation leb := (leb cmp).
  Notation eqb := (eqb cmp).
  Notation c_start := (cmp_start cmp).
  Notation entry := (range K * V)%type.
  Notation st e := (r_start (fst e)).
  Notation en e := (r_end (fst e)).
  Notation never := (fun _ _ : V => false).
  Notation always := (fun _ _ : V => true).
  Notation const b := (fun _ _ : V => b).
  Notation WW := (@WF K V cmp never).
  Notation lk := (@lk K V cmp).
  Notation ov := (@ov K V cmp).
  Notation part := (@part K V cmp never).
  Notation touch := (@touch K cmp).
  Notation near_hit := (@near_hit K V cmp always).
  Notation first_new := (@first_new K V cmp always).
  Notation absorbed := (@absorbed V always).
  Notation phase1 := (@phase1 K V cmp always).
  Notation yes bs := (length (filter (fun b : bool => b) bs)).

  (** ** The states gone through *)
  Lemma first_new_b b m0 r v n1 : @AnyCrash.first_new K V cmp (const b) m0 r v n1 -> first_new m0 r v n1.
  Proof. intros (H1 & [H2 | (x & H2 & H3 & H4 & H5)]); split; auto. right. exists x. auto. Qed.

  Lemma qgood_adjust P m0 cur s sv v bs m :
    part P m0 m -> ltb (r_start cur) (r_end cur) = true -> In (s, sv) m -> P (s, sv) = true ->
    good (part P m0) (rmq_adjust_touching_ranges_for_insert cmp s sv cur v bs) m
      (fun x m' => part P m0 m' /\ ltb (r_start (fst x)) (r_end (fst x)) = true /\
         (fst x = cur \/ fst x = hull (cmp := cmp) cur s)).
  Proof.
    intros HJ Hc Hin HP. unfold rmq_adjust_touching_ranges_for_insert, qbind, ask, qlift.
    destruct bs as [|b bs].
    { eapply (good_bind _ _ _ _ (fun _ _ => False)); [apply good_nofuel; exact HJ|intros ? ? []]. }
    eapply (good_bind _ _ _ _ (fun x m' => x = (b, bs) /\ m' = m)); [apply good_ret; auto|].
    intros x m' [-> ->]. cbn [fst snd].
    eapply good_bind; [apply (good_adjust_any HO (veqb := const b) P m0 cur s sv v m HJ Hc Hin HP)|].
    intros cur' m' (H1 & H2 & H3). apply good_ret. cbn [fst]. splits; auto. destruct H3 as [H3|[_ H3]]; auto.
  Qed.
  Lemma qgood_insert_loop m0 r v n1 fuel : ltb (r_start r) (r_end r) = true -> first_new m0 r v n1 ->
    forall bs cur m, part (near_hit m0 r v) m0 m -> ltb (r_start cur) (r_end cur) = true ->
    eqb (r_start cur) (r_start n1) = true ->
    good (part (near_hit m0 r v) m0) (rmq_insert_loop cmp fuel cur v (mkR (r_end n1) (r_end n1)) bs) m
      (fun x m' => part (near_hit m0 r v) m0 m' /\ eqb (r_start (fst x)) (r_start n1) = true).
  Proof.
    intros Hr HF. induction fuel as [|n IH]; intros bs cur m Hm Hc Hs0; cbn [rmq_insert_loop].
    { apply good_nofuel. exact Hm. }
    unfold qbind at 1. eapply (good_bind _ _ _ _ (fun x m' => x = (m, bs) /\ m' = m)).
    { unfold qlift. eapply (good_bind _ _ _ _ (fun a m' => a = m /\ m' = m)); [apply good_get; auto|].
      intros a m' [-> ->]. apply good_ret. auto. }
    intros a m' [-> ->]. cbn [fst snd].
    unfold qbind at 1. eapply (good_bind _ _ _ _ (fun x m' =>
      bt_range c_start (Included cur) (Included (mkR (r_end n1) (r_end n1))) m = Ret (fst x) /\ snd x = bs /\ m' = m)).
    { unfold qlift. eapply (good_bind _ _ _ _ (fun a m' => bt_range c_start (Included cur) (Included (mkR (r_end n1) (r_end n1))) m = Ret a /\ m' = m)).
      - apply good_lift; auto.
      - intros a m' [H ->]. apply good_ret. auto. }
    intros [l bs0] m' (Hl & E & ->). cbn [fst snd] in *. subst bs0.
    destruct (fst (it_next l)) as [[s sv]|] eqn:En; [|apply good_ret; auto].
    unfold qbind at 1. eapply (good_bind _ _ _ _ (fun x m' => m' = m)).
    { destruct (eqb (r_start s) (r_end cur)); [|apply good_ret; auto]. unfold ask. destruct bs; [apply good_nofuel; exact Hm|apply good_ret; auto]. }
    intros [brk bs1] m' ->. cbn [fst snd]. destruct brk; [apply good_ret; auto|].
    destruct (range_first _ _ _ _ _ _ Hl En) as (I1 & I2 & I3). cbn in I2, I3. unfold cmp_start in *.
    cbn [r_start] in I2.
    assert (Hs : ltb (r_start s) (r_end s) = true) by (destruct Hm as (HW & _); apply (proj2 HW _ I1)).
    assert (Q1 : leb (r_start s) (r_end n1) = true).
    { unfold Order.leb. destruct (cmp (r_start s) (r_end n1)); congruence. }
    assert (Q2 : ltb (r_start s) (r_start cur) = false).
    { unfold Order.ltb. destruct (cmp (r_start s) (r_start cur)); congruence. }
    assert (HP : near_hit m0 r v (s, sv) = true).
    { apply (first_touch HO m0 r v n1); auto. destruct HF as (G1 & _). unfold CrashFacts.touch. cbn [fst]. ord. }
    unfold qbind. eapply good_bind; [apply (qgood_adjust _ m0 cur s sv v bs1 m Hm Hc I1 HP)|].
    intros [cur' bs'] m' (H1 & H2 & H3). cbn [fst snd] in *. apply IH; auto. destruct H3 as [-> | ->]; [exact Hs0|].
    unfold hull, kmin. cbn [r_start]. rewrite Q2. exact Hs0.
  Qed.
  Lemma qgoodE_insert m r v bs : WW m ->
    goodE (part (near_hit m r v) m) (fun m' => forall e, In e m -> near_hit m r v e = false -> In e m')
      (rmq_insert cmp r v bs) m.
  Proof.
    intros HW. pose proof (part_refl (near_hit m r v) m HW) as Hm. unfold rmq_insert.
    unfold qbind at 1. eapply (goodE_bind _ _ _ _ _ (fun x m' => snd x = bs /\ ltb (r_start r) (r_end r) = true /\ m' = m)).
    { unfold qlift, cassert, assert_, cbind. split; destruct (ltb (r_start r) (r_end r)); cbn; auto. }
    intros [[] bs0] m' (E & Hr & ->). cbn [fst snd] in *. subst bs0.
    unfold qbind at 1. eapply (goodE_bind _ _ _ _ _ (fun x m' => x = (m, bs) /\ m' = m)).
    { unfold qlift, cbind, cget, cret. split; [constructor|]. cbn. auto. }
    intros a m' [-> ->]. cbn [fst snd].
    unfold qbind at 1. eapply (goodE_bind _ _ _ _ _ (fun x m' => bt_range c_start Unbounded (Included r) m = Ret (fst x) /\ snd x = bs /\ m' = m)).
    { unfold qlift. eapply (good_bind _ _ _ _ (fun a m' => bt_range c_start Unbounded (Included r) m = Ret a /\ m' = m)).
      - apply good_lift; auto.
      - intros a m' [H ->]. apply good_ret. auto. }
    intros [l bs0] m' (Hl & E & ->). cbn [fst snd] in *. subst bs0.
    unfold qbind at 1. eapply (goodE_bind _ _ _ _ _ (fun x m' => part (near_hit m r v) m m' /\ first_new m r v (fst x))).
    { assert (Hc : forall s sv, In (s, sv) (filter (fun e => r_touches cmp (fst e) r) (firstn 2 (rev l))) ->
        In (s, sv) m /\ touch r s = true).
      { intros s sv Hin. apply filter_In in Hin as [H1 H2]. cbn in H2.
        split; [|apply (touch_touches HO); exact H2].
        assert (H3 : In (s, sv) l).
        { apply in_rev. rewrite <- (firstn_skipn 2 (rev l)). apply in_or_app. left; exact H1. }
        apply (range_In _ _ _ _ _ _ Hl H3). }
      assert (Ha : forall s sv, In (s, sv) m -> touch r s = true ->
        good (part (near_hit m r v) m) (rmq_adjust_touching_ranges_for_insert cmp s sv r v bs) m
          (fun x m' => part (near_hit m r v) m m' /\ first_new m r v (fst x))).
      { intros s sv H1 H2. eapply good_weaken; [apply (qgood_adjust (near_hit m r v) m r s sv v bs m Hm Hr H1)|].
        - unfold AnyCrash.near_hit. cbn [fst]. rewrite H2. reflexivity.
        - intros [cur' bs'] m' (G1 & G2 & G3). cbn [fst] in *. split; [exact G1|]. split; [exact G2|].
          destruct G3 as [-> | ->]; [left; reflexivity|right]. exists (s, sv). splits; auto. apply (proj2 HW _ H1). }
      destruct (filter _ _) as [|[s sv] [|[t tv] l']].
      - apply good_ret. split; [exact Hm|]. split; auto.
      - destruct (Hc s sv (or_introl eq_refl)). apply Ha; auto.
      - destruct (Hc t tv (or_intror (or_introl eq_refl))). apply Ha; auto. }
    intros [n1 bs1] m' [Hm' HF]. cbn [fst snd] in *.
    unfold qbind. eapply goodE_bind.
    { apply (qgood_insert_loop m r v n1 _ Hr HF); [exact Hm'|apply HF|ord]. }
    intros [n2 bs2] m'' ((_ & _ & H3) & E2). cbn [fst snd] in *.
    assert (G : goodE (part (near_hit m r v) m) (fun m' => forall e, In e m -> near_hit m r v e = false -> In e m')
      (cmodify (bt_insert c_start n2 v)) m'').
    { apply goodE_modify. intros e He HP.
      assert (Hne : cmp (r_start n2) (st e) <> Eq).
      { intros E. assert (E' : eqb (r_start n1) (st e) = true) by ord.
        pose proof (proj2 HW e He) as Hv.
        assert (X : near_hit m r v e = true); [|congruence].
        apply (first_touch HO m r v n1); auto. unfold CrashFacts.touch. destruct HF as (G1 & _). ord. }
      apply bt_insert_In; [apply H3; assumption|exact Hne]. }
    destruct G as (T & HT & HF'). exists T. split; [|exact HF'].
    destruct HT as [HT|(x & X1 & X2 & a & X3)]; [left; exact HT|right; exists x]. injection X3 as _ <-.
    splits; auto. eexists. reflexivity.
  Qed.

  (** ** What a call that returns has done *)
  Lemma ab_b b c nv x y : @AnyEq.absorbed V (const b) c nv x y -> absorbed c nv x y.
  Proof. intros [H|(H & w & H1 & _ & H2)]; [left; exact H|right]. split; [exact H|]. exists w. auto. Qed.
  Lemma phase1_b b m r nv n1 A B : @AnyEq.phase1 K V cmp (const b) m r nv n1 A B -> phase1 m r nv n1 A B.
  Proof. intros (H1 & H2 & H3 & H4 & H5 & H6 & H7). unfold AnyEq.phase1. splits; auto. intros k. apply (ab_b b), H7. Qed.

  Definition inv (end0 : range K) (A B : rmap K V) (new : range K) : Prop :=
    WW (A ++ B) /\ lefts (cmp := cmp) A new /\ rights (cmp := cmp) B (r_start new) /\
    ltb (r_start new) (r_end new) = true /\ leb (r_start end0) (r_end new) = true /\
    leb (r_start new) (r_start end0) = true /\
    (eqb (r_start end0) (r_end new) = true \/
     (rights (cmp := cmp) B (r_end new) /\ forall b, In b B -> ltb (r_start end0) (st b) = true)).
  (** the next stored range that the loop looks at *)
  Lemma inv_next end0 A B new : inv end0 A B new ->
    bt_range c_start (Included new) (Included end0) (A ++ B) = Ret (take_while (fun e => leb (st e) (r_start end0)) B).
  Proof.
    intros (HW & HL & HB & Hne & He0 & He1 & Hr). apply WF_app in HW as (HWA & _).
    rewrite (range_incl HO); auto. intros a Ha. apply (lefts_lt HO A new HWA HL a Ha).
  Qed.
  (** one round of the loop *)
  Lemma round b end0 A s sv T new nv : inv end0 A ((s, sv) :: T) new -> leb (r_start s) (r_start end0) = true ->
    exists new1 B1,
      rm_adjust_touching_ranges_for_insert cmp (const b) s sv new nv (A ++ (s, sv) :: T) = (Ret new1, A ++ B1) /\
      inv end0 A B1 new1 /\ r_start new1 = r_start new /\ leb (r_end new) (r_end new1) = true /\
      length B1 + (if b then 1 else 0) <= S (length T) /\
      (forall k, absorbed (r_contains cmp new1 k) nv (ov new1 nv B1 k) (ov new nv ((s, sv) :: T) k)).
  Proof.
    intros HI Ele. pose proof HI as (HW & HL & HB & Hne & He0 & He1 & Hr).
    pose proof HW as HW0. apply WF_app in HW0 as (HWA & HWB & HAB).
    pose proof HWB as HWB0. apply WF_cons in HWB0 as (Hen & HWT & HeT). cbn [fst] in Hen.
    assert (Hse : leb (r_start new) (r_start s) = true) by (apply (HB (s, sv)); left; reflexivity).
    assert (Hend : eqb (r_start end0) (r_end new) = true).
    { destruct Hr as [Hr|[_ Hr]]; [exact Hr|]. specialize (Hr _ (or_introl eq_refl)). cbn in Hr. exfalso; ord. }
    assert (HAb : forall a, In a A -> ltb (st a) (r_start s) = true).
    { intros a Ha. apply (WF_sep_lt HO (A ++ (s, sv) :: T) a (s, sv) HW); auto using in_or_app, in_eq. }
    assert (HWAT : WW (A ++ T)).
    { apply WF_app. splits; auto; try apply HWA; try apply HWT; intros; apply HAB; auto; right; auto. }
    assert (HTb : rights (cmp := cmp) T (r_end s)) by (intros t Ht; apply (HeT t Ht)).
    unfold rm_adjust_touching_ranges_for_insert. destruct b.
    - unfold bind, modify, ret. rewrite (bt_remove_split' HO) by exact HAb.
      set (new1 := mkR (kmin cmp (r_start new) (r_start s)) (kmax cmp (r_end new) (r_end s))).
      assert (Es : r_start new1 = r_start new).
      { unfold new1, kmin; cbn. destruct (ltb (r_start s) (r_start new)) eqn:E; [exfalso; ord|reflexivity]. }
      assert (Ee : leb (r_end new) (r_end new1) = true /\ leb (r_end s) (r_end new1) = true /\
                   (r_end new1 = r_end new \/ r_end new1 = r_end s)).
      { unfold new1, kmax; cbn. destruct (ltb (r_end s) (r_end new)) eqn:E; splits; auto; ord. }
      destruct Ee as (Ee1 & Ee2 & Ee3).
      exists new1, T. split; [reflexivity|]. splits; auto; [|nlia|].
      + unfold inv. rewrite Es. splits; auto; try ord.
        * intros a Ha. rewrite Es. apply HL; exact Ha.
        * intros t Ht. apply HB. right; exact Ht.
        * destruct (ltb (r_end new) (r_end s)) eqn:Elt.
          -- right. assert (E3 : r_end new1 = r_end s)
               by (destruct Ee3 as [E|E]; [exfalso; rewrite E in *; ord|exact E]).
             rewrite E3. split; [exact HTb|]. intros t Ht. specialize (HTb t Ht). ord.
          -- left. destruct Ee3 as [E|E]; rewrite E in *; ord.
      + intros k. unfold MapProofs.ov. cbn [MapProofs.lk]. unfold r_contains in *. rewrite Es.
        destruct (leb (r_start new) k && ltb k (r_end new)) eqn:C1.
        * assert (E6 : leb (r_start new) k && ltb k (r_end new1) = true) by ord. rewrite E6. apply ab_refl.
        * destruct (leb (r_start s) k && ltb k (r_end s)) eqn:C2.
          -- assert (E6 : leb (r_start new) k && ltb k (r_end new1) = true) by ord. rewrite E6.
             right. split; [reflexivity|]. exists sv. auto.
          -- assert (E6 : leb (r_start new) k && ltb k (r_end new1) = false).
             { destruct Ee3 as [E|E]; rewrite E; ord. }
             rewrite E6. apply ab_refl.
    - destruct (ltb (r_start s) (r_end new)) eqn:Hlt.
      2:{ assert (Eov : r_overlaps cmp new s = false).
          { unfold r_overlaps, kmax, kmin.
            destruct (ltb (r_start s) (r_start new)) eqn:X1; destruct (ltb (r_end s) (r_end new)) eqn:X2; ord. }
          rewrite Eov. unfold ret. exists new, ((s, sv) :: T). splits; auto; [ord|cbn; nlia|intros k; apply ab_refl]. }
      assert (Eov : r_overlaps cmp new s = true).
      { unfold r_overlaps, kmax, kmin.
        destruct (ltb (r_start s) (r_start new)) eqn:X1; destruct (ltb (r_end s) (r_end new)) eqn:X2; ord. }
      rewrite Eov. unfold bind at 1, modify at 1.
      rewrite (bt_remove_split' HO) by exact HAb.
      assert (E1 : ltb (r_start s) (r_start new) = false) by ord. rewrite E1.
      unfold bind at 1, ret at 1. unfold gtb.
      destruct (ltb (r_end new) (r_end s)) eqn:E2.
      + unfold bind, modify, ret.
        rewrite (bt_insert_split HO A T); cbn [r_start].
        2:{ intros a Ha. specialize (HAb a Ha). ord. }
        2:{ intros t Ht. specialize (HTb t Ht). ord. }
        assert (HWp : WW ((mkR (r_end new) (r_end s), sv) :: T)).
        { apply WF_cons. splits; auto. }
        assert (HWAp : WW (A ++ (mkR (r_end new) (r_end s), sv) :: T)).
        { apply WF_app. splits; try apply HWA; try apply HWp; auto.
          intros a x Ha [<-|Hx]; [|apply HAB; auto; right; auto].
          specialize (HL a Ha). apply sep0. cbn; ord. }
        exists new, ((mkR (r_end new) (r_end s), sv) :: T). splits; auto; [|ord|cbn; nlia|].
        * unfold inv. splits; auto. intros x [<-|Hx]; [cbn; ord|apply HB; right; exact Hx].
        * intros k. unfold MapProofs.ov. cbn [MapProofs.lk]. unfold r_contains. cbn [r_start r_end].
          destruct (leb (r_start new) k && ltb k (r_end new)) eqn:C1; [apply ab_refl|].
          assert (C2 : leb (r_end new) k && ltb k (r_end s) = leb (r_start s) k && ltb k (r_end s)) by ord.
          rewrite C2. apply ab_refl.
      + unfold bind, ret. exists new, T. splits; auto; [|ord|nlia|].
        * unfold inv. splits; auto. intros t Ht. apply HB. right; exact Ht.
        * intros k. unfold MapProofs.ov. cbn [MapProofs.lk]. unfold r_contains.
          destruct (leb (r_start new) k && ltb k (r_end new)) eqn:C1; [apply ab_refl|].
          assert (C2 : leb (r_start s) k && ltb k (r_end s) = false) by ord.
          rewrite C2. apply ab_refl.
  Qed.
  (** the outcome of a C computation on a state *)
  Lemma snd_bind {S A B} (c : C S A) (f : A -> C S B) s a s' :
    snd (c s) = (Ret a, s') -> snd (cbind c f s) = snd (f a s').
  Proof. intros H. unfold cbind. destruct (c s) as [t [o x]]. cbn in H. injection H as -> ->. destruct (f a s'). reflexivity. Qed.

  Lemma qloop nv end0 fuel : forall bs A B new, inv end0 A B new -> length bs < fuel ->
    match snd (rmq_insert_loop cmp fuel new nv end0 bs (A ++ B)) with
    | (Ret (new', bs'), m') => exists B', m' = A ++ B' /\
        r_start new' = r_start new /\ leb (r_end new) (r_end new') = true /\
        WW (A ++ B') /\ rights (cmp := cmp) B' (r_end new') /\ length B' <= length B /\
        (forall k, absorbed (r_contains cmp new' k) nv (ov new' nv B' k) (ov new nv B k))
    | (OutOfFuel, _) => yes bs <= length B
    | (Panicked _, _) => False
    end.
  Proof.
    induction fuel as [|fuel IH]; intros bs A B new HI Hb; [lia|].
    cbn [rmq_insert_loop]. unfold qbind at 1. erewrite snd_bind by reflexivity. cbn [fst snd].
    unfold qbind at 1. erewrite snd_bind.
    2:{ unfold qlift, clift, cbind. rewrite (inv_next end0 A B new HI). reflexivity. }
    cbn [fst snd]. pose proof HI as (HW & HL & HB & Hne & He0 & He1 & Hr).
    pose proof HW as HW0. apply WF_app in HW0 as (HWA & HWB & HAB).
    assert (Hstop : rights (cmp := cmp) B (r_end new) -> exists B', A ++ B = A ++ B' /\
        r_start new = r_start new /\ leb (r_end new) (r_end new) = true /\
        WW (A ++ B') /\ rights (cmp := cmp) B' (r_end new) /\ length B' <= length B /\
        (forall k, absorbed (r_contains cmp new k) nv (ov new nv B' k) (ov new nv B k))).
    { intros HR. exists B. splits; auto; [ord|intros; apply ab_refl]. }
    destruct B as [|[s sv] T].
    { cbn. apply Hstop. intros b []. }
    cbn [take_while fst]. destruct (leb (r_start s) (r_start end0)) eqn:Ele.
    2:{ cbn. apply Hstop. destruct Hr as [Hr|[Hr _]]; [|exact Hr]. apply (rights_cons HO); [exact HWB|cbn; ord]. }
    cbn [it_next fst].
    assert (Hgo : forall bs1, length bs1 <= length bs -> yes bs = yes bs1 ->
      match snd ((new' <- rmq_adjust_touching_ranges_for_insert cmp s sv new nv ;;
                  rmq_insert_loop cmp fuel new' nv end0)%Q bs1 (A ++ (s, sv) :: T)) with
      | (Ret (new', bs'), m') => exists B', m' = A ++ B' /\
          r_start new' = r_start new /\ leb (r_end new) (r_end new') = true /\
          WW (A ++ B') /\ rights (cmp := cmp) B' (r_end new') /\ length B' <= length ((s, sv) :: T) /\
          (forall k, absorbed (r_contains cmp new' k) nv (ov new' nv B' k) (ov new nv ((s, sv) :: T) k))
      | (OutOfFuel, _) => yes bs <= length ((s, sv) :: T)
      | (Panicked _, _) => False
      end).
    { intros bs1 Hl Hy. unfold qbind, rmq_adjust_touching_ranges_for_insert, qbind, ask.
      destruct bs1 as [|b bs1]; [cbn; rewrite Hy; cbn; nlia|].
      destruct (round b end0 A s sv T new nv HI Ele) as (new1 & B1 & R1 & R2 & R3 & R4 & R5 & R6).
      erewrite snd_bind.
      2:{ erewrite snd_bind by reflexivity. cbn [fst snd]. unfold qlift. erewrite snd_bind.
          2:{ rewrite e_adjust. exact R1. }
          reflexivity. }
      cbn [fst snd]. cbn in Hl. specialize (IH bs1 A B1 new1 R2 ltac:(lia)).
      destruct (snd (rmq_insert_loop cmp fuel new1 nv end0 bs1 (A ++ B1))) as [[[new' bs']|p|] m']; auto.
      - destruct IH as (B' & G1 & G2 & G3 & G4 & G5 & G6 & G7). exists B'. splits; auto; try congruence; try ord.
        + cbn. destruct b; nlia.
        + intros k. eapply ab_trans; [apply G7|]. eapply ab_weak; [|apply R6].
          unfold r_contains. rewrite G2, R3. intros Hk. ord.
      - rewrite Hy. cbn. destruct b; cbn in *; nlia. }
    unfold qbind at 1. destruct (eqb (r_start s) (r_end new)) eqn:Eq.
    - unfold ask. destruct bs as [|b bs1]; [cbn; nlia|].
      erewrite snd_bind by reflexivity. cbn [fst snd]. destruct b.
      + cbn. apply Hstop. apply (rights_cons HO); [exact HWB|cbn; ord].
      + apply Hgo; [cbn; lia|reflexivity].
    - erewrite snd_bind by reflexivity. cbn [fst snd]. apply Hgo; [lia|reflexivity].
  Qed.

  Lemma qinsert m r v bs : WW m -> ltb (r_start r) (r_end r) = true ->
    match snd (rmq_insert cmp r v bs m) with
    | (Ret _, m') => WW m' /\ length m' <= length m + 2 /\
        exists n, In (n, v) m' /\ leb (r_start n) (r_start r) = true /\ leb (r_end r) (r_end n) = true /\
          forall k, absorbed (r_contains cmp n k) v (lk m' k) (ov r v m k)
    | (OutOfFuel, _) => yes bs <= length m + 2
    | (Panicked _, _) => False
    end.
  Proof.
    intros HW Hv. unfold rmq_insert.
    unfold qbind at 1. erewrite snd_bind.
    2:{ unfold qlift, cassert, assert_, cbind. rewrite Hv. reflexivity. }
    unfold qbind at 1. erewrite snd_bind by reflexivity. cbn [fst snd].
    pose proof (fun b => phase1_any HO (veqb := const b) m r v HW Hv) as HP.
    destruct (HP true) as (L & HR & HP1).
    assert (HP' : forall b, exists n1 A B,
      (match filter (fun e => r_touches cmp (fst e) r) (firstn 2 (rev L)) with
       | [] => ret r
       | [(s, sv)] => rm_adjust_touching_ranges_for_insert cmp (const b) s sv r v
       | _ :: (s, sv) :: _ => rm_adjust_touching_ranges_for_insert cmp (const b) s sv r v
       end) m = (Ret n1, A ++ B) /\ phase1 m r v n1 A B).
    { intros b. destruct (HP b) as (L' & HR' & n1 & A & B & H1 & H2). rewrite HR in HR'. injection HR' as <-.
      exists n1, A, B. split; [exact H1|apply (phase1_b b), H2]. }
    clear HP HP1. unfold qbind at 1. erewrite snd_bind.
    2:{ unfold qlift, clift, cbind. rewrite HR. reflexivity. }
    cbn [fst snd].
    assert (Hend : forall n1 bs1 A B, phase1 m r v n1 A B -> length bs1 <= length bs -> yes bs <= yes bs1 + 1 ->
      match snd ((new2 <- (fun bs => rmq_insert_loop cmp (S (length bs)) n1 v (mkR (r_end n1) (r_end n1)) bs) ;;
                  qlift (cmodify (bt_insert c_start new2 v)))%Q bs1 (A ++ B)) with
      | (Ret _, m') => WW m' /\ length m' <= length m + 2 /\
          exists n, In (n, v) m' /\ leb (r_start n) (r_start r) = true /\ leb (r_end r) (r_end n) = true /\
            forall k, absorbed (r_contains cmp n k) v (lk m' k) (ov r v m k)
      | (OutOfFuel, _) => yes bs <= length m + 2
      | (Panicked _, _) => False
      end).
    { intros n1 bs1 A B (P1 & P2 & P3 & P4 & P5 & P6 & P9) Hl Hy. unfold qbind.
      assert (HI : inv (mkR (r_end n1) (r_end n1)) A B n1).
      { unfold inv. cbn [r_start r_end]. splits; auto; try ord. left; ord. }
      pose proof (qloop v (mkR (r_end n1) (r_end n1)) (S (length bs1)) bs1 A B n1 HI ltac:(lia)) as HQ.
      destruct (rmq_insert_loop cmp (S (length bs1)) n1 v (mkR (r_end n1) (r_end n1)) bs1 (A ++ B)) as [t [[[n2 bs2]|p|] m2]] eqn:E;
        cbn [snd] in HQ.
      2:{ destruct HQ. }
      2:{ unfold cbind. rewrite E. cbn. rewrite app_length in *. nlia. }
      erewrite snd_bind by (rewrite E; reflexivity). cbn [fst snd].
      unfold qlift. erewrite snd_bind by reflexivity. cbn [cret snd].
      destruct HQ as (B' & -> & I2 & I3 & I4 & I5 & I6 & I8).
      apply WF_app in I4 as (W1 & W2 & W3).
      assert (HA : forall a, In a A -> ltb (st a) (r_start n2) = true).
      { rewrite I2. apply (lefts_lt HO A n1 W1 P2). }
      assert (HB : forall b, In b B' -> ltb (r_start n2) (st b) = true).
      { intros b Hb. specialize (I5 b Hb). rewrite I2. ord. }
      rewrite (bt_insert_split HO) by assumption.
      assert (HWn : WW ((n2, v) :: B')).
      { apply WF_cons. splits; auto; [cbn; rewrite I2; ord|]. intros b Hb. apply sep0. apply I5; exact Hb. }
      splits.
      - apply WF_app. splits; auto. intros a b Ha [<-|Hb]; [|auto].
        apply sep0. cbn. rewrite I2. apply P2; exact Ha.
      - rewrite app_length in *. cbn [length]. nlia.
      - exists n2. rewrite I2. splits; auto using in_or_app, in_eq; [ord|].
        intros k. eapply ab_trans.
        2:{ eapply ab_weak; [|apply P9]. unfold r_contains. rewrite I2. intros Hk. ord. }
        unfold MapProofs.ov.
        specialize (I8 k). unfold MapProofs.ov in I8. rewrite !lk_app. cbn [MapProofs.lk].
        unfold r_contains in *. rewrite I2 in *.
        destruct (leb (r_start n1) k) eqn:C1.
        + rewrite (lk_below HO A k (r_start n1)) by (auto; intros a Ha; apply (P2 a Ha)). exact I8.
        + cbn [andb]. rewrite (lk_above HO B' k (r_start n1)), (lk_above HO B k (r_start n1)).
          * apply ab_refl.
          * intros b Hb. apply P3; exact Hb.
          * ord.
          * intros b Hb. specialize (HB b Hb). ord.
          * ord. }
    assert (Hadj : forall s sv,
      (forall b, exists n1 A B, rm_adjust_touching_ranges_for_insert cmp (const b) s sv r v m = (Ret n1, A ++ B) /\
         phase1 m r v n1 A B) ->
      match snd ((new1 <- rmq_adjust_touching_ranges_for_insert cmp s sv r v ;;
                  new2 <- (fun bs => rmq_insert_loop cmp (S (length bs)) new1 v (mkR (r_end new1) (r_end new1)) bs) ;;
                  qlift (cmodify (bt_insert c_start new2 v)))%Q bs m) with
      | (Ret _, m') => WW m' /\ length m' <= length m + 2 /\
          exists n, In (n, v) m' /\ leb (r_start n) (r_start r) = true /\ leb (r_end r) (r_end n) = true /\
            forall k, absorbed (r_contains cmp n k) v (lk m' k) (ov r v m k)
      | (OutOfFuel, _) => yes bs <= length m + 2
      | (Panicked _, _) => False
      end).
    { intros s sv Hp. unfold qbind at 1. unfold rmq_adjust_touching_ranges_for_insert, qbind at 1, ask.
      destruct bs as [|b bs1]; [cbn; nlia|].
      destruct (Hp b) as (n1 & A & B & R1 & R2). erewrite snd_bind.
      2:{ erewrite snd_bind by reflexivity. cbn [fst snd]. unfold qlift. erewrite snd_bind.
          2:{ rewrite e_adjust. exact R1. }
          reflexivity. }
      cbn [fst snd]. apply Hend; auto; destruct b; cbn; lia.
    }
    destruct (filter _ _) as [|[s sv] [|[t tv] l']].
    - destruct (HP' true) as (n1 & A & B & H1 & H2). unfold ret in H1. injection H1 as <- ->.
      unfold qbind at 1. erewrite snd_bind by reflexivity. cbn [fst snd]. apply Hend; auto; try lia.
    - apply Hadj. exact HP'.
    - apply Hadj. exact HP'.
  Qed.

  (** ** Every state of every call *)
  Lemma q_panics (m : rmap K V) r v bs : ltb (r_start r) (r_end r) = false ->
    rmq_insert cmp r v bs m = ([], (Panicked PAssert, m)).
  Proof. intros E. unfold rmq_insert, qbind, qlift, cassert, assert_, cbind. rewrite E. reflexivity. Qed.
  Lemma qinsert_crash r v bs m x : WW m -> In x (crash_states (rmq_insert cmp r v bs) m) ->
    WW x /\ ((exists bs', snd (rmq_insert cmp r v bs m) = (Ret (tt, bs'), x)) \/ forall k, lk x k = lk m k \/ lk x k = None) /\
    (forall e, In e m -> near_hit m r v e = false -> In e x).
  Proof.
    intros HW [<-|Hx]; [splits; auto|].
    destruct (ltb (r_start r) (r_end r)) eqn:E; [|rewrite (q_panics m r v bs E) in Hx; destruct Hx].
    destruct (qgoodE_insert m r v bs HW) as (T & HT & HF). rewrite Forall_forall in HF.
    assert (HP : forall y, part (near_hit m r v) m y -> WW y /\
      ((exists bs', snd (rmq_insert cmp r v bs m) = (Ret (tt, bs'), y)) \/ forall k, lk y k = lk m k \/ lk y k = None) /\
      (forall e, In e m -> near_hit m r v e = false -> In e y)).
    { intros y (H1 & H2 & H3). splits; auto. }
    destruct HT as [HT | (y & HT & HL & [[] bs'] & Hy)]; rewrite HT in *; [apply HP; auto|].
    apply in_app_or in Hx as [Hx|[<-|[]]]; [apply HP; auto|].
    pose proof (qinsert m r v bs HW E) as HQ. rewrite Hy in HQ. destruct HQ as (H1 & _). splits; auto.
    left. exists bs'. exact Hy.
  Qed.
  (** the record ends with the final state *)
  Lemma qlast_or {A} (c : C (rmap K V) A) m : tracked c -> In (snd (snd (c m))) (crash_states c m).
  Proof.
    intros H. rewrite <- (H m). unfold crash_states. destruct (fst (c m)) as [|a l] using rev_ind; [left; reflexivity|].
    rewrite last_last. right. apply in_or_app. right. left. reflexivity.
  Qed.
  Lemma qt_lift {S A} (c : C S A) bs : tracked c -> tracked (qlift c bs).
  Proof. intros H. apply t_bind; [exact H|]. intros a. apply t_ret. Qed.
  Lemma qt_bind {S A B} (c : Q S A) (f : A -> Q S B) bs :
    (forall bs, tracked (c bs)) -> (forall a bs, tracked (f a bs)) -> tracked (qbind c f bs).
  Proof. intros H1 H2. apply t_bind; [apply H1|]. intros a. apply H2. Qed.
  Lemma qt_ask {S} bs : tracked (S := S) (ask bs).
  Proof. destruct bs; [apply t_nofuel|apply t_ret]. Qed.
  Lemma qt_adjust s sv r v bs : tracked (rmq_adjust_touching_ranges_for_insert (V := V) cmp s sv r v bs).
  Proof. apply qt_bind; [apply qt_ask|]. intros b bs'. apply qt_lift, t_adjust. Qed.
  Lemma qt_insert r v bs : tracked (rmq_insert (V := V) cmp r v bs).
  Proof.
    assert (HL : forall n x cur bs, tracked (rmq_insert_loop (V := V) cmp n cur v x bs)).
    { induction n as [|n IH]; intros x cur bs0; cbn [rmq_insert_loop]; [apply t_nofuel|].
      apply qt_bind; [intros; apply qt_lift, t_get|]. intros m bs1.
      apply qt_bind; [intros; apply qt_lift, t_lift|]. intros l bs2.
      destruct (fst (it_next l)) as [[s sv]|]; [|apply t_ret].
      apply qt_bind; [intros; destruct (eqb _ _); [apply qt_ask|apply t_ret]|]. intros b bs3.
      destruct b; [apply t_ret|]. apply qt_bind; [intros; apply qt_adjust|]. intros a bs4. apply IH. }
    unfold rmq_insert.
    apply qt_bind; [intros; apply qt_lift, t_assert|]. intros _ bs1.
    apply qt_bind; [intros; apply qt_lift, t_get|]. intros m bs2.
    apply qt_bind; [intros; apply qt_lift, t_lift|]. intros l bs3.
    apply qt_bind; [intros; destruct (filter _ _) as [|[s sv] [|[t tv] l']]; [apply t_ret|apply qt_adjust|apply qt_adjust]|].
    intros n1 bs4. apply qt_bind; [intros; apply HL|]. intros n2 bs5. apply qt_lift, t_modify.
  Qed.
  Lemma qextend_crash l : forall bs m x, WW m -> In x (crash_states (rmq_extend cmp l bs) m) -> WW x.
  Proof.
    unfold rmq_extend. induction l as [|[r v] l IH]; intros bs m x HW [<-|Hx]; try exact HW; [destruct Hx|].
    cbn [qfor_each fst snd] in Hx. unfold qbind, cbind in Hx.
    pose proof (fun y Hy => proj1 (qinsert_crash r v bs m y HW (or_intror Hy))) as H1.
    pose proof (proj1 (qinsert_crash r v bs m _ HW (qlast_or _ m (qt_insert r v bs)))) as HW1.
    destruct (rmq_insert cmp r v bs m) as [t [[[u bs1]|p|] m1]]; cbn in *; auto.
    specialize (IH bs1 m1 x HW1). unfold crash_states in IH.
    destruct (qfor_each _ l bs1 m1) as [t' y]. cbn in *. apply in_app_or in Hx as [Hx|Hx]; auto.
  Qed.
  Lemma qt_extend l bs : tracked (rmq_extend (V := V) cmp l bs).
  Proof.
    revert bs. unfold rmq_extend. induction l as [|e l IH]; intros bs; [apply t_ret|].
    apply qt_bind; [intros; apply qt_insert|]. intros _ bs'. apply IH.
  Qed.
  Lemma qt_exec o bs : tracked (rmq_exec (V := V) cmp o bs).
  Proof.
    destruct o; [apply qt_insert|apply qt_lift, t_remove|apply qt_lift, t_modify|apply qt_extend].
  Qed.
  Lemma fst_lift {S A} (c : C S A) bs s : fst (qlift c bs s) = fst (c s).
  Proof. unfold qlift, cbind. destruct (c s) as [t [[a|p|] s']]; cbn; auto. apply app_nil_r. Qed.
  Lemma qexec_crash o bs m x : WW m -> In x (crash_states (rmq_exec cmp o bs) m) -> WW x.
  Proof.
    intros HW. destruct o as [r v|r| |l]; cbn [rmq_exec].
    - intros Hx. apply (qinsert_crash r v bs m x HW Hx).
    - unfold crash_states. rewrite fst_lift. intros Hx. apply (remove_crash_any HO r m x HW Hx).
    - intros [<-|[<-|[]]]; [exact HW|apply WF_nil].
    - apply qextend_crash; exact HW.
  Qed.
  Lemma qstep_WW m q : WW m -> WW (qstep (rmq_exec cmp) m q).
  Proof.
    intros HW. unfold qstep. apply (qexec_crash (q_op q) (q_answers q) m _ HW).
    destruct (nth_in_or_default (q_cut q) (crash_states (rmq_exec cmp (q_op q) (q_answers q)) m)
      (snd (snd (rmq_exec cmp (q_op q) (q_answers q) m)))) as [Hi | ->]; [exact Hi|]. apply qlast_or, qt_exec.
  Qed.
  Notation qrun := (@rmq_run K V cmp).
  Lemma qrun_WW qs : WW (qrun qs).
  Proof.
    unfold rmq_run. assert (H : forall m, WW m -> WW (fold_left (qstep (rmq_exec cmp)) qs m)); [|apply H, WF_nil].
    induction qs as [|q qs IH]; intros m HW; cbn; [exact HW|]. apply IH, qstep_WW, HW.
  Qed.
  Lemma qrun_never qs : exists ops, qrun qs = rm_run cmp never ops.
  Proof. apply (WF_reachable HO (veqb := never)), qrun_WW. Qed.

  (** ** In terms of the map's own queries *)
  Lemma q_insert qs r v bs :
    if valid_range cmp r
    then match snd (rmq_insert cmp r v bs (qrun qs)) with
         | (Ret _, m') => length m' <= length (qrun qs) + 2 /\
             exists n, In (n, v) (rm_iter m') /\ (forall k, in_range cmp r k = true -> in_range cmp n k = true) /\
             forall k, exists o o', rm_get cmp (qrun qs) k = Ret o /\ rm_get cmp m' k = Ret o' /\
               if in_range cmp r k then o' = Some v
               else o' = o \/ in_range cmp n k = true /\ o <> None /\ o' = Some v
         | (OutOfFuel, _) => yes bs <= length (qrun qs) + 2
         | (Panicked _, _) => False
         end
    else rmq_insert cmp r v bs (qrun qs) = ([], (Panicked PAssert, qrun qs)).
  Proof.
    unfold valid_range. destruct (ltb (r_start r) (r_end r)) eqn:Hv; [|apply q_panics; exact Hv].
    pose proof (qinsert (qrun qs) r v bs (qrun_WW qs) Hv) as HQ.
    destruct (snd (rmq_insert cmp r v bs (qrun qs))) as [[u|p|] m']; auto.
    destruct HQ as (HW & Hl & n & N1 & N2 & N3 & N4). split; [exact Hl|]. exists n. split; [exact N1|]. split.
    { intros k. unfold in_range. intros Hk. ord. }
    intros k. exists (lk (qrun qs) k), (lk m' k). split; [apply (get_ok HO (veqb := never)), qrun_WW|].
    split; [apply (get_ok HO (veqb := never)), HW|].
    rewrite !(in_range_contains HO). specialize (N4 k). unfold MapProofs.ov in N4.
    destruct (r_contains cmp r k).
    - destruct N4 as [H2 | (_ & w & _ & _ & H2)]; exact H2.
    - destruct N4 as [H2 | (H1 & w & H2 & _ & H3)]; [left; exact H2|right]. rewrite H2. splits; auto. discriminate.
  Qed.
  Lemma q_insert_interrupted qs r v bs x : In x (crash_states (rmq_insert cmp r v bs) (qrun qs)) ->
    ((exists bs', snd (rmq_insert cmp r v bs (qrun qs)) = (Ret (tt, bs'), x)) \/
     forall k, rm_get cmp x k = rm_get cmp (qrun qs) k \/ rm_get cmp x k = Ret None) /\
    (forall e, In e (rm_iter (qrun qs)) ->
       ltb (en e) (r_start r) = true \/ ltb (r_end r) (st e) = true ->
       (forall y, In y (rm_iter (qrun qs)) ->
          (ltb (en y) (r_start r) = true \/ ltb (r_end r) (st y) = true) \/
          (ltb (en e) (st y) = true \/ ltb (en y) (st e) = true)) ->
       In e (rm_iter x)).
  Proof.
    intros Hx. destruct (qinsert_crash r v bs (qrun qs) x (qrun_WW qs) Hx) as (H1 & H2 & H3). split.
    - destruct H2 as [H2|H2]; [left; exact H2|right]. intros k.
      rewrite !(get_ok HO (veqb := never)) by (exact H1 || apply qrun_WW). destruct (H2 k) as [-> | ->]; auto.
    - intros e He Ha Hn. apply H3; [exact He|]. unfold AnyCrash.near_hit. apply orb_false_iff. split.
      + unfold CrashFacts.touch. destruct Ha; ord.
      + destruct (existsb _ _) eqn:E; [exfalso|reflexivity]. apply existsb_exists in E as (y & Hy & E).
        apply andb_prop in E as [E E3]. apply andb_prop in E as [E1 E2]. unfold CrashFacts.touch in *.
        destruct (Hn y Hy) as [[|]|[|]]; ord.
  Qed.

  Lemma q_remove qs r bs :
    if valid_range cmp r
    then exists t m', rmq_exec cmp (ORemove r) bs (qrun qs) = (t, (Ret (tt, bs), m')) /\
      length m' <= length (qrun qs) + 1 /\
      forall k, rm_get cmp m' k = if in_range cmp r k then Ret None else rm_get cmp (qrun qs) k
    else rmq_exec cmp (ORemove r) bs (qrun qs) = ([], (Panicked PAssert, qrun qs)).
  Proof.
    cbn [rmq_exec]. unfold qlift, cbind.
    destruct (valid_range cmp r) eqn:Hv.
    - destruct (qrun_never qs) as (ops & ->). pose proof (any_remove HO (veqb := never) ops r) as H. rewrite Hv in H.
      destruct H as (m' & H1 & H2 & H3). rewrite <- e_remove in H1.
      destruct (rmx_remove cmp r (rm_run cmp never ops)) as [t [o s]]. cbn in H1. injection H1 as -> ->.
      eexists. exists m'. splits; auto. reflexivity.
    - unfold valid_range in Hv. unfold rmx_remove, cbind, cassert, assert_. rewrite Hv. reflexivity.
  Qed.

  (** ** A [==] that is a function of the values gives some answers *)
  Section Function.
    Context (veqb : V -> V -> bool).
    Lemma a_loop v end0 fuel : forall cur m t cur' m',
      rmx_insert_loop cmp veqb fuel cur v end0 m = (t, (Ret cur', m')) ->
      exists bs, forall rest fuel', length bs < fuel' ->
        rmq_insert_loop cmp fuel' cur v end0 (bs ++ rest) m = (t, (Ret (cur', rest), m')).
    Proof.
      induction fuel as [|fuel IH]; intros cur m t cur' m' H; [discriminate H|].
      cbn [rmx_insert_loop] in H. unfold cbind at 1, cget, cbind at 1, clift in H.
      destruct (bt_range c_start (Included cur) (Included end0) m) as [l|p|] eqn:El; try discriminate H.
      assert (Hq : forall fuel' bs, rmq_insert_loop cmp (S fuel') cur v end0 bs m =
        (match fst (it_next l) with
         | None => qret cur
         | Some (stored, stored_value) =>
             brk <- (if eqb (r_start stored) (r_end cur) then ask else qret false) ;;
             if brk : bool then qret cur
             else new' <- rmq_adjust_touching_ranges_for_insert cmp stored stored_value cur v ;;
                  rmq_insert_loop cmp fuel' new' v end0
         end)%Q bs m).
      { intros fuel' bs. cbn [rmq_insert_loop]. unfold qbind at 1, qlift, cbind at 1 2, cget, cret. cbn [fst snd app].
        unfold qbind at 1, cbind at 1 2, clift. rewrite El. cbn [fst snd app].
        match goal with |- _ = ?Y => destruct Y as [? ?] end. reflexivity. }
      destruct (fst (it_next l)) as [[s sv]|] eqn:En.
      2:{ cbn in H. injection H as <- <- <-. exists []. intros rest fuel' Hf. destruct fuel' as [|fuel']; [lia|].
          rewrite Hq. reflexivity. }
      destruct (eqb (r_start s) (r_end cur) && negb (veqb sv v)) eqn:Eb.
      { cbn in H. injection H as <- <- <-. apply andb_prop in Eb as [E1 E2]. exists [true].
        intros rest fuel' Hf. destruct fuel' as [|fuel']; [lia|]. rewrite Hq, E1. reflexivity. }
      unfold cbind in H. destruct (rmx_adjust_touching_ranges_for_insert cmp veqb s sv cur v m) as [t1 [[n1|p|] m1]] eqn:Ea;
        try discriminate H.
      destruct (rmx_insert_loop cmp veqb fuel n1 v end0 m1) as [t2 [o2 m2]] eqn:E2. injection H as <- -> ->.
      destruct (IH n1 m1 t2 cur' m' E2) as (bs & Hbs).
      exists ((if eqb (r_start s) (r_end cur) then [false] else []) ++ veqb sv v :: bs).
      intros rest fuel' Hf. destruct fuel' as [|fuel']; [lia|]. rewrite Hq.
      assert (Hgo : (new' <- rmq_adjust_touching_ranges_for_insert cmp s sv cur v ;;
                     rmq_insert_loop cmp fuel' new' v end0)%Q (veqb sv v :: bs ++ rest) m = (t1 ++ t2, (Ret (cur', rest), m'))).
      { unfold qbind, rmq_adjust_touching_ranges_for_insert, qbind, ask, qlift.
        assert (Ea' : rmx_adjust_touching_ranges_for_insert cmp (const (veqb sv v)) s sv cur v m = (t1, (Ret n1, m1))) by exact Ea.
        cbn [fst snd]. unfold cbind, cret. cbn [fst snd]. rewrite Ea'. cbn [fst snd app].
        rewrite Hbs by (rewrite app_length in Hf; cbn in Hf; lia). rewrite !app_nil_r. reflexivity. }
      destruct (eqb (r_start s) (r_end cur)) eqn:Ee.
      - cbn [app]. unfold qbind at 1, ask at 1, cbind at 1, cret at 1. cbn [fst snd].
        rewrite Hgo. reflexivity.
      - cbn [app]. unfold qbind at 1, qret at 1, cbind at 1, cret at 1. cbn [fst snd].
        rewrite Hgo. reflexivity.
    Qed.
    Lemma a_insert r v m t m' : rmx_insert cmp veqb r v m = (t, (Ret tt, m')) ->
      exists bs, forall rest, rmq_insert cmp r v (bs ++ rest) m = (t, (Ret (tt, rest), m')).
    Proof.
      intros H. unfold rmx_insert in H. unfold cbind at 1, cassert, assert_ in H.
      destruct (ltb (r_start r) (r_end r)) eqn:Hv; [|discriminate H]. unfold ret in H.
      unfold cbind at 1, cget in H. unfold cbind at 1, clift in H.
      destruct (bt_range c_start Unbounded (Included r) m) as [l|p|] eqn:El; try discriminate H.
      cbn [app] in H.
      set (c1 := match filter (fun e => r_touches cmp (fst e) r) (firstn 2 (rev l)) with
                 | [] => cret r
                 | [(s, sv)] => rmx_adjust_touching_ranges_for_insert cmp veqb s sv r v
                 | _ :: (s, sv) :: _ => rmx_adjust_touching_ranges_for_insert cmp veqb s sv r v
                 end) in H.
      set (q1 := match filter (fun e => r_touches cmp (fst e) r) (firstn 2 (rev l)) with
                 | [] => qret r
                 | [(s, sv)] => rmq_adjust_touching_ranges_for_insert cmp s sv r v
                 | _ :: (s, sv) :: _ => rmq_adjust_touching_ranges_for_insert cmp s sv r v
                 end).
      assert (H1 : forall t1 n1 m1, c1 m = (t1, (Ret n1, m1)) ->
        exists bs, forall rest, q1 (bs ++ rest) m = (t1, (Ret (n1, rest), m1))).
      { assert (Ha : forall s sv t1 n1 m1, rmx_adjust_touching_ranges_for_insert cmp veqb s sv r v m = (t1, (Ret n1, m1)) ->
          exists bs, forall rest, rmq_adjust_touching_ranges_for_insert cmp s sv r v (bs ++ rest) m = (t1, (Ret (n1, rest), m1))).
        { intros s sv t1 n1 m1 E. exists [veqb sv v]. intros rest.
          unfold rmq_adjust_touching_ranges_for_insert, qbind, ask, qlift. cbn [app]. unfold cbind, cret. cbn [fst snd].
          assert (E' : rmx_adjust_touching_ranges_for_insert cmp (const (veqb sv v)) s sv r v m = (t1, (Ret n1, m1))) by exact E.
          rewrite E'. cbn. rewrite app_nil_r. reflexivity. }
        unfold c1, q1. destruct (filter _ _) as [|[s sv] [|[s' sv'] l']]; intros t1 n1 m1 E; [|apply Ha, E|apply Ha, E].
        exists []. intros rest. cbn in E. injection E as <- <- <-. reflexivity. }
      unfold cbind at 1 in H. destruct (c1 m) as [t1 [[n1|p|] m1]] eqn:E1; try discriminate H.
      destruct (H1 _ _ _ eq_refl) as (bs1 & Hb1). unfold cbind in H.
      destruct (rmx_insert_loop cmp veqb (length m1 + 2) n1 v (mkR (r_end n1) (r_end n1)) m1) as [t2 [[n2|p|] m2]] eqn:E2; try discriminate H.
      destruct (a_loop _ _ _ _ _ _ _ _ E2) as (bs2 & Hb2).
      cbn in H. injection H as <- <-. exists (bs1 ++ bs2). intros rest. rewrite <- app_assoc.
      unfold rmq_insert. unfold qbind at 1, qlift at 1, cassert, assert_, cbind at 1 2. rewrite Hv. cbn [fst snd ret cret app].
      unfold qbind at 1, qlift at 1, cbind at 1 2, cget, cret at 1. cbn [fst snd app].
      unfold qbind at 1, qlift at 1, cbind at 1 2, clift. rewrite El. cbn [fst snd cret app].
      fold q1. unfold qbind at 1, cbind at 1. rewrite Hb1. cbn [fst snd].
      unfold qbind at 1, cbind at 1. rewrite Hb2 by (rewrite app_length; lia). cbn [fst snd].
      unfold qlift, cbind, cmodify, cret. cbn [app]. rewrite ?app_nil_r. reflexivity.
    Qed.
    Lemma a_extend l : forall m t m', rmx_extend cmp veqb l m = (t, (Ret tt, m')) ->
      exists bs, forall rest, rmq_extend cmp l (bs ++ rest) m = (t, (Ret (tt, rest), m')).
    Proof.
      unfold rmx_extend, rmq_extend. induction l as [|[r v] l IH]; intros m t m' H; cbn [cfor_each qfor_each fst snd] in *.
      { exists []. intros rest. cbn in H. injection H as <- <-. reflexivity. }
      unfold cbind in H. destruct (rmx_insert cmp veqb r v m) as [t1 [[[]|p|] m1]] eqn:E1; try discriminate H.
      destruct (cfor_each _ l m1) as [t2 [o2 m2]] eqn:E2. injection H as <- -> ->.
      destruct (a_insert _ _ _ _ _ E1) as (bs1 & H1). destruct (IH _ _ _ E2) as (bs2 & H2).
      exists (bs1 ++ bs2). intros rest. rewrite <- app_assoc. unfold qbind, cbind. rewrite H1. cbn [fst snd].
      rewrite H2. reflexivity.
    Qed.
    Lemma a_exec o m t m' : rmx_exec cmp veqb o m = (t, (Ret tt, m')) ->
      exists bs, forall rest, rmq_exec cmp o (bs ++ rest) m = (t, (Ret (tt, rest), m')).
    Proof.
      destruct o as [r v|r| |l]; cbn [rmx_exec rmq_exec].
      - apply a_insert.
      - intros H. exists []. intros rest. unfold qlift, cbind. cbn [app]. rewrite H. cbn. rewrite app_nil_r. reflexivity.
      - intros H. exists []. intros rest. unfold qlift, cbind. cbn [app]. rewrite H. cbn. rewrite app_nil_r. reflexivity.
      - apply a_extend.
    Qed.
  End Function.
End Half.
