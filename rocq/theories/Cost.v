(** How many modifications of the underlying [BTreeMap] updates make, as
    recorded by CrashModel.v: amortised over a history, a bounded number per
    call.  The potential is the number of entries: a modification that removes
    an entry is paid for by the one that inserted it. *)
From Coq Require Import List Bool Sorting.Sorted Lia.
From Verif Require Import Order Outcome BTree Ranges History Spec MapModel IMapModel StepModel ListLemmas
  MapProofs MapRemove MapFacts MapIter MapProps ISim Cuts IFacts IMapProps CrashModel CrashFacts CrashSim CrashProps.
Import ListNotations.

(** ** Modifications and growth *)
Section Cost.
  Context {E : Type}.
  Definition cost (n : nat) {A} (c : C (list E) A) (s : list E) (Q : A -> list E -> Prop) : Prop :=
    length (fst (c s)) + length (snd (snd (c s))) <= length s + n /\
    (forall a, fst (snd (c s)) = Ret a -> Q a (snd (snd (c s)))).
  Lemma cost_bind {A B} n1 n2 (c : C (list E) A) (f : A -> C (list E) B) s Q Q' :
    cost n1 c s Q -> (forall a s', Q a s' -> cost n2 (f a) s' Q') -> cost (n1 + n2) (cbind c f) s Q'.
  Proof.
    intros [H1 H2] H3. unfold cost, cbind. destruct (c s) as [t [[a|p|] s']]; cbn in *.
    - destruct (H3 a s' (H2 a eq_refl)) as [H4 H5]. destruct (f a s') as [t' x]. cbn in *.
      rewrite app_length. split; [lia|exact H5].
    - split; [lia|discriminate].
    - split; [lia|discriminate].
  Qed.
  (** a first part that does nothing *)
  Lemma cost_bind0 {A B} n (c : C (list E) A) (f : A -> C (list E) B) s Q Q' :
    cost 0 c s Q -> (forall a s', Q a s' -> cost n (f a) s' Q') -> cost n (cbind c f) s Q'.
  Proof. intros H1 H2. exact (cost_bind 0 n c f s Q Q' H1 H2). Qed.
  Lemma cost_ret {A} n (a : A) s (Q : A -> list E -> Prop) : Q a s -> cost n (cret a) s Q.
  Proof. intros H. split; cbn; [lia|]. intros b [= <-]. exact H. Qed.
  Lemma cost_get n s (Q : list E -> list E -> Prop) : Q s s -> cost n cget s Q.
  Proof. intros H. split; cbn; [lia|]. intros b [= <-]. exact H. Qed.
  Lemma cost_lift {A} n (o : outcome A) s (Q : A -> list E -> Prop) :
    (forall a, o = Ret a -> Q a s) -> cost n (clift o) s Q.
  Proof. intros H. split; cbn; [lia|exact H]. Qed.
  Lemma cost_nofuel {A} n s (Q : A -> list E -> Prop) : cost n cnofuel s Q.
  Proof. split; cbn; [lia|discriminate]. Qed.
  Lemma cost_le {A} n n' (c : C (list E) A) s Q : cost n c s Q -> n <= n' -> cost n' c s Q.
  Proof. intros [H1 H2] H. split; [lia|exact H2]. Qed.
  Lemma cost_weaken {A} n (c : C (list E) A) s (Q Q' : A -> list E -> Prop) :
    cost n c s Q -> (forall a s', Q a s' -> Q' a s') -> cost n c s Q'.
  Proof. intros [H1 H2] H. split; [exact H1|]. auto. Qed.
End Cost.

Lemma bt_insert_length {Q V} (c : Q -> Q -> comparison) k (v : V) m :
  length (bt_insert c k v m) <= length m + 1.
Proof.
  induction m as [|[a b] m IH]; cbn; [lia|]. destruct (c k a); cbn; lia.
Qed.

Section Half.
  Context {K V : Type} {cmp : K -> K -> comparison} {veqb : V -> V -> bool}.
  Context (HO : TotalOrd cmp) (HV : PartialEquiv veqb).

  Notation ltb := (ltb cmp).
  Notation leb := (leb cmp).
  Notation eqb := (eqb cmp).
  Notation c_start := (cmp_start cmp).
  Notation entry := (range K * V)%type.
  Notation st e := (r_start (fst e)).
  Notation en e := (r_end (fst e)).
  Notation WF := (@WF K V cmp veqb).
  Notation sep := (@sep K V cmp veqb).
  Notation touch := (@touch K cmp).
  Notation lpiece := (@lpiece K V cmp).
  Notation rpiece := (@rpiece K V cmp).
  Notation run := (rm_run cmp veqb).

  (** the first entry of a range query starts no later than any other entry in it *)
  Lemma range_first_le lo hi m l e p : WF m ->
    bt_range c_start lo hi m = Ret l -> fst (it_next l) = Some e ->
    In p m -> below c_start lo (fst p) = false -> e = p \/ ltb (st e) (st p) = true.
  Proof.
    unfold bt_range. destruct (bad_bounds c_start lo hi); [discriminate|].
    intros HW [= <-] He. induction m as [|a m IH]; [intros []|].
    apply WF_cons in HW as (W1 & W2 & W3). cbn in He. intros Hp Hb.
    destruct (below c_start lo (fst a)) eqn:Ea.
    - destruct Hp as [-> |Hp]; [congruence|]. auto.
    - cbn in He. destruct (negb (above c_start hi (fst a))); cbn in He; [|discriminate].
      injection He as ->. destruct Hp as [-> |Hp]; [left; reflexivity|right].
      apply (sep_lt HO (veqb := veqb)); auto.
  Qed.

  (** cutting [r] out of an entry *)
  Lemma cost_cut (s : range K) sv r m : WF m -> In (s, sv) m ->
    ltb (r_start r) (r_end r) = true -> meets cmp r s = true ->
    exists A B, m = A ++ (s, sv) :: B /\
      cost (2 * length (lpiece (s, sv) r) + 2 * length (rpiece (s, sv) r))
        (rmx_adjust_overlapping_ranges_for_remove cmp s sv r) m
        (fun _ m' => WF m' /\ m' = A ++ lpiece (s, sv) r ++ rpiece (s, sv) r ++ B).
  Proof.
    intros HW Hin Hr Hm.
    destruct (good_cut HO (fun _ => true) m s sv r m (part_refl (fun _ => true) m HW) Hin eq_refl Hr Hm)
      as (A & B & EA & _ & HG).
    exists A, B. split; [exact EA|].
    assert (HQ : exists m', snd (rmx_adjust_overlapping_ranges_for_remove cmp s sv r m) = (Ret tt, m')).
    { unfold rmx_adjust_overlapping_ranges_for_remove, cbind, cmodify, cret.
      destruct (ltb (r_start s) (r_start r)), (gtb cmp (r_end s) (r_end r)); eexists; reflexivity. }
    destruct HQ as [m' HQ]. rewrite HQ in HG. destruct HG as [(HW' & _) HG].
    assert (HE : snd (snd (rmx_adjust_overlapping_ranges_for_remove cmp s sv r m)) = m')
      by (rewrite HQ; reflexivity). clear HQ.
    assert (HF : length (fst (rmx_adjust_overlapping_ranges_for_remove cmp s sv r m)) =
      1 + length (lpiece (s, sv) r) + length (rpiece (s, sv) r)).
    { unfold rmx_adjust_overlapping_ranges_for_remove, cbind, cmodify, cret, CrashFacts.lpiece, CrashFacts.rpiece.
      cbn [fst snd]. destruct (ltb (r_start s) (r_start r)), (gtb cmp (r_end s) (r_end r)); reflexivity. }
    assert (HL : length m' + 1 = length m + length (lpiece (s, sv) r) + length (rpiece (s, sv) r)).
    { rewrite HG, EA, !app_length. cbn [length]. lia. }
    unfold rmap in *. split; [rewrite HE, HF; lia|]. intros [] _. rewrite HE. split; assumption.
  Qed.
  Lemma lpiece_length (e : entry) r : length (lpiece e r) <= 1.
  Proof. unfold lpiece. destruct (ltb (st e) (r_start r)); cbn; lia. Qed.
  Lemma rpiece_length (e : entry) r : length (rpiece e r) <= 1.
  Proof. unfold rpiece. destruct (gtb cmp (en e) (r_end r)); cbn; lia. Qed.

  (** *** [remove] *)
  (** nothing left to do in the loop *)
  Lemma cost_remove_loop0 r x fuel (m : rmap K V) : r_start x = r_end r -> ltb (r_start r) (r_end r) = true ->
    (forall e, In e m -> ltb (r_start r) (st e) = true -> leb (r_end r) (st e) = true) ->
    cost 0 (rmx_remove_loop cmp fuel r x) m (fun _ _ => True).
  Proof.
    intros Hx Hr Hm. destruct fuel as [|n]; cbn [rmx_remove_loop]; [apply cost_nofuel|].
    eapply (cost_bind0 _ _ _ _ (fun a m' => a = m /\ m' = m)); [apply cost_get; auto|].
    intros a m' [-> ->].
    eapply (cost_bind0 _ _ _ _ (fun l m' => bt_range c_start (Excluded r) (Excluded x) m = Ret l /\ m' = m)).
    { apply cost_lift. auto. }
    intros l m' [Hl ->]. destruct (fst (it_next l)) as [[s sv]|] eqn:En; [|apply cost_ret; exact I].
    exfalso. destruct (range_first _ _ _ _ _ _ Hl En) as (I1 & I2 & I3). cbn in I2, I3. unfold cmp_start in *.
    specialize (Hm _ I1). cbn in Hm. rewrite Hx in I2.
    destruct (cmp (r_start s) (r_end r)) eqn:E1; try discriminate.
    destruct (cmp (r_start s) (r_start r)) eqn:E2; try discriminate.
    assert (Q : ltb (r_start r) (r_start s) = true) by ord. specialize (Hm Q). ord.
  Qed.
  Lemma cost_remove_loop r x fuel : r_start x = r_end r -> ltb (r_start r) (r_end r) = true ->
    forall m, WF m -> cost 2 (rmx_remove_loop cmp fuel r x) m (fun _ _ => True).
  Proof.
    intros Hx Hr. induction fuel as [|n IH]; intros m Hm; cbn [rmx_remove_loop]; [apply cost_nofuel|].
    eapply (cost_bind0 _ _ _ _ (fun a m' => a = m /\ m' = m)); [apply cost_get; auto|].
    intros a m' [-> ->].
    eapply (cost_bind0 _ _ _ _ (fun l m' => bt_range c_start (Excluded r) (Excluded x) m = Ret l /\ m' = m)).
    { apply cost_lift. auto. }
    intros l m' [Hl ->]. destruct (fst (it_next l)) as [[s sv]|] eqn:En; [|apply cost_ret; exact I].
    destruct (range_first _ _ _ _ _ _ Hl En) as (I1 & I2 & I3).
    pose proof (fun p => range_first_le _ _ _ _ _ p Hm Hl En) as I4.
    cbn in I2, I3, I4. unfold cmp_start in *. rewrite Hx in I2.
    destruct (cmp (r_start s) (r_end r)) eqn:E1; try discriminate.
    destruct (cmp (r_start s) (r_start r)) eqn:E2; try discriminate.
    assert (Hs : ltb (r_start s) (r_end s) = true) by apply (proj2 Hm _ I1).
    assert (Hov : meets cmp r s = true) by (unfold meets; ord).
    destruct (cost_cut s sv r m Hm I1 Hr Hov) as (A & B & EA & HG).
    assert (El : lpiece (s, sv) r = []).
    { unfold lpiece. cbn. assert (Q : ltb (r_start s) (r_start r) = false) by ord. rewrite Q. reflexivity. }
    rewrite El in HG. cbn [length app Nat.mul Nat.add] in HG.
    destruct (rpiece (s, sv) r) as [|p P] eqn:Ep.
    - eapply cost_bind0; [exact HG|]. intros _ m' [HW' _]. apply IH. exact HW'.
    - unfold rpiece in Ep. destruct (gtb cmp (en (s, sv)) (r_end r)) eqn:Eg; [|discriminate].
      injection Ep as <- <-. cbn in HG, Eg. unfold gtb in Eg.
      eapply (cost_bind 2 0); [exact HG|]. intros _ m' [HW' ->].
      apply cost_remove_loop0; auto. intros e He Hst. subst m.
      apply WF_app in Hm as (WA & W2 & W3). apply WF_cons in W2 as (_ & _ & W4).
      apply in_app_or in He as [He|[<-|He]].
      + exfalso. assert (Q : In e (A ++ (s, sv) :: B)) by (apply in_or_app; left; exact He).
        specialize (I4 e Q). destruct (W3 e (s, sv) He (or_introl eq_refl)) as [Q1 _]. cbn in Q1.
        pose proof (proj2 WA e He) as Q2.
        assert (Q3 : cmp (st e) (r_start r) = Gt) by ord. rewrite Q3 in I4.
        destruct (I4 eq_refl) as [Q4|Q4]; [subst e; cbn in *; ord|cbn in Q4; ord].
      + cbn. ord.
      + destruct (W4 e He) as [Q1 _]. cbn in Q1. ord.
  Qed.
  Lemma cost_remove r m : WF m -> cost 4 (rmx_remove cmp r) m (fun _ _ => True).
  Proof.
    intros HW. unfold rmx_remove.
    eapply (cost_bind0 _ _ _ _ (fun _ m' => ltb (r_start r) (r_end r) = true /\ m' = m)).
    { unfold cassert, assert_. split; cbn; [|intros a]; destruct (ltb (r_start r) (r_end r)); cbn; auto;
        try lia; discriminate. }
    intros _ m' [Hr ->].
    eapply (cost_bind0 _ _ _ _ (fun a m' => a = m /\ m' = m)); [apply cost_get; auto|].
    intros a m' [-> ->].
    eapply (cost_bind0 _ _ _ _ (fun l m' => bt_range c_start Unbounded (Included r) m = Ret l /\ m' = m)).
    { apply cost_lift. auto. }
    intros l m' [Hl ->].
    assert (Hrest : forall n m', WF m' ->
      (n = 2 \/ (forall e, In e m' -> ltb (r_start r) (st e) = true -> leb (r_end r) (st e) = true)) ->
      cost n (m1 <- cget ;; rmx_remove_loop cmp (length m1 + 1) r (mkR (r_end r) (r_end r)))%C m' (fun _ _ => True)).
    { intros n m' HW' Hn.
      eapply (cost_bind0 _ _ _ _ (fun a m'' => a = m' /\ m'' = m')); [apply cost_get; auto|].
      intros a m'' [-> ->]. destruct Hn as [-> |Hn]; [apply cost_remove_loop; auto|].
      eapply cost_le; [apply cost_remove_loop0; auto|lia]. }
    assert (Hnop : cost 4 (cret tt ;;; m1 <- cget ;;
       rmx_remove_loop cmp (length m1 + 1) r (mkR (r_end r) (r_end r)))%C m (fun _ _ => True)).
    { eapply (cost_bind0 _ _ _ _ (fun _ m' => m' = m)); [apply cost_ret; reflexivity|]. intros _ m' ->.
      eapply cost_le; [apply (Hrest 2); auto|lia]. }
    destruct (last_opt l) as [[s sv]|] eqn:En; [|exact Hnop].
    destruct (r_overlaps cmp s r) eqn:Eo; [|exact Hnop].
    apply (meets_overlaps HO) in Eo. apply last_opt_In in En.
    destruct (range_In _ _ _ _ _ _ Hl En) as [I1 I2]. cbn in I2. unfold cmp_start in I2.
    destruct (cost_cut s sv r m HW I1 Hr Eo) as (A & B & EA & HG).
    pose proof (lpiece_length (s, sv) r) as L1.
    destruct (rpiece (s, sv) r) as [|p P] eqn:Ep.
    - eapply cost_le; [eapply (cost_bind _ 2); [exact HG|]|cbn in *; lia].
      intros _ m' [HW' _]. apply Hrest; auto.
    - unfold rpiece in Ep. destruct (gtb cmp (en (s, sv)) (r_end r)) eqn:Eg; [|discriminate].
      injection Ep as <- <-. cbn in HG, Eg. unfold gtb in Eg.
      eapply cost_le; [eapply (cost_bind _ 0); [exact HG|]|cbn in *; lia].
      intros _ m' [HW' ->]. apply Hrest; auto. right. intros e He Hst. subst m.
      apply WF_app in HW as (WA & W2 & W3). apply WF_cons in W2 as (_ & _ & W4).
      assert (Q0 : leb (r_start s) (r_start r) = true).
      { unfold Order.leb. destruct (cmp (r_start s) (r_start r)); congruence. }
      apply in_app_or in He as [He|He].
      + exfalso. destruct (W3 e (s, sv) He (or_introl eq_refl)) as [Q1 _]. cbn in Q1.
        pose proof (proj2 WA e He) as Q2. ord.
      + apply in_app_or in He as [He|[<-|He]].
        * exfalso. unfold lpiece in He. cbn in He. destruct (ltb (r_start s) (r_start r)) eqn:E1; [|destruct He].
          destruct He as [<-|[]]. cbn in Hst. ord.
        * cbn. ord.
        * destruct (W4 e He) as [Q1 _]. cbn in Q1. ord.
  Qed.

  (** *** [insert] *)
  (** the loop stops at once when the next entry starts where the new range ends
      and has another value *)
  Lemma cost_insert_loop0 v x fuel cur m (p : entry) : WF m -> ltb (r_start cur) (r_end cur) = true ->
    In p m -> eqb (st p) (r_end cur) = true -> veqb (snd p) v = false ->
    (forall e, In e m -> leb (r_start cur) (st e) = true -> leb (st p) (st e) = true) ->
    cost 0 (rmx_insert_loop cmp veqb fuel cur v x) m (fun _ _ => True).
  Proof.
    intros HW Hc Hp Hs Hv Hm. destruct fuel as [|n]; cbn [rmx_insert_loop]; [apply cost_nofuel|].
    eapply (cost_bind0 _ _ _ _ (fun a m' => a = m /\ m' = m)); [apply cost_get; auto|].
    intros a m' [-> ->].
    eapply (cost_bind0 _ _ _ _ (fun l m' => bt_range c_start (Included cur) (Included x) m = Ret l /\ m' = m)).
    { apply cost_lift. auto. }
    intros l m' [Hl ->]. destruct (fst (it_next l)) as [[s sv]|] eqn:En; [|apply cost_ret; exact I].
    destruct (range_first _ _ _ _ _ _ Hl En) as (I1 & I2 & I3).
    pose proof (range_first_le _ _ _ _ _ p HW Hl En Hp) as I4. cbn in I3, I4. unfold cmp_start in *.
    assert (Q1 : cmp (st p) (r_start cur) = Gt) by ord. rewrite Q1 in I4.
    assert (Q2 : leb (r_start cur) (r_start s) = true).
    { assert (Q : ltb (r_start s) (r_start cur) = false)
        by (unfold Order.ltb; destruct (cmp (r_start s) (r_start cur)); congruence). ord. }
    specialize (Hm _ I1 Q2). cbn in Hm.
    destruct (I4 eq_refl) as [<- |Q3]; [|exfalso; ord].
    cbn in Hs, Hv. rewrite Hs, Hv. cbn. apply cost_ret. exact I.
  Qed.

  (** the three ways of dealing with an entry that touches the new range *)
  Lemma cost_adjust v cur s sv m : WF m -> In (s, sv) m -> ltb (r_start cur) (r_end cur) = true ->
    let c := rmx_adjust_touching_ranges_for_insert cmp veqb s sv cur v in
    (touch cur s = true /\ veqb sv v = true /\
       cost 0 c m (fun cur' m' => WF m' /\ ltb (r_start cur') (r_end cur') = true /\
         leb (r_end cur) (r_end cur') = true)) \/
    (meets cmp cur s = false /\ cost 0 c m (fun cur' m' => cur' = cur /\ m' = m)) \/
    (meets cmp cur s = true /\ veqb sv v = false /\ exists A B, m = A ++ (s, sv) :: B /\
       cost (2 * length (lpiece (s, sv) cur) + 2 * length (rpiece (s, sv) cur)) c m
         (fun cur' m' => cur' = cur /\ WF m' /\
            m' = A ++ lpiece (s, sv) cur ++ rpiece (s, sv) cur ++ B)) \/
    touch cur s = false.
  Proof.
    intros HW Hin Hc c. subst c. destruct (touch cur s) eqn:Et; [|auto].
    unfold rmx_adjust_touching_ranges_for_insert. destruct (veqb sv v) eqn:Ev.
    - left. splits; auto.
      destruct (split_In m (s, sv) HW Hin) as (A & B & -> & WA & WB & Hs & HA & HB & HAB). cbn in Hs.
      assert (E : bt_remove c_start s (A ++ (s, sv) :: B) = A ++ B).
      { apply (bt_remove_split' HO). intros a Ha.
        apply (sep_lt HO (veqb := veqb) a (s, sv)); [apply WA; exact Ha|apply HA; exact Ha]. }
      assert (HW' : WF (A ++ B)) by (apply WF_app; splits; auto).
      split; cbn; rewrite E; [rewrite !app_length; cbn; lia|].
      intros a [= <-]. split; [exact HW'|]. unfold CrashFacts.touch in Et. unfold kmin, kmax. cbn.
      destruct (ltb (r_start s) (r_start cur)) eqn:E1, (ltb (r_end s) (r_end cur)) eqn:E2; split; ord.
    - right. destruct (r_overlaps cmp cur s) eqn:Eo.
      2:{ left. split; [|apply cost_ret; auto].
          unfold r_overlaps, meets, kmax, kmin in *.
          pose proof (proj2 HW _ Hin) as Hs. cbn in Hs.
          destruct (ltb (r_start s) (r_start cur)) eqn:E1, (ltb (r_end s) (r_end cur)) eqn:E2; ord. }
      right. left. assert (Hm : meets cmp cur s = true).
      { apply (meets_overlaps HO) in Eo. unfold meets in *. ord. }
      splits; auto. destruct (cost_cut s sv cur m HW Hin Hc Hm) as (A & B & EA & HG).
      exists A, B. split; [exact EA|].
      eapply (cost_weaken _ _ _ (fun cur' m' => cur' = cur /\ WF m' /\
            m' = A ++ lpiece (s, sv) cur ++ rpiece (s, sv) cur ++ B)); [|auto].
      assert (HA : rmx_adjust_overlapping_ranges_for_remove cmp s sv cur m =
        (fst (rmx_adjust_overlapping_ranges_for_remove cmp s sv cur m),
         (Ret tt, snd (snd (rmx_adjust_overlapping_ranges_for_remove cmp s sv cur m))))).
      { unfold rmx_adjust_overlapping_ranges_for_remove, cbind, cmodify, cret. cbn.
        destruct (ltb (r_start s) (r_start cur)), (gtb cmp (r_end s) (r_end cur)); reflexivity. }
      match goal with |- cost _ ?d _ _ => assert (HB : d m =
        (fst (rmx_adjust_overlapping_ranges_for_remove cmp s sv cur m),
         (Ret cur, snd (snd (rmx_adjust_overlapping_ranges_for_remove cmp s sv cur m))))) end.
      { unfold rmx_adjust_overlapping_ranges_for_remove, cbind, cmodify, cret. cbn.
        destruct (ltb (r_start s) (r_start cur)), (gtb cmp (r_end s) (r_end cur)); reflexivity. }
      destruct HG as [G1 G2]. unfold cost. rewrite HB. cbn [fst snd]. split; [exact G1|].
      intros a [= <-]. split; [reflexivity|]. apply (G2 tt). rewrite HA. reflexivity.
  Qed.

  (** after cutting [cur] out of an entry reaching beyond it, the loop is done *)
  Lemma cut_then_stop v cur s sv A B : WF (A ++ (s, sv) :: B) -> ltb (r_start cur) (r_end cur) = true ->
    WF (A ++ lpiece (s, sv) cur ++ rpiece (s, sv) cur ++ B) ->
    veqb sv v = false -> rpiece (s, sv) cur <> [] ->
    (forall a, In a A -> ltb (st a) (r_start cur) = true) ->
    exists p, In p (A ++ lpiece (s, sv) cur ++ rpiece (s, sv) cur ++ B) /\
      eqb (st p) (r_end cur) = true /\ veqb (snd p) v = false /\
      (forall e, In e (A ++ lpiece (s, sv) cur ++ rpiece (s, sv) cur ++ B) ->
         leb (r_start cur) (st e) = true -> leb (st p) (st e) = true).
  Proof.
    intros HW Hc HW' Hv Hp HA. unfold rpiece in *. cbn in *.
    destruct (gtb cmp (r_end s) (r_end cur)) eqn:Eg; [|congruence]. unfold gtb in Eg.
    exists (mkR (r_end cur) (r_end s), sv). splits.
    - apply in_or_app; right. apply in_or_app; right. left; reflexivity.
    - cbn. ord.
    - exact Hv.
    - intros e He Hst. apply in_app_or in He as [He|He]; [exfalso; specialize (HA e He); ord|].
      apply WF_app in HW as (_ & W2 & _). apply WF_cons in W2 as (_ & _ & W4).
      apply in_app_or in He as [He|[<-|He]].
      + exfalso. unfold lpiece in He. cbn in He. destruct (ltb (r_start s) (r_start cur)) eqn:E1; [|destruct He].
        destruct He as [<-|[]]. cbn in Hst. ord.
      + cbn. ord.
      + destruct (W4 e He) as [Q1 _]. cbn in *. ord.
  Qed.

  Lemma cost_insert_loop v x fuel : forall cur m, WF m -> ltb (r_start cur) (r_end cur) = true ->
    leb (r_start x) (r_end cur) = true ->
    cost 2 (rmx_insert_loop cmp veqb fuel cur v x) m (fun _ _ => True).
  Proof.
    induction fuel as [|n IH]; intros cur m HW Hc Hx; cbn [rmx_insert_loop]; [apply cost_nofuel|].
    eapply (cost_bind0 _ _ _ _ (fun a m' => a = m /\ m' = m)); [apply cost_get; auto|].
    intros a m' [-> ->].
    eapply (cost_bind0 _ _ _ _ (fun l m' => bt_range c_start (Included cur) (Included x) m = Ret l /\ m' = m)).
    { apply cost_lift. auto. }
    intros l m' [Hl ->]. destruct (fst (it_next l)) as [[s sv]|] eqn:En; [|apply cost_ret; exact I].
    destruct (eqb (r_start s) (r_end cur) && negb (veqb sv v)); [apply cost_ret; exact I|].
    destruct (range_first _ _ _ _ _ _ Hl En) as (I1 & _ & I3).
    pose proof (fun p => range_first_le _ _ _ _ _ p HW Hl En) as I4. cbn in I3, I4. unfold cmp_start in *.
    assert (Q2 : ltb (r_start s) (r_start cur) = false)
      by (unfold Order.ltb; destruct (cmp (r_start s) (r_start cur)); congruence).
    destruct (cost_adjust v cur s sv m HW I1 Hc) as [(_ & _ & H)|[(_ & H)|[(_ & Hv & A & B & EA & H)|H]]].
    - eapply cost_bind0; [exact H|]. intros cur' m' (H1 & H2 & H3). apply IH; auto. ord.
    - eapply cost_bind0; [exact H|]. intros cur' m' [-> ->]. auto.
    - assert (El : lpiece (s, sv) cur = []) by (unfold CrashFacts.lpiece; cbn; rewrite Q2; reflexivity).
      rewrite El in H. cbn [length Nat.mul Nat.add] in H.
      destruct (rpiece (s, sv) cur) as [|p P] eqn:Ep.
      + eapply cost_bind0; [exact H|]. intros cur' m' (-> & H1 & _). auto.
      + pose proof (rpiece_length (s, sv) cur) as L. rewrite Ep in L.
        eapply (cost_bind 2 0); [eapply cost_le; [exact H|cbn in *; lia]|].
        intros cur' m' (-> & H1 & ->). rewrite <- Ep in *. rewrite <- El in *. subst m.
        destruct (cut_then_stop v cur s sv A B HW Hc H1 Hv) as (q & R1 & R2 & R3 & R4); [congruence| |].
        * intros a Ha. assert (Q : In a (A ++ (s, sv) :: B)) by (apply in_or_app; left; exact Ha).
          specialize (I4 a Q). apply WF_app in HW as (WA & W2 & W3).
          destruct (W3 a (s, sv) Ha (or_introl eq_refl)) as [Q3 _]. cbn in Q3.
          pose proof (proj2 WA a Ha) as Q4.
          destruct (cmp (st a) (r_start cur)) eqn:E; [| |]; try (unfold Order.ltb; rewrite E; reflexivity);
            exfalso; (destruct (I4 eq_refl) as [Q5|Q5]; [subst a|]; cbn in *; ord).
        * apply (cost_insert_loop0 v x n cur _ q); auto.
    - exfalso. unfold CrashFacts.touch in H. pose proof (proj2 HW _ I1) as Hs. cbn in Hs.
      destruct (range_first _ _ _ _ _ _ Hl En) as (_ & I2 & _). cbn in I2. unfold cmp_start in I2.
      assert (Q3 : leb (r_start s) (r_start x) = true)
        by (unfold Order.leb; destruct (cmp (r_start s) (r_start x)); congruence). ord.
  Qed.

  Lemma cost_insert r v m : WF m -> cost 6 (rmx_insert cmp veqb r v) m (fun _ _ => True).
  Proof.
    intros HW. unfold rmx_insert.
    eapply (cost_bind0 _ _ _ _ (fun _ m' => ltb (r_start r) (r_end r) = true /\ m' = m)).
    { unfold cassert, assert_. split; cbn; [|intros a]; destruct (ltb (r_start r) (r_end r)); cbn; auto;
        try lia; discriminate. }
    intros _ m' [Hr ->].
    eapply (cost_bind0 _ _ _ _ (fun a m' => a = m /\ m' = m)); [apply cost_get; auto|].
    intros a m' [-> ->].
    eapply (cost_bind0 _ _ _ _ (fun l m' => bt_range c_start Unbounded (Included r) m = Ret l /\ m' = m)).
    { apply cost_lift. auto. }
    intros l m' [Hl ->].
    set (rest := fun new1 : range K => (m1 <- cget ;;
       new2 <- rmx_insert_loop cmp veqb (length m1 + 2) new1 v (mkR (r_end new1) (r_end new1)) ;;
       cmodify (bt_insert c_start new2 v))%C).
    assert (Hrest : forall n cur m', WF m' -> ltb (r_start cur) (r_end cur) = true ->
      (n = 4 \/ n = 2 /\ exists p, In p m' /\ eqb (st p) (r_end cur) = true /\ veqb (snd p) v = false /\
         (forall e, In e m' -> leb (r_start cur) (st e) = true -> leb (st p) (st e) = true)) ->
      cost n (rest cur) m' (fun _ _ => True)).
    { intros n cur m' HW' Hc Hn. unfold rest.
      eapply (cost_bind0 _ _ _ _ (fun a m'' => a = m' /\ m'' = m')); [apply cost_get; auto|].
      intros a m'' [-> ->].
      assert (Hi : forall a m'', True -> cost 2 (cmodify (bt_insert c_start a v)) m'' (fun _ _ => True)).
      { intros a m'' _. split; [|auto]. cbn. pose proof (bt_insert_length c_start a v m''). lia. }
      destruct Hn as [-> |[-> (p & P1 & P2 & P3 & P4)]].
      - eapply (cost_bind 2 2); [apply cost_insert_loop; auto; cbn; ord|exact Hi].
      - eapply (cost_bind 0 2); [apply (cost_insert_loop0 v _ _ cur _ p); auto|exact Hi]. }
    assert (Hcand : forall s sv, In (s, sv) m -> touch r s = true -> leb (r_start s) (r_start r) = true ->
      cost 6 (cbind (rmx_adjust_touching_ranges_for_insert cmp veqb s sv r v) rest) m (fun _ _ => True)).
    { intros s sv Hin Ht Hs.
      destruct (cost_adjust v r s sv m HW Hin Hr) as [(_ & _ & H)|[(_ & H)|[(_ & Hv & A & B & EA & H)|H]]];
        [| | |congruence].
      - eapply cost_le; [eapply (cost_bind 0 4); [exact H|]|lia]. intros cur' m' (H1 & H2 & _). auto.
      - eapply cost_le; [eapply (cost_bind 0 4); [exact H|]|lia]. intros cur' m' [-> ->]. auto.
      - pose proof (lpiece_length (s, sv) r) as L1. pose proof (rpiece_length (s, sv) r) as L2.
        destruct (rpiece (s, sv) r) as [|p P] eqn:Ep.
        + eapply cost_le; [eapply (cost_bind _ 4); [exact H|]|cbn in *; lia].
          intros cur' m' (-> & H1 & _). auto.
        + eapply cost_le; [eapply (cost_bind _ 2); [exact H|]|cbn in *; lia].
          intros cur' m' (-> & H1 & ->). apply Hrest; auto. right. split; [reflexivity|].
          rewrite <- Ep in *. subst m. apply cut_then_stop; auto; [congruence|].
          intros a Ha. apply WF_app in HW as (WA & W2 & W3).
          destruct (W3 a (s, sv) Ha (or_introl eq_refl)) as [Q3 _]. cbn in Q3.
          pose proof (proj2 WA a Ha) as Q4. ord. }
    assert (Hc : forall s sv, In (s, sv) (filter (fun e => r_touches cmp (fst e) r) (firstn 2 (rev l))) ->
      In (s, sv) m /\ touch r s = true /\ leb (r_start s) (r_start r) = true).
    { intros s sv Hin. apply filter_In in Hin as [H1 H2]. cbn in H2.
      assert (H3 : In (s, sv) l).
      { apply in_rev. rewrite <- (firstn_skipn 2 (rev l)). apply in_or_app. left; exact H1. }
      destruct (range_In _ _ _ _ _ _ Hl H3) as [H4 H5]. cbn in H5. unfold cmp_start in H5.
      splits; auto; [apply (touch_touches HO); exact H2|].
      unfold Order.leb. destruct (cmp (r_start s) (r_start r)); congruence. }
    fold rest. destruct (filter _ _) as [|[s sv] [|[t tv] l']].
    - eapply (cost_bind0 _ _ _ _ (fun a m' => a = r /\ m' = m)); [apply cost_ret; auto|].
      intros a m' [-> ->]. eapply cost_le; [apply (Hrest 4); auto|lia].
    - destruct (Hc s sv (or_introl eq_refl)) as (? & ? & ?). auto.
    - destruct (Hc t tv (or_intror (or_introl eq_refl))) as (? & ? & ?). auto.
  Qed.

  Lemma cost_extend l : forall m, WF m -> cost (6 * length l) (rmx_extend cmp veqb l) m (fun _ _ => True).
  Proof.
    induction l as [|[r v] l IH]; intros m HW.
    - apply cost_ret. exact I.
    - unfold rmx_extend in *. cbn [cfor_each fst snd]. cbn [length].
      eapply cost_le; [eapply (cost_bind 6 (6 * length l) _ _ _ (fun _ m' => WF m'))|lia].
      + pose proof (cost_insert r v m HW) as [H1 _]. split; [exact H1|].
        intros a _. pose proof (e_exec cmp veqb (OInsert r v) m) as E. cbn [rmx_exec rm_exec] in E.
        unfold rmap in *. rewrite E. apply (exec_ok HO HV (OInsert r v) m HW).
      + intros _ m' HW'. apply IH. exact HW'.
  Qed.
  Lemma cost_clear m : cost 1 (rmx_clear (K := K) (V := V)) m (fun _ _ => True).
  Proof. split; cbn; [lia|auto]. Qed.

  Lemma cost_exec o m : WF m -> cost (op_budget o) (rmx_exec cmp veqb o) m (fun _ _ => True).
  Proof.
    intros HW. destruct o as [r v|r| |l]; cbn [rmx_exec op_budget].
    - apply cost_insert; exact HW.
    - apply cost_remove; exact HW.
    - apply cost_clear.
    - apply cost_extend; exact HW.
  Qed.
  Lemma call_budget ops o :
    length (fst (rmx_exec cmp veqb o (run ops))) + rm_len (run (ops ++ [o])) <=
    rm_len (run ops) + op_budget o.
  Proof.
    destruct (cost_exec o (run ops) (run_WF HO HV ops)) as [H _].
    rewrite run_snoc, <- e_exec. exact H.
  Qed.
  Lemma budget_from ops : forall m, WF m ->
    modifications (rmx_exec cmp veqb) ops m + length (run_ops (rm_exec cmp veqb) ops m) <=
    length m + history_budget ops.
  Proof.
    induction ops as [|o ops IH]; intros m HW; cbn; [lia|].
    destruct (cost_exec o m HW) as [H _].
    assert (HE : snd (snd (rmx_exec cmp veqb o m)) = snd (rm_exec cmp veqb o m)) by (rewrite e_exec; reflexivity).
    unfold rmap in *. rewrite HE in H |- *.
    specialize (IH _ (proj1 (exec_ok HO HV o m HW))). unfold rmap, run_ops, history_budget, list_sum in *. cbn in *. lia.
  Qed.
  Lemma total_budget ops :
    modifications (rmx_exec cmp veqb) ops rm_new + rm_len (run ops) <= history_budget ops.
  Proof. apply (budget_from ops []). apply WF_nil. Qed.
End Half.

(** ** A change of the number of entries needs that many modifications *)
Lemma one_change_length {E} (l l' : list E) : one_change l l' ->
  length l' <= length l + 1 /\ length l <= length l' + 1.
Proof.
  intros [-> |(a & b & x & [[-> ->]|[[-> ->]|(y & -> & ->)]])]; rewrite ?app_length; cbn; lia.
Qed.
Lemma last_default {A} (l : list A) d d' : l <> [] -> last l d = last l d'.
Proof.
  induction l as [|a [|b l] IH]; intros H; [congruence|reflexivity|]. apply IH. discriminate.
Qed.
Lemma stepwise_length {E} (t : list (list E)) : forall s, stepwise one_change (s :: t) ->
  length (last (s :: t) s) <= length s + length t /\ length s <= length (last (s :: t) s) + length t.
Proof.
  induction t as [|x t IH]; intros s H; [cbn; lia|].
  change (last (s :: x :: t) s) with (last (x :: t) s). cbn [length].
  destruct H as [H1 H2]. apply one_change_length in H1. specialize (IH x H2).
  assert (E1 : last (x :: t) s = last (x :: t) x).
  { apply last_default. discriminate. }
  rewrite E1. lia.
Qed.

Section HalfLower.
  Context {K V : Type} {cmp : K -> K -> comparison} {veqb : V -> V -> bool}.
  Lemma call_at_least ops o : o <> OClear ->
    rm_len (rm_run cmp veqb (ops ++ [o])) <=
      rm_len (rm_run cmp veqb ops) + length (fst (rmx_exec cmp veqb o (rm_run cmp veqb ops))) /\
    rm_len (rm_run cmp veqb ops) <=
      rm_len (rm_run cmp veqb (ops ++ [o])) + length (fst (rmx_exec cmp veqb o (rm_run cmp veqb ops))).
  Proof.
    intros Ho. pose proof (stepwise_length _ _ (exec_stepwise cmp veqb o (rm_run cmp veqb ops) Ho)) as H.
    pose proof (proj2 (record_faithful cmp veqb o (rm_run cmp veqb ops))) as E.
    unfold crash_states in E. unfold rmap in *. rewrite E in H. rewrite run_snoc. exact H.
  Qed.
End HalfLower.

(** ** Inclusive maps *)
Section Incl.
  Context {K V : Type} {cmp : K -> K -> comparison} {veqb : V -> V -> bool} {st : stepfns K}.
  Context (HO : TotalOrd cmp) (HS : StepLaws cmp st) (HV : PartialEquiv veqb).

  Notation run := (im_run cmp veqb st).
  Notation xexec1 := (imx_exec cmp veqb st).
  Notation WFi := (@WFi K (cut K) V (cmp_cut cmp st) veqb Before After).
  Notation HC := (cuts cmp st HO HS).
  Notation HO' := (cut_order cmp st HO HS).

  Lemma Forall2_len {A B} (R : A -> B -> Prop) l l' : Forall2 R l l' -> length l = length l'.
  Proof. induction 1; cbn; congruence. Qed.
  Lemma enc_budget o : op_budget (@enc_op K (cut K) V Before After o) = op_budget o.
  Proof. destruct o; cbn; rewrite ?map_length; reflexivity. Qed.
  Lemma icost_exec o m : fresh_op o = true -> WFi m ->
    length (fst (xexec1 o m)) + length (snd (im_exec cmp veqb st o m)) <= length m + op_budget o.
  Proof.
    intros Hf HW. destruct (WFi_sim HO' m HW) as [H1 H2].
    destruct (xexec_sim HC HO' HV o m _ H1 H2 Hf) as [H3 [_ H4]].
    rewrite e_iexec in H4.
    destruct (cost_exec (veqb := veqb) HO' HV (@enc_op K (cut K) V Before After o) _ H2) as [H5 _].
    apply Forall2_len in H1, H3, H4. rewrite enc_budget in H5. unfold rmap, imap in *.
    rewrite H1, H3, H4. exact H5.
  Qed.
  Lemma icall_budget ops o : fresh_ops ops -> fresh_op o = true ->
    length (fst (xexec1 o (run ops))) + im_len (run (ops ++ [o])) <= im_len (run ops) + op_budget o.
  Proof.
    intros Hf Hfo. rewrite run_isnoc. apply (icost_exec o _ Hfo (irun_WF HO HS HV ops Hf)).
  Qed.
  Lemma ibudget_from ops : forall m, fresh_ops ops -> WFi m ->
    modifications xexec1 ops m + length (run_ops (im_exec cmp veqb st) ops m) <=
    length m + history_budget ops.
  Proof.
    induction ops as [|o ops IH]; intros m Hf HW; cbn; [lia|].
    unfold fresh_ops in Hf. cbn in Hf. apply andb_prop in Hf as [Hf1 Hf2].
    pose proof (icost_exec o m Hf1 HW) as H.
    assert (HE : snd (snd (xexec1 o m)) = snd (im_exec cmp veqb st o m)) by (rewrite e_iexec; reflexivity).
    unfold imap in *. rewrite HE.
    specialize (IH _ Hf2 (iexec_final_WF HO HS HV o m Hf1 HW)). unfold imap, run_ops, history_budget, list_sum in *.
    cbn in *. lia.
  Qed.
  Lemma itotal_budget ops : fresh_ops ops ->
    modifications xexec1 ops im_new + im_len (run ops) <= history_budget ops.
  Proof. intros Hf. apply (ibudget_from ops [] Hf). split; [intros e []|apply WF_nil]. Qed.
  Lemma icall_at_least ops o : o <> OClear ->
    im_len (run (ops ++ [o])) <= im_len (run ops) + length (fst (xexec1 o (run ops))) /\
    im_len (run ops) <= im_len (run (ops ++ [o])) + length (fst (xexec1 o (run ops))).
  Proof.
    intros Ho. pose proof (stepwise_length _ _ (iexec_stepwise cmp veqb st o (run ops) Ho)) as H.
    pose proof (proj2 (irecord_faithful cmp veqb st o (run ops))) as E.
    unfold crash_states in E. unfold imap in *. rewrite E in H. rewrite run_isnoc. exact H.
  Qed.
End Incl.
