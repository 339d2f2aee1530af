(** What the lexicographic comparisons of the [Ord] and [PartialOrd] impls
    decide (map.rs:63-84, inclusive_map.rs:84-104). *)
From Coq Require Import List Bool Sorting.Sorted.
From Verif Require Import ListLemmas Order Outcome BTree Ranges Spec MapModel IMapModel.
Import ListNotations.

Section Lex.
  Context {A : Type}.
  Lemma lex_pcmp_spec (c : A -> A -> option comparison) a : forall b,
    (lex_pcmp c a b = Some Eq <-> Forall2 (fun x y => c x y = Some Eq) a b) /\
    (lex_pcmp c a b = Some Lt <->
       lex_before (fun x y => c x y = Some Eq) (fun x y => c x y = Some Lt) a b) /\
    (lex_pcmp c a b = Some Gt <->
       lex_before (fun y x => c x y = Some Eq) (fun y x => c x y = Some Gt) b a) /\
    (lex_pcmp c a b = None <->
       lex_stuck (fun x y => c x y = Some Eq) (fun x y => c x y = None) a b).
  Proof.
    induction a as [|x a IH]; intros [|y b]; cbn [lex_pcmp].
    - splits.
      + split; auto.
      + split; [discriminate|]. intros (p & q & HF & [[<- (y & t & E)]|(x & y & s & t & E & _)]).
        * destruct q; discriminate.
        * destruct p; discriminate.
      + split; [discriminate|]. intros (p & q & HF & [[<- (y & t & E)]|(x & y & s & t & E & _)]).
        * destruct q; discriminate.
        * destruct p; discriminate.
      + split; [discriminate|]. intros (p & q & x & y & s & t & E & _). destruct p; discriminate.
    - splits.
      + split; [discriminate|]. intros H. inversion H.
      + split; [intros _|reflexivity]. exists [], []. split; [constructor|left].
        split; [reflexivity|]. exists y, b. reflexivity.
      + split; [discriminate|]. intros (p & q & HF & [[<- (z & t & E)]|(x & z & s & t & E & E2 & _)]).
        * destruct q; discriminate.
        * destruct q; discriminate.
      + split; [discriminate|]. intros (p & q & x & z & s & t & E & _). destruct p; discriminate.
    - splits.
      + split; [discriminate|]. intros H. inversion H.
      + split; [discriminate|]. intros (p & q & HF & [[<- (z & t & E)]|(w & z & s & t & E & E2 & _)]).
        * destruct q; discriminate.
        * destruct q; discriminate.
      + split; [intros _|reflexivity]. exists [], []. split; [constructor|left].
        split; [reflexivity|]. exists x, a. reflexivity.
      + split; [discriminate|]. intros (p & q & w & z & s & t & _ & E & _). destruct q; discriminate.
    - destruct (IH b) as (I1 & I2 & I3 & I4). clear IH. destruct (c x y) as [[| |]|] eqn:Ec.
      + splits.
        * rewrite I1. split; [intros H; constructor; assumption|]. intros H. inversion H; assumption.
        * rewrite I2. split.
          { intros (p & q & HF & H). exists (x :: p), (y :: q). split; [constructor; assumption|].
            destruct H as [[-> (z & t & ->)]|(w & z & s & t & -> & -> & E)]; [left|right].
            - split; [reflexivity|]. exists z, t. reflexivity.
            - exists w, z, s, t. auto. }
          { intros (p & q & HF & H). destruct HF as [|x1 y1 p q H1 HF].
            - destruct H as [[E _]|(w & z & s & t & E1 & E2 & E)]; [discriminate|].
              injection E1 as <- <-. injection E2 as <- <-. congruence.
            - exists p, q. split; [exact HF|].
              destruct H as [[E (z & t & E1)]|(w & z & s & t & E1 & E2 & E)]; [left|right].
              + injection E as <- ->. injection E1 as <- ->. split; [reflexivity|]. exists z, t. reflexivity.
              + injection E1 as <- ->. injection E2 as <- ->. exists w, z, s, t. auto. }
        * rewrite I3. split.
          { intros (p & q & HF & H). exists (y :: p), (x :: q). split; [constructor; assumption|].
            destruct H as [[-> (z & t & ->)]|(w & z & s & t & -> & -> & E)]; [left|right].
            - split; [reflexivity|]. exists z, t. reflexivity.
            - exists w, z, s, t. auto. }
          { intros (p & q & HF & H). destruct HF as [|x1 y1 p q H1 HF].
            - destruct H as [[E _]|(w & z & s & t & E1 & E2 & E)]; [discriminate|].
              injection E1 as <- <-. injection E2 as <- <-. congruence.
            - exists p, q. split; [exact HF|].
              destruct H as [[E (z & t & E1)]|(w & z & s & t & E1 & E2 & E)]; [left|right].
              + injection E as <- ->. injection E1 as <- ->. split; [reflexivity|]. exists z, t. reflexivity.
              + injection E1 as <- ->. injection E2 as <- ->. exists w, z, s, t. auto. }
        * rewrite I4. split.
          { intros (p & q & w & z & s & t & -> & -> & HF & E). exists (x :: p), (y :: q), w, z, s, t.
            splits; auto. }
          { intros (p & q & w & z & s & t & E1 & E2 & HF & E). destruct HF as [|x1 y1 p q H1 HF].
            - injection E1 as <- <-. injection E2 as <- <-. congruence.
            - injection E1 as <- ->. injection E2 as <- ->. exists p, q, w, z, s, t. splits; auto. }
      + splits.
        * split; [discriminate|]. intros H. inversion H; congruence.
        * split; [intros _|reflexivity]. exists [], []. split; [constructor|right]. exists x, y, a, b. auto.
        * split; [discriminate|]. intros (p & q & HF & H). destruct HF as [|x1 y1 p q H1 HF].
          { destruct H as [[E _]|(w & z & s & t & E1 & E2 & E)]; [discriminate|].
            injection E1 as <- <-. injection E2 as <- <-. congruence. }
          destruct H as [[E (z & t & E1)]|(w & z & s & t & E1 & E2 & E)].
          { injection E as <- _. injection E1 as <- _. congruence. }
          { injection E1 as <- _. injection E2 as <- _. congruence. }
        * split; [discriminate|]. intros (p & q & w & z & s & t & E1 & E2 & HF & E).
          destruct HF as [|x1 y1 p q H1 HF]; injection E1 as <- _; injection E2 as <- _; congruence.
      + splits.
        * split; [discriminate|]. intros H. inversion H; congruence.
        * split; [discriminate|]. intros (p & q & HF & H). destruct HF as [|x1 y1 p q H1 HF].
          { destruct H as [[E _]|(w & z & s & t & E1 & E2 & E)]; [discriminate|].
            injection E1 as <- <-. injection E2 as <- <-. congruence. }
          destruct H as [[E (z & t & E1)]|(w & z & s & t & E1 & E2 & E)].
          { injection E as <- _. injection E1 as <- _. congruence. }
          { injection E1 as <- _. injection E2 as <- _. congruence. }
        * split; [intros _|reflexivity]. exists [], []. split; [constructor|right]. exists y, x, b, a. auto.
        * split; [discriminate|]. intros (p & q & w & z & s & t & E1 & E2 & HF & E).
          destruct HF as [|x1 y1 p q H1 HF]; injection E1 as <- _; injection E2 as <- _; congruence.
      + splits.
        * split; [discriminate|]. intros H. inversion H; congruence.
        * split; [discriminate|]. intros (p & q & HF & H). destruct HF as [|x1 y1 p q H1 HF].
          { destruct H as [[E _]|(w & z & s & t & E1 & E2 & E)]; [discriminate|].
            injection E1 as <- <-. injection E2 as <- <-. congruence. }
          destruct H as [[E (z & t & E1)]|(w & z & s & t & E1 & E2 & E)].
          { injection E as <- _. injection E1 as <- _. congruence. }
          { injection E1 as <- _. injection E2 as <- _. congruence. }
        * split; [discriminate|]. intros (p & q & HF & H). destruct HF as [|x1 y1 p q H1 HF].
          { destruct H as [[E _]|(w & z & s & t & E1 & E2 & E)]; [discriminate|].
            injection E1 as <- <-. injection E2 as <- <-. congruence. }
          destruct H as [[E (z & t & E1)]|(w & z & s & t & E1 & E2 & E)].
          { injection E as <- _. injection E1 as <- _. congruence. }
          { injection E1 as <- _. injection E2 as <- _. congruence. }
        * split; [intros _|reflexivity]. exists [], [], x, y, a, b. splits; auto.
  Qed.
  Lemma lex_cmp_pcmp (c : A -> A -> comparison) a : forall b,
    lex_pcmp (fun x y => Some (c x y)) a b = Some (lex_cmp c a b).
  Proof. induction a as [|x a IH]; intros [|y b]; cbn; auto. destruct (c x y); auto. Qed.
End Lex.

Section Before.
  Context {A B : Type} (f : A -> B).
  Lemma F2_map (E : B -> B -> Prop) a : forall b,
    Forall2 E (map f a) (map f b) <-> Forall2 (fun x y => E (f x) (f y)) a b.
  Proof.
    induction a as [|x a IH]; intros [|y b]; cbn; split; intros H; inversion H; subst; constructor; auto;
      apply IH; assumption.
  Qed.
  Lemma F2_ext (E E' : A -> A -> Prop) a b : (forall x y, E x y <-> E' x y) ->
    Forall2 E a b <-> Forall2 E' a b.
  Proof. intros HE. split; intros H; induction H; constructor; auto; apply HE; assumption. Qed.
  Lemma map_split a p (x : B) s : map f a = p ++ x :: s ->
    exists p' x' s', a = p' ++ x' :: s' /\ p = map f p' /\ x = f x' /\ s = map f s'.
  Proof.
    revert a. induction p as [|y p IH]; intros [|z a] H; cbn in H; try discriminate.
    - injection H as <- <-. exists [], z, a. auto.
    - injection H as <- H. destruct (IH _ H) as (p' & x' & s' & -> & -> & -> & ->).
      exists (z :: p'), x', s'. auto.
  Qed.
  Lemma before_map (E L : B -> B -> Prop) (E' L' : A -> A -> Prop) a b :
    (forall x y, E (f x) (f y) <-> E' x y) -> (forall x y, L (f x) (f y) <-> L' x y) ->
    lex_before E L (map f a) (map f b) <-> lex_before E' L' a b.
  Proof.
    intros HE HL. split.
    - intros (p & q & HF & [[<- (y & t & Eb)]|(x & y & s & t & Ea & Eb & Hl)]).
      + destruct (map_split _ _ _ _ Eb) as (q' & y' & t' & -> & -> & -> & ->).
        exists a, q'. split; [|left; split; [reflexivity|exists y', t'; reflexivity]].
        apply F2_map in HF. exact (proj1 (F2_ext (fun x y => E (f x) (f y)) E' _ _ HE) HF).
      + destruct (map_split _ _ _ _ Ea) as (p' & x' & s' & -> & -> & -> & ->).
        destruct (map_split _ _ _ _ Eb) as (q' & y' & t' & -> & -> & -> & ->).
        exists p', q'. split; [|right; exists x', y', s', t'; splits; auto; apply HL, Hl].
        apply F2_map in HF. exact (proj1 (F2_ext (fun x y => E (f x) (f y)) E' _ _ HE) HF).
    - intros (p & q & HF & H). exists (map f p), (map f q). split.
      + apply F2_map. exact (proj2 (F2_ext (fun x y => E (f x) (f y)) E' _ _ HE) HF).
      + destruct H as [[-> (y & t & ->)]|(x & y & s & t & -> & -> & Hl)]; [left|right].
        * split; [reflexivity|]. exists (f y), (map f t). apply map_app.
        * exists (f x), (f y), (map f s), (map f t). splits; [apply map_app|apply map_app|apply HL, Hl].
  Qed.
  Lemma stuck_map (E L : B -> B -> Prop) (E' L' : A -> A -> Prop) a b :
    (forall x y, E (f x) (f y) <-> E' x y) -> (forall x y, L (f x) (f y) <-> L' x y) ->
    lex_stuck E L (map f a) (map f b) <-> lex_stuck E' L' a b.
  Proof.
    intros HE HL. split.
    - intros (p & q & x & y & s & t & Ea & Eb & HF & Hl).
      destruct (map_split _ _ _ _ Ea) as (p' & x' & s' & -> & -> & -> & ->).
      destruct (map_split _ _ _ _ Eb) as (q' & y' & t' & -> & -> & -> & ->).
      exists p', q', x', y', s', t'. splits; auto; [|apply HL, Hl].
      apply F2_map in HF. exact (proj1 (F2_ext (fun x y => E (f x) (f y)) E' _ _ HE) HF).
    - intros (p & q & x & y & s & t & -> & -> & HF & Hl).
      exists (map f p), (map f q), (f x), (f y), (map f s), (map f t).
      splits; [apply map_app|apply map_app| |apply HL, Hl].
      apply F2_map. exact (proj2 (F2_ext (fun x y => E (f x) (f y)) E' _ _ HE) HF).
  Qed.
End Before.

Section Entries.
  Context {R K V : Type} (st en : R -> K) (kc : K -> K -> option comparison)
          (vc : V -> V -> option comparison).
  Definition expand (e : R * V) : K * K * V := (st (fst e), en (fst e), snd e).

  Lemma triple_same x y : triple_pcmp kc vc (expand x) (expand y) = Some Eq <-> entry_same st en kc vc x y.
  Proof.
    unfold triple_pcmp, expand, entry_same.
    destruct (kc (st (fst x)) (st (fst y))) as [[| |]|], (kc (en (fst x)) (en (fst y))) as [[| |]|];
      intuition discriminate.
  Qed.
  Lemma triple_first o x y : o <> Some Eq ->
    triple_pcmp kc vc (expand x) (expand y) = o <-> entry_first st en kc vc o x y.
  Proof.
    intros Ho. unfold triple_pcmp, expand, entry_first.
    destruct (kc (st (fst x)) (st (fst y))) as [[| |]|], (kc (en (fst x)) (en (fst y))) as [[| |]|];
      intuition congruence.
  Qed.
  Lemma expanded_pcmp (a b : list (R * V)) :
    let c := lex_pcmp (triple_pcmp kc vc) (map expand a) (map expand b) in
    let same := entry_same st en kc vc in
    let first := entry_first st en kc vc in
    (c = Some Eq <-> Forall2 same a b) /\
    (c = Some Lt <-> lex_before same (first (Some Lt)) a b) /\
    (c = Some Gt <-> lex_before (fun y x => same x y) (fun y x => first (Some Gt) x y) b a) /\
    (c = None <-> lex_stuck same (first None) a b).
  Proof.
    intros c same first.
    destruct (lex_pcmp_spec (triple_pcmp kc vc) (map expand a) (map expand b)) as (H1 & H2 & H3 & H4).
    fold c in H1, H2, H3, H4. rewrite H1, H2, H3, H4. splits.
    - rewrite F2_map. apply F2_ext. apply triple_same.
    - apply before_map; [apply triple_same|]. intros x y. apply triple_first. discriminate.
    - apply before_map; [intros x y; apply triple_same|]. intros x y. apply triple_first. discriminate.
    - apply stuck_map; [apply triple_same|]. intros x y. apply triple_first. discriminate.
  Qed.
End Entries.

Section Total.
  Context {K V : Type} (cmp : K -> K -> comparison) (vcmp : V -> V -> comparison).
  Lemma some_cmp (a b : list (K * K * V)) :
    lex_pcmp (triple_pcmp (total cmp) (total vcmp)) a b =
    Some (lex_cmp (triple_cmp cmp vcmp) a b).
  Proof.
    revert b. induction a as [|[[x1 x2] x3] a IH]; intros [|[[y1 y2] y3] b]; cbn; auto. unfold total.
    destruct (cmp x1 y1), (cmp x2 y2), (vcmp x3 y3); auto.
  Qed.
End Total.

(** ** The four types *)
Section Ranges.
  Context {R K : Type} (st en : R -> K) (kc : K -> K -> option comparison).
  Lemma ranges_pcmp (a b : list (R * unit)) :
    let c := lex_pcmp (triple_pcmp kc (fun _ _ => Some Eq)) (map (expand st en) a) (map (expand st en) b) in
    let same := range_same st en kc in
    let first := range_first st en kc in
    (c = Some Eq <-> Forall2 same (map fst a) (map fst b)) /\
    (c = Some Lt <-> lex_before same (first (Some Lt)) (map fst a) (map fst b)) /\
    (c = Some Gt <-> lex_before (fun y x => same x y) (fun y x => first (Some Gt) x y) (map fst b) (map fst a)) /\
    (c = None <-> lex_stuck same (first None) (map fst a) (map fst b)).
  Proof.
    intros c same first.
    assert (HS : forall x y : R * unit, same (fst x) (fst y) <-> entry_same st en kc (fun _ _ => Some Eq) x y)
      by (intros x y; unfold same, range_same, entry_same; tauto).
    assert (HF : forall o (x y : R * unit), o <> Some Eq ->
      first o (fst x) (fst y) <-> entry_first st en kc (fun _ _ => Some Eq) o x y)
      by (intros o x y Ho; unfold first, range_first, entry_first; intuition congruence).
    destruct (expanded_pcmp st en kc (fun _ _ : unit => Some Eq) a b) as (H1 & H2 & H3 & H4).
    fold c in H1, H2, H3, H4. rewrite H1, H2, H3, H4. splits.
    - rewrite F2_map. symmetry. apply F2_ext, HS.
    - symmetry. apply before_map; [apply HS|]. intros x y. apply HF. discriminate.
    - symmetry. apply before_map; [intros x y; apply HS|]. intros x y. apply HF. discriminate.
    - symmetry. apply stuck_map; [apply HS|]. intros x y. apply HF. discriminate.
  Qed.
End Ranges.

Lemma some_inj {A} (x y : A) : Some x = Some y <-> x = y.
Proof. split; congruence. Qed.

Lemma expanded_cmp {R K V} (st en : R -> K) (cmp : K -> K -> comparison) (vcmp : V -> V -> comparison)
    (a b : list (R * V)) :
  let c := lex_cmp (triple_cmp cmp vcmp) (map (expand st en) a) (map (expand st en) b) in
  let same := entry_same st en (total cmp) (total vcmp) in
  let first := entry_first st en (total cmp) (total vcmp) in
  (c = Eq <-> Forall2 same a b) /\
  (c = Lt <-> lex_before same (first (Some Lt)) a b) /\
  (c = Gt <-> lex_before (fun y x => same x y) (fun y x => first (Some Gt) x y) b a).
Proof.
  intros c same first.
  destruct (expanded_pcmp st en (total cmp) (total vcmp) a b) as (H1 & H2 & H3 & _).
  rewrite some_cmp, some_inj in H1, H2, H3. fold c in H1, H2, H3. auto.
Qed.
Lemma ranges_cmp {R K} (st en : R -> K) (cmp : K -> K -> comparison) (a b : list (R * unit)) :
  let c := lex_cmp (triple_cmp cmp (fun _ _ => Eq)) (map (expand st en) a) (map (expand st en) b) in
  let same := range_same st en (total cmp) in
  let first := range_first st en (total cmp) in
  (c = Eq <-> Forall2 same (map fst a) (map fst b)) /\
  (c = Lt <-> lex_before same (first (Some Lt)) (map fst a) (map fst b)) /\
  (c = Gt <-> lex_before (fun y x => same x y) (fun y x => first (Some Gt) x y) (map fst b) (map fst a)).
Proof.
  intros c same first.
  destruct (ranges_pcmp st en (total cmp) a b) as (H1 & H2 & H3 & _).
  change (fun _ _ : unit => Some Eq) with (total (fun _ _ : unit => Eq)) in H1, H2, H3.
  rewrite (some_cmp cmp (fun _ _ : unit => Eq)), some_inj in H1, H2, H3.
  fold c in H1, H2, H3. auto.
Qed.
