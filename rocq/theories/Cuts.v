(** The order of cuts between the keys of a stepped key type, and the integer
    instance: the two ways [ISim] is used. *)
From Coq Require Import List Bool ZArith Lia.
From Verif Require Import Order Outcome Ranges ListLemmas ISim.
Import ListNotations.

(** A comparison built from a total preorder is lawful. *)
Definition cmp_of {A} (le : A -> A -> bool) (a b : A) : comparison :=
  if le a b then (if le b a then Eq else Lt) else Gt.
Lemma cmp_of_order {A} (le : A -> A -> bool) :
  (forall a b, le a b = true \/ le b a = true) ->
  (forall a b c, le a b = true -> le b c = true -> le a c = true) ->
  TotalOrd (cmp_of le).
Proof.
  intros Ht Htr. unfold cmp_of. split.
  - intros x. destruct (Ht x x) as [-> | ->]; reflexivity.
  - intros x y. destruct (le x y) eqn:E1, (le y x) eqn:E2; try reflexivity.
    destruct (Ht x y); congruence.
  - intros c x y z.
    destruct (le x y) eqn:E1, (le y x) eqn:E2, (le y z) eqn:E3, (le z y) eqn:E4; intros <- ?;
      try discriminate;
      destruct (le x z) eqn:E5, (le z x) eqn:E6; try reflexivity; try discriminate; exfalso;
      repeat match goal with
      | H1 : le ?a ?b = true, H2 : le ?b ?c = true, H3 : le ?a ?c = false |- _ =>
          pose proof (Htr a b c H1 H2); congruence
      | H1 : le ?a ?b = false, H2 : le ?b ?a = false |- _ => destruct (Ht a b); congruence
      end.
Qed.

Inductive cut (K : Type) : Type := Before (k : K) | After (k : K).
Arguments Before {K} k.
Arguments After {K} k.

Section Cut.
  Context {K : Type} (cmp : K -> K -> comparison) (st : stepfns K).
  Notation ltb := (ltb cmp).
  Notation leb := (leb cmp).

  Definition cut_le (a b : cut K) : bool :=
    match a, b with
    | Before x, Before y | After x, After y => leb x y
    | Before x, After y =>
        leb x y || match add_one st y with Some s => leb x s | None => false end
    | After x, Before y => ltb x y
    end.
  Definition cmp_cut : cut K -> cut K -> comparison := cmp_of cut_le.

  Context (HO : TotalOrd cmp) (HS : StepLaws cmp st).

  Lemma cut_le_BA x y : cut_le (Before x) (After y) = true <->
    (leb x y = true \/ exists s, ltb y x = true /\ add_one st y = Some s /\ ltb y s = true /\ leb x s = true).
  Proof.
    cbn. rewrite orb_true_iff. split.
    - intros [H|H]; [left; exact H|]. destruct (leb x y) eqn:E; [left; reflexivity|right].
      assert (E2 : ltb y x = true) by ord.
      destruct (step_succ _ _ HS y x E2) as (s & Hs & H1 & H2). rewrite Hs in H.
      exists s. auto.
    - intros [H|(s & _ & -> & _ & H)]; auto.
  Qed.
  Lemma succ_le y s z : add_one st y = Some s -> ltb y z = true -> leb s z = true.
  Proof. intros H1 H2. destruct (step_succ _ _ HS y z H2) as (s' & H3 & _ & H4). congruence. Qed.

  Lemma cut_le_trans a b c : cut_le a b = true -> cut_le b c = true -> cut_le a c = true.
  Proof.
    destruct a as [a|a], b as [b|b], c as [c|c].
    - cbn. intros. ord.
    - rewrite !cut_le_BA. cbn. intros H1 [H2|(s & H2 & H3 & H4 & H5)].
      + left. ord.
      + destruct (leb a c) eqn:E; [left; reflexivity|right]. exists s. splits; try assumption; ord.
    - rewrite cut_le_BA. cbn. intros [H1|(s & H1 & H2 & H3 & H4)] H5; [ord|].
      pose proof (succ_le b s c H2 H5). ord.
    - rewrite !cut_le_BA. cbn. intros [H1|(s & H1 & H2 & H3 & H4)] H5; [left; ord|].
      destruct (leb a c) eqn:E; [left; reflexivity|right].
      assert (E2 : ltb c a = true) by ord.
      destruct (step_succ _ _ HS c a E2) as (s' & Hs & H6 & H7).
      exists s'. splits; try assumption.
      assert (E3 : ltb b s' = true) by ord.
      pose proof (succ_le b s s' H2 E3). ord.
    - cbn. intros. ord.
    - rewrite cut_le_BA. cbn. intros H1 [H2|(s & H2 & H3 & H4 & H5)]; [ord|].
      destruct (leb a c) eqn:E; [reflexivity|].
      assert (E2 : ltb c a = true) by ord.
      pose proof (succ_le c s a H3 E2). ord.
    - cbn. intros. ord.
    - cbn. intros. ord.
  Qed.
  Lemma cut_le_total a b : cut_le a b = true \/ cut_le b a = true.
  Proof.
    destruct a as [a|a], b as [b|b]; cbn.
    - destruct (leb a b) eqn:E; [left; reflexivity|right; ord].
    - destruct (leb a b) eqn:E; [left; reflexivity|right; ord].
    - destruct (ltb a b) eqn:E; [left; reflexivity|right]. apply orb_true_iff. left. ord.
    - destruct (leb a b) eqn:E; [left; reflexivity|right; ord].
  Qed.
  Lemma cut_order : TotalOrd cmp_cut.
  Proof. apply cmp_of_order; [exact cut_le_total|exact cut_le_trans]. Qed.

  Lemma cut_leb a b : Order.leb cmp_cut a b = cut_le a b.
  Proof.
    unfold Order.leb, cmp_cut, cmp_of. destruct (cut_le a b) eqn:E1; [|reflexivity].
    destruct (cut_le b a); reflexivity.
  Qed.
  Lemma cut_ltb a b : Order.ltb cmp_cut a b = negb (cut_le b a).
  Proof.
    unfold Order.ltb, cmp_cut, cmp_of. destruct (cut_le a b) eqn:E1, (cut_le b a) eqn:E2; try reflexivity.
    destruct (cut_le_total a b); congruence.
  Qed.

  Lemma cuts : Cuts cmp cmp_cut st Before After.
  Proof.
    split.
    - intros a b. unfold cmp_cut, cmp_of, cut_le.
      destruct (leb a b) eqn:E1; [destruct (leb b a) eqn:E2|]; symmetry; ord.
    - intros a b. unfold cmp_cut, cmp_of, cut_le.
      destruct (leb a b) eqn:E1; [destruct (leb b a) eqn:E2|]; symmetry; ord.
    - intros a b H. rewrite cut_ltb. cbn. ord.
    - intros a b H. destruct (step_succ _ _ HS a b H) as (s & Hs & H1 & H2).
      exists s. splits; auto.
      + unfold cmp_cut, cmp_of. cbn. rewrite H1, Hs.
        assert (leb s s = true) as -> by ord. rewrite orb_true_r. reflexivity.
      + rewrite cut_leb. cbn. exact H.
    - intros a b H. destruct (step_pred _ _ HS a b H) as (p & Hp & H1 & H2).
      exists p. split; [exact Hp|].
      destruct (step_succ _ _ HS p a H1) as (s & Hs & H3 & H4).
      unfold cmp_cut, cmp_of. cbn. rewrite H1, Hs.
      destruct (leb a s) eqn:E; [rewrite orb_true_r; reflexivity|].
      assert (E2 : ltb s a = true) by ord.
      destruct (step_pred _ _ HS a s E2) as (p' & Hp' & H5 & H6).
      rewrite Hp in Hp'. injection Hp' as <-. ord.
  Qed.
  Lemma cut_cases (c : cut K) : exists k, cmp_cut c (Before k) = Eq \/ cmp_cut c (After k) = Eq.
  Proof. destruct c as [k|k]; exists k; [left|right]; apply (ord_refl _ cut_order). Qed.
End Cut.

(** Any integer type: a set of integers [P] without holes, stepped by one.
    The cuts are the integers, [lo k = k] and [hi k = k + 1]. *)
Lemma int_cuts {K} (cmp : K -> K -> comparison) (st : stepfns K) (f : K -> Z) :
  (forall a b, cmp a b = (f a ?= f b)%Z) ->
  (forall a b, (f a < f b)%Z -> exists s, add_one st a = Some s /\ f s = (f a + 1)%Z) ->
  (forall a b, (f b < f a)%Z -> exists p, sub_one st a = Some p /\ f p = (f a - 1)%Z) ->
  Cuts cmp Z.compare st f (fun k => f k + 1)%Z.
Proof.
  intros Hc Hs Hp. unfold ltb, leb. split.
  - intros a b. rewrite Hc. reflexivity.
  - intros a b. rewrite Hc. destruct (Z.compare_spec (f a) (f b));
      destruct (Z.compare_spec (f a + 1) (f b + 1)); try reflexivity; lia.
  - intros a b. unfold leb, ltb. rewrite Hc. destruct (Z.compare_spec (f a) (f b)); try discriminate;
      destruct (Z.compare_spec (f a) (f b + 1)); try reflexivity; lia.
  - intros a b. unfold leb, ltb. rewrite Hc. destruct (Z.compare_spec (f a) (f b)); try discriminate. intros _.
    destruct (Hs a b H) as (s & H1 & H2). exists s. split; [exact H1|]. rewrite H2.
    split; [apply Z.compare_refl|]. destruct (Z.compare_spec (f a + 1) (f b)); try reflexivity; lia.
  - intros a b. unfold ltb. rewrite Hc. destruct (Z.compare_spec (f b) (f a)); try discriminate. intros _.
    destruct (Hp a b H) as (s & H1 & H2). exists s. split; [exact H1|]. rewrite H2.
    apply Z.compare_eq_iff. lia.
Qed.
