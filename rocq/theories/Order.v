(** Abstract key order: Rust's [Ord] contract on the key type [K].

    The crate only ever uses keys through [Ord]/[PartialOrd]/[PartialEq]
    (map.rs:151-154, 243-247; inclusive_map.rs:156-161) plus [Clone].
    We model [Ord::cmp] by a function [cmp : K -> K -> comparison] and the
    documented contract of [Ord] by [TotalOrd].  Note that [cmp x y = Eq] does
    NOT imply [x = y]: a key type may have distinguishable values which
    compare equal ([NotNan(-0.0)] and [NotNan(0.0)], std_ext.rs:130-132).
    [Clone] is modelled as the identity, except in CloneModel.v, where it is
    user code and the identity is shown to lose nothing (C73, C74). *)
From Coq Require Import List ZArith Lia Bool.
From Coq Require Import ZifyBool.
Import ListNotations.

(** Rust's contract for [core::cmp::Ord]: duality, reflexivity and
    transitivity of each of [Less], [Equal], [Greater]. *)
Record TotalOrd {K : Type} (cmp : K -> K -> comparison) : Prop := {
  ord_refl  : forall x, cmp x x = Eq;
  ord_dual  : forall x y, cmp y x = CompOpp (cmp x y);
  ord_trans : forall c x y z, cmp x y = c -> cmp y z = c -> cmp x z = c
}.

(** The comparison operators the code uses; [PartialOrd]/[PartialEq] on [K]
    are assumed consistent with [Ord] (part of Rust's [Ord] contract). *)
Definition ltb {K} (cmp : K -> K -> comparison) (x y : K) : bool :=
  match cmp x y with Lt => true | _ => false end.
Definition leb {K} (cmp : K -> K -> comparison) (x y : K) : bool :=
  match cmp x y with Gt => false | _ => true end.
Definition eqb {K} (cmp : K -> K -> comparison) (x y : K) : bool :=
  match cmp x y with Eq => true | _ => false end.
Definition gtb {K} (cmp : K -> K -> comparison) (x y : K) : bool := ltb cmp y x.
Definition geb {K} (cmp : K -> K -> comparison) (x y : K) : bool := leb cmp y x.

(** [core::cmp::max(a, b)] returns the SECOND argument on ties,
    [core::cmp::min(a, b)] the FIRST (documented in core). *)
Definition kmax {K} (cmp : K -> K -> comparison) (a b : K) : K :=
  if ltb cmp b a then a else b.
Definition kmin {K} (cmp : K -> K -> comparison) (a b : K) : K :=
  if ltb cmp b a then b else a.

(** Ranking a finite set of keys into [Z]: the basis of the [ord] tactic. *)
Definition rk {K} (cmp : K -> K -> comparison) (l : list K) (x : K) : Z :=
  Z.of_nat (length (filter (fun y => ltb cmp y x) l)).

Section Rank.
  Context {K : Type} {cmp : K -> K -> comparison} (HO : TotalOrd cmp).

  Lemma cmp_Eq_sym x y : cmp x y = Eq -> cmp y x = Eq.
  Proof. intros H. rewrite (ord_dual _ HO x y), H. reflexivity. Qed.

  Lemma cmp_Lt_Gt x y : cmp x y = Lt <-> cmp y x = Gt.
  Proof. rewrite (ord_dual _ HO x y). destruct (cmp x y); simpl; split; congruence. Qed.

  Lemma cmp_Lt_Eq x y z : cmp x y = Lt -> cmp y z = Eq -> cmp x z = Lt.
  Proof.
    intros H1 H2. destruct (cmp x z) eqn:E; [|reflexivity|].
    - apply cmp_Eq_sym in H2. pose proof (ord_trans _ HO Eq x z y E H2). congruence.
    - apply cmp_Lt_Gt in E.
      pose proof (ord_trans _ HO Lt z x y E H1) as H3.
      apply cmp_Eq_sym in H2. congruence.
  Qed.

  Lemma cmp_Eq_Lt x y z : cmp x y = Eq -> cmp y z = Lt -> cmp x z = Lt.
  Proof.
    intros H1 H2. destruct (cmp x z) eqn:E; [|reflexivity|].
    - apply cmp_Eq_sym in H1. pose proof (ord_trans _ HO Eq y x z H1 E). congruence.
    - apply cmp_Lt_Gt in E.
      pose proof (ord_trans _ HO Lt y z x H2 E) as H3.
      apply cmp_Eq_sym in H1. congruence.
  Qed.

  Lemma filter_len_le {A} (p q : A -> bool) l :
    (forall x, p x = true -> q x = true) ->
    length (filter p l) <= length (filter q l).
  Proof.
    intros H. induction l as [|a l IH]; simpl; [lia|].
    destruct (p a) eqn:Ep; [rewrite (H _ Ep); simpl; lia|].
    destruct (q a); simpl; lia.
  Qed.

  Lemma filter_len_lt {A} (p q : A -> bool) l a :
    In a l -> p a = false -> q a = true ->
    (forall x, p x = true -> q x = true) ->
    length (filter p l) < length (filter q l).
  Proof.
    intros Hin Hp Hq H. induction l as [|b l IH]; simpl in *; [tauto|].
    destruct Hin as [->|Hin].
    - rewrite Hp, Hq. simpl. pose proof (filter_len_le p q l H). lia.
    - specialize (IH Hin). destruct (p b) eqn:Ep; [rewrite (H _ Ep); simpl; lia|].
      destruct (q b); simpl; lia.
  Qed.

  Lemma rk_lt l x y : In x l -> cmp x y = Lt -> (rk cmp l x < rk cmp l y)%Z.
  Proof.
    intros Hx H. unfold rk. apply inj_lt. apply (filter_len_lt _ _ l x); auto.
    - unfold ltb. rewrite (ord_refl _ HO). reflexivity.
    - unfold ltb. rewrite H. reflexivity.
    - unfold ltb. intros z Hz. destruct (cmp z x) eqn:E; try discriminate.
      rewrite (ord_trans _ HO Lt z x y E H). reflexivity.
  Qed.

  Lemma rk_eq l x y : cmp x y = Eq -> rk cmp l x = rk cmp l y.
  Proof.
    intros H. unfold rk. f_equal.
    apply Nat.le_antisymm; apply filter_len_le; unfold ltb; intros z Hz.
    - destruct (cmp z x) eqn:E; try discriminate. now rewrite (cmp_Lt_Eq z x y E H).
    - destruct (cmp z y) eqn:E; try discriminate.
      now rewrite (cmp_Lt_Eq z y x E (cmp_Eq_sym _ _ H)).
  Qed.

  Lemma cmp_rk l x y : In x l -> In y l -> cmp x y = (rk cmp l x ?= rk cmp l y)%Z.
  Proof.
    intros Hx Hy. symmetry. destruct (cmp x y) eqn:E.
    - apply Z.compare_eq_iff. now apply rk_eq.
    - apply Z.compare_lt_iff. now apply rk_lt.
    - apply Z.compare_gt_iff. apply rk_lt; [assumption|]. now apply cmp_Lt_Gt.
  Qed.

  Lemma ltb_rk l x y : In x l -> In y l -> ltb cmp x y = (rk cmp l x <? rk cmp l y)%Z.
  Proof. intros Hx Hy. unfold ltb. rewrite (cmp_rk l) by assumption. reflexivity. Qed.
  Lemma leb_rk l x y : In x l -> In y l -> leb cmp x y = (rk cmp l x <=? rk cmp l y)%Z.
  Proof. intros Hx Hy. unfold leb. rewrite (cmp_rk l) by assumption. reflexivity. Qed.
  Lemma eqb_rk l x y : In x l -> In y l -> eqb cmp x y = (rk cmp l x =? rk cmp l y)%Z.
  Proof.
    intros Hx Hy. unfold eqb. rewrite (cmp_rk l) by assumption.
    rewrite Z.eqb_compare. reflexivity.
  Qed.
  Lemma cmpLt_rk l x y : In x l -> In y l -> cmp x y = Lt <-> (rk cmp l x < rk cmp l y)%Z.
  Proof. intros Hx Hy. rewrite (cmp_rk l) by assumption. apply Z.compare_lt_iff. Qed.
  Lemma cmpGt_rk l x y : In x l -> In y l -> cmp x y = Gt <-> (rk cmp l y < rk cmp l x)%Z.
  Proof. intros Hx Hy. rewrite (cmp_rk l) by assumption. apply Z.compare_gt_iff. Qed.
  Lemma cmpEq_rk l x y : In x l -> In y l -> cmp x y = Eq <-> (rk cmp l x = rk cmp l y)%Z.
  Proof. intros Hx Hy. rewrite (cmp_rk l) by assumption. apply Z.compare_eq_iff. Qed.
End Rank.

(** [ord]: decides goals of linear preorder reasoning over hypotheses of the
    shapes [ltb cmp a b = true/false], [leb ...], [eqb ...], [cmp a b = Lt], ... *)
Ltac ord_notin x l :=
  lazymatch l with
  | context [cons x _] => fail
  | _ => idtac
  end.

Ltac ord_collect cmp l kont :=
  match goal with
  | |- context [ltb cmp ?a ?b] =>
      first [ ord_notin a l; ord_collect cmp (cons a l) kont
            | ord_notin b l; ord_collect cmp (cons b l) kont ]
  | |- context [leb cmp ?a ?b] =>
      first [ ord_notin a l; ord_collect cmp (cons a l) kont
            | ord_notin b l; ord_collect cmp (cons b l) kont ]
  | |- context [eqb cmp ?a ?b] =>
      first [ ord_notin a l; ord_collect cmp (cons a l) kont
            | ord_notin b l; ord_collect cmp (cons b l) kont ]
  | |- context [cmp ?a ?b] =>
      first [ ord_notin a l; ord_collect cmp (cons a l) kont
            | ord_notin b l; ord_collect cmp (cons b l) kont ]
  | _ => kont l
  end.

Ltac ord_in :=
  match goal with
  | |- In ?x (?x :: _) => left; reflexivity
  | |- In ?x (_ :: _) => right; ord_in
  end.

Ltac ord_rewrite HO cmp l :=
  repeat match goal with
  | |- context [ltb cmp ?a ?b] => rewrite (ltb_rk HO l a b) by ord_in
  | |- context [leb cmp ?a ?b] => rewrite (leb_rk HO l a b) by ord_in
  | |- context [eqb cmp ?a ?b] => rewrite (eqb_rk HO l a b) by ord_in
  | |- context [cmp ?a ?b] => rewrite (cmp_rk HO l a b) by ord_in
  end.

Ltac ord_gen cmp l :=
  repeat match goal with
  | |- context [rk cmp l ?a] => generalize (rk cmp l a); intro
  end.

Ltac ord_revert cmp HO :=
  repeat match goal with
  | H : context [ltb cmp _ _] |- _ => revert H
  | H : context [leb cmp _ _] |- _ => revert H
  | H : context [eqb cmp _ _] |- _ => revert H
  | H : context [cmp _ _] |- _ => lazymatch H with HO => fail | _ => revert H end
  end.

Ltac ord_core :=
  match goal with
  | HO : @TotalOrd ?K ?cmp |- _ =>
      repeat match goal with
             | H : forall _, _ |- _ => lazymatch type of H with
                 | ?P => lazymatch type of P with Prop => clear H end end
             end;
      ord_revert cmp HO;
      ord_collect cmp (@nil K) ltac:(fun l =>
        ord_rewrite HO cmp l; ord_gen cmp l);
      clear;
      rewrite ?Z.compare_lt_iff, ?Z.compare_gt_iff, ?Z.compare_eq_iff
  end.
Ltac ord_goal :=
  lazymatch goal with
  | |- @eq bool _ _ => idtac
  | |- @eq comparison _ _ => idtac
  | |- False => idtac
  | |- _ => fail "ord: not a comparison goal"
  end.
Ltac ord := ord_goal; unfold gtb, geb in *; ord_core; lia.
(** the same for a given order *)
Ltac ord_by HO :=
  ord_goal; unfold gtb, geb in *;
  lazymatch type of HO with
  | @TotalOrd ?K ?cmp =>
      repeat match goal with
             | H : forall _, _ |- _ => lazymatch type of H with
                 | ?P => lazymatch type of P with Prop => clear H end end
             end;
      ord_revert cmp HO;
      ord_collect cmp (@nil K) ltac:(fun l =>
        ord_rewrite HO cmp l; ord_gen cmp l);
      clear;
      rewrite ?Z.compare_lt_iff, ?Z.compare_gt_iff, ?Z.compare_eq_iff
  end; lia.

(** Contract of [PartialEq] on values: symmetric and transitive, not
    necessarily reflexive (CHANGELOG v1.7.0: "Relax [Eq] bounds to
    [PartialEq]"); [a != b] is [negb (veqb a b)]. *)
Record PartialEquiv {V : Type} (veqb : V -> V -> bool) : Prop := {
  veq_sym   : forall a b, veqb a b = true -> veqb b a = true;
  veq_trans : forall a b c, veqb a b = true -> veqb b c = true -> veqb a c = true
}.

(** [Eq] adds reflexivity. *)
Record FullEquiv {V : Type} (veqb : V -> V -> bool) : Prop := {
  veq_per  : PartialEquiv veqb;
  veq_refl : forall a, veqb a a = true
}.

