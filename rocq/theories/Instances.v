(** Concrete instances used by the examples: integer keys and values. *)
From Coq Require Import ZArith Lia Bool.
From Verif Require Import Order.

Lemma Z_order : TotalOrd Z.compare.
Proof.
  split.
  - apply Z.compare_refl.
  - intros x y. apply Z.compare_antisym.
  - intros [] x y z; rewrite ?Z.compare_eq_iff, ?Z.compare_lt_iff, ?Z.compare_gt_iff; lia.
Qed.
Lemma Z_full : FullEquiv Z.eqb.
Proof.
  split; [split|].
  - intros a b. rewrite !Z.eqb_eq. auto.
  - intros a b c. rewrite !Z.eqb_eq. congruence.
  - apply Z.eqb_refl.
Qed.
Definition Z_per : PartialEquiv Z.eqb := veq_per _ Z_full.
Lemma Z_refl : forall v, Z.eqb v v = true.
Proof. apply Z.eqb_refl. Qed.

(** Values whose [==] is not reflexive: 0 plays the role of [NaN]. *)
Definition nan_eqb (a b : Z) : bool := (negb (a =? 0) && (a =? b))%Z.
Lemma nan_per : PartialEquiv nan_eqb.
Proof.
  unfold nan_eqb. split.
  - intros a b H. apply andb_prop in H as [H1 H2]. apply Z.eqb_eq in H2. subst.
    rewrite H1, Z.eqb_refl. reflexivity.
  - intros a b c H H'. apply andb_prop in H as [H1 H2]. apply andb_prop in H' as [H3 H4].
    apply Z.eqb_eq in H2. subst. rewrite H1, H4. reflexivity.
Qed.
