(** Generic list lemmas used by the proofs. *)
From Coq Require Import List Bool Sorting.Sorted Lia.
From Verif Require Import BTree.
Import ListNotations.

Ltac splits := repeat match goal with |- _ /\ _ => split end.

(** [lia] on [nat] (in)equalities only, ignoring every other hypothesis. *)
Ltac nlia :=
  repeat match goal with
  | H : ?T |- _ =>
      lazymatch type of T with
      | Prop => lazymatch T with
                | (_ <= _)%nat => fail | (_ < _)%nat => fail | @eq nat _ _ => fail
                | _ => clear H
                end
      end
  end; cbn [length] in *; rewrite ?app_length in *; cbn [length] in *; lia.

Section Lists.
  Context {A : Type}.

  Lemma drop_while_app (p : A -> bool) l1 l2 :
    (forall a, In a l1 -> p a = true) -> drop_while p (l1 ++ l2) = drop_while p l2.
  Proof.
    induction l1 as [|a l1 IH]; intros H; [reflexivity|].
    cbn [app drop_while]. rewrite (H a) by (left; reflexivity).
    apply IH. intros b Hb. apply H. right; exact Hb.
  Qed.

  Lemma drop_while_none (p : A -> bool) l :
    (forall a, In a l -> p a = false) -> drop_while p l = l.
  Proof.
    destruct l as [|a l]; intros H; [reflexivity|].
    cbn. rewrite (H a) by (left; reflexivity). reflexivity.
  Qed.

  Lemma drop_while_all (p : A -> bool) l :
    (forall a, In a l -> p a = true) -> drop_while p l = [].
  Proof. intros H. rewrite <- (app_nil_r l). rewrite drop_while_app by exact H. reflexivity. Qed.

  Lemma take_while_app (p : A -> bool) l1 l2 :
    (forall a, In a l1 -> p a = true) -> take_while p (l1 ++ l2) = l1 ++ take_while p l2.
  Proof.
    induction l1 as [|a l1 IH]; intros H; [reflexivity|].
    cbn [app take_while]. rewrite (H a) by (left; reflexivity). f_equal.
    apply IH. intros b Hb. apply H. right; exact Hb.
  Qed.

  Lemma take_while_none (p : A -> bool) l :
    (forall a, In a l -> p a = false) -> take_while p l = [].
  Proof.
    destruct l as [|a l]; intros H; [reflexivity|].
    cbn. rewrite (H a) by (left; reflexivity). reflexivity.
  Qed.

  Lemma take_while_all (p : A -> bool) l :
    (forall a, In a l -> p a = true) -> take_while p l = l.
  Proof. intros H. rewrite <- (app_nil_r l) at 1. rewrite take_while_app by exact H. apply app_nil_r. Qed.

  Lemma take_drop_while (p : A -> bool) l : take_while p l ++ drop_while p l = l.
  Proof. induction l as [|a l IH]; cbn; [reflexivity|]. destruct (p a); cbn; congruence. Qed.

  Lemma take_while_In (p : A -> bool) l a : In a (take_while p l) -> p a = true.
  Proof.
    induction l as [|b l IH]; cbn; [tauto|].
    destruct (p b) eqn:E; cbn; [intros [->|H]; auto|tauto].
  Qed.

  Lemma take_while_ext (p q : A -> bool) l :
    (forall a, In a l -> p a = q a) -> take_while p l = take_while q l.
  Proof.
    induction l as [|a l IH]; intros H; [reflexivity|]. cbn.
    rewrite (H a) by (left; reflexivity). destruct (q a); [|reflexivity].
    f_equal. apply IH. intros b Hb. apply H. right; exact Hb.
  Qed.

  Lemma drop_while_ext (p q : A -> bool) l :
    (forall a, In a l -> p a = q a) -> drop_while p l = drop_while q l.
  Proof.
    induction l as [|a l IH]; intros H; [reflexivity|]. cbn.
    rewrite (H a) by (left; reflexivity). destruct (q a); [|reflexivity].
    apply IH. intros b Hb. apply H. right; exact Hb.
  Qed.

  Lemma SS_app (R : A -> A -> Prop) l1 l2 :
    StronglySorted R (l1 ++ l2) <->
    StronglySorted R l1 /\ StronglySorted R l2 /\
    (forall a b, In a l1 -> In b l2 -> R a b).
  Proof.
    induction l1 as [|a l1 IH]; cbn.
    - split; [intros H; split; [constructor|split; [exact H|tauto]] | tauto].
    - split.
      + intros H. apply StronglySorted_inv in H as [H1 H2].
        apply IH in H1 as (H3 & H4 & H5). rewrite Forall_app in H2. destruct H2 as [H2 H6].
        split; [constructor; assumption|]. split; [exact H4|].
        intros x y [->|Hx] Hy; [|auto].
        rewrite Forall_forall in H6. auto.
      + intros (H1 & H2 & H3). apply StronglySorted_inv in H1 as [H1 H4].
        constructor.
        * apply IH. split; [exact H1|]. split; [exact H2|]. intros x y Hx Hy. apply H3; auto.
        * rewrite Forall_app. split; [exact H4|]. rewrite Forall_forall. intros y Hy.
          apply H3; auto.
  Qed.

  Lemma SS_cons (R : A -> A -> Prop) a l :
    StronglySorted R (a :: l) <->
    StronglySorted R l /\ (forall b, In b l -> R a b).
  Proof.
    split.
    - intros H. apply StronglySorted_inv in H as [H1 H2]. rewrite Forall_forall in H2. auto.
    - intros [H1 H2]. constructor; [exact H1|]. rewrite Forall_forall. exact H2.
  Qed.

  Lemma SS_impl (R Q : A -> A -> Prop) l :
    (forall a b, In a l -> In b l -> R a b -> Q a b) -> StronglySorted R l -> StronglySorted Q l.
  Proof.
    induction l as [|a l IH]; intros H HS; [constructor|].
    apply SS_cons in HS as [H1 H2]. apply SS_cons. split.
    - apply IH; [|exact H1]. intros x y Hx Hy. apply H; right; assumption.
    - intros b Hb. apply H; [left; reflexivity|right; exact Hb|auto].
  Qed.

  Lemma rev_cases l : l = [] \/ exists l' (a : A), l = l' ++ [a].
  Proof.
    destruct (rev l) as [|a r] eqn:E.
    - left. rewrite <- (rev_involutive l), E. reflexivity.
    - right. exists (rev r), a. rewrite <- (rev_involutive l), E. reflexivity.
  Qed.

  Lemma in_mid l1 (a : A) l2 : In a (l1 ++ a :: l2).
  Proof. apply in_or_app; right; left; reflexivity. Qed.

  Lemma last_opt_app l (a : A) : last_opt (l ++ [a]) = Some a.
  Proof. unfold last_opt, it_next_back. rewrite rev_app_distr. reflexivity. Qed.
  Lemma last_opt_nil : last_opt (@nil A) = None.
  Proof. reflexivity. Qed.
End Lists.

(** Splitting a list sorted by [R] at a predicate downward closed along it. *)
Lemma split_sorted {A} (R : A -> A -> Prop) (p : A -> bool) l :
  StronglySorted R l ->
  (forall a b, In a l -> In b l -> R a b -> p b = true -> p a = true) ->
  exists L N, l = L ++ N /\ (forall a, In a L -> p a = true) /\
    (forall a, In a N -> p a = false) /\ take_while p l = L /\ drop_while p l = N.
Proof.
  intros HS Hd. exists (take_while p l), (drop_while p l).
  split; [symmetry; apply take_drop_while|]. split; [intros a; apply take_while_In|].
  split; [|split; reflexivity].
  induction l as [|a l IH]; cbn; [tauto|].
  apply SS_cons in HS as [HS Ha].
  destruct (p a) eqn:Ep.
  - apply IH; [exact HS|]. intros x y Hx Hy. apply Hd; right; assumption.
  - intros b [<-|Hb]; [exact Ep|]. destruct (p b) eqn:Eb; [|reflexivity].
    rewrite (Hd a b) in Ep; auto; [left; reflexivity|right; exact Hb].
Qed.

(** sublists and maps *)
Lemma last_opt_In {A} (l : list A) a : last_opt l = Some a -> In a l.
Proof.
  destruct (rev_cases l) as [-> | (l' & b & ->)]; [discriminate|].
  rewrite last_opt_app. intros [= <-]. apply in_or_app. right; left; reflexivity.
Qed.
Lemma take_while_sub {A} (p : A -> bool) l a : In a (take_while p l) -> In a l.
Proof.
  induction l as [|b l IH]; cbn; [auto|]. destruct (p b); [|intros []].
  intros [-> | H]; auto.
Qed.
Lemma drop_while_sub {A} (p : A -> bool) l a : In a (drop_while p l) -> In a l.
Proof.
  induction l as [|b l IH]; cbn; [auto|]. destruct (p b); auto.
Qed.
Lemma take_while_map {A B} (f : A -> B) p l : take_while p (map f l) = map f (take_while (fun a => p (f a)) l).
Proof. induction l as [|a l IH]; cbn; [reflexivity|]. destruct (p (f a)); cbn; congruence. Qed.
Lemma drop_while_map {A B} (f : A -> B) p l : drop_while p (map f l) = map f (drop_while (fun a => p (f a)) l).
Proof. induction l as [|a l IH]; cbn; [reflexivity|]. destruct (p (f a)); cbn; congruence. Qed.
Lemma last_opt_map {A B} (f : A -> B) l : last_opt (map f l) = option_map f (last_opt l).
Proof.
  destruct (rev_cases l) as [-> | (l' & a & ->)]; [reflexivity|].
  rewrite map_app. cbn. rewrite !last_opt_app. reflexivity.
Qed.
Lemma filter_map_swap {A B} (f : A -> B) p l : filter p (map f l) = map f (filter (fun a => p (f a)) l).
Proof. induction l as [|a l IH]; cbn; [reflexivity|]. destruct (p (f a)); cbn; congruence. Qed.
Lemma Forall2_In_l {A B} (R : A -> B -> Prop) l l' a : Forall2 R l l' -> In a l -> exists b, In b l' /\ R a b.
Proof.
  induction 1 as [|x y l l' H HF IH]; [intros []|]. intros [-> | Hin]; [exists y; cbn; auto|].
  destruct (IH Hin) as (b & Hb & Rb). exists b. cbn; auto.
Qed.
Lemma Forall2_In_r {A B} (R : A -> B -> Prop) l l' b : Forall2 R l l' -> In b l' -> exists a, In a l /\ R a b.
Proof.
  induction 1 as [|x y l l' H HF IH]; [intros []|]. intros [-> | Hin]; [exists x; cbn; auto|].
  destruct (IH Hin) as (a & Ha & Ra). exists a. cbn; auto.
Qed.
