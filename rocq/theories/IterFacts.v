(** Generic facts about double-ended iterators and schedules. *)
From Coq Require Import List Bool Lia.
From Verif Require Import BTree History Spec ListLemmas.
Import ListNotations.

Lemma deque_back_snoc {A} (l : list A) a : deque_step Back (l ++ [a]) = (Some a, l).
Proof.
  destruct l as [|b l]; [reflexivity|]. cbn [app deque_step].
  change (b :: l ++ [a]) with ((b :: l) ++ [a]).
  rewrite last_last, removelast_last. reflexivity.
Qed.

(** std's iterators over a map behave as the reference deque *)
Lemma it_deque {A} (d : side) (l : list A) : both it_next it_next_back d l = deque_step d l.
Proof.
  destruct d; cbn [both].
  - destruct l; reflexivity.
  - destruct (rev_cases l) as [->|(l' & a & ->)]; [reflexivity|].
    rewrite deque_back_snoc. unfold it_next_back. rewrite rev_app_distr. cbn.
    rewrite rev_involutive. reflexivity.
Qed.

Lemma sched_trace_ext {S A B} (s1 s2 : side -> S -> option A * S) (obs : S -> B) :
  (forall d s, s1 d s = s2 d s) ->
  forall sched s, sched_trace s1 obs sched s = sched_trace s2 obs sched s.
Proof.
  intros H sched. induction sched as [|d sched IH]; intros s; cbn; [reflexivity|].
  rewrite H. destruct (s2 d s) as [o s']. rewrite IH. reflexivity.
Qed.

(** simulation between two double-ended iterators *)
Lemma sched_trace_sim {S T A B} (R : S -> T -> Prop)
    (s1 : side -> S -> option A * S) (s2 : side -> T -> option A * T)
    (o1 : S -> B) (o2 : T -> B) :
  (forall d s t, R s t -> fst (s1 d s) = fst (s2 d t) /\ R (snd (s1 d s)) (snd (s2 d t))) ->
  (forall s t, R s t -> o1 s = o2 t) ->
  forall sched s t, R s t -> sched_trace s1 o1 sched s = sched_trace s2 o2 sched t.
Proof.
  intros H Ho sched. induction sched as [|d sched IH]; intros s t HR; cbn; [reflexivity|].
  specialize (H d s t HR). destruct (s1 d s) as [a s'], (s2 d t) as [b t']. cbn in H.
  destruct H as [<- HR']. rewrite (Ho _ _ HR'), (IH _ _ HR'). reflexivity.
Qed.

(** simulation of a forward iterator by the list it yields *)
Lemma nexts_yields {S A} (next : S -> option A * S) (R : S -> list A -> Prop) :
  (forall s l, R s l ->
     match l with
     | [] => fst (next s) = None /\ R (snd (next s)) []
     | a :: l' => fst (next s) = Some a /\ R (snd (next s)) l'
     end) ->
  forall n s l, R s l -> nexts next n s = yields n l.
Proof.
  intros H n. induction n as [|n IH]; intros s l HR; [reflexivity|].
  cbn [nexts]. specialize (H s l HR). destruct (next s) as [o s']. cbn in H.
  unfold yields. destruct l as [|a l].
  - destruct H as [-> H]. cbn. f_equal. rewrite (IH _ _ H). reflexivity.
  - destruct H as [-> H]. cbn [map app firstn]. f_equal. rewrite (IH _ _ H). unfold yields.
    rewrite !firstn_app. f_equal.
    set (j := n - length (map Some l)).
    assert (Hj : j <= n) by (unfold j; lia).
    clearbody j. clear - Hj. cbn [repeat].
    change (None :: repeat None n) with (@repeat (option A) None (Datatypes.S n)).
    assert (G : forall i k, i <= k -> firstn i (@repeat (option A) None k) = repeat None i).
    { induction i as [|i IHi]; intros [|k] Hk; cbn; try reflexivity; try lia. f_equal. apply IHi. lia. }
    rewrite !G by lia. reflexivity.
Qed.

Lemma yields_In {A} n (l : list A) a : In (Some a) (yields n l) -> In a l.
Proof.
  unfold yields. intros H.
  assert (G : forall i (x : list (option A)) y, In y (firstn i x) -> In y x).
  { induction i as [|i IHi]; intros [|z x] y Hy; cbn in *; try tauto. destruct Hy as [->|Hy]; auto. }
  apply G in H. apply in_app_or in H as [H|H].
  - apply in_map_iff in H as (b & [= ->] & Hb). exact Hb.
  - apply repeat_spec in H. discriminate.
Qed.

Lemma firstn_repeat {A} (x : A) : forall i k, i <= k -> firstn i (repeat x k) = repeat x i.
Proof.
  induction i as [|i IHi]; intros [|k] Hk; cbn; try reflexivity; try lia. f_equal. apply IHi. lia.
Qed.
Lemma yields_cons {A} n (a : A) l : yields (S n) (a :: l) = Some a :: yields n l.
Proof.
  unfold yields. cbn [map app firstn]. f_equal. rewrite !firstn_app. f_equal.
  rewrite !firstn_repeat; [reflexivity| |]; lia.
Qed.
Lemma yields_nil {A} n : @yields A n [] = repeat None n.
Proof. unfold yields. cbn. apply firstn_all2. rewrite repeat_length. auto. Qed.
