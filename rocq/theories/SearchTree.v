(** Searching in a B-tree of arbitrary shape.

    [BTree.v] models [BTreeMap::range] by a linear scan over the entries in
    iteration order.  A real B-tree descends from the root and compares the
    bound with SOME of the keys only.  Here a B-tree of arbitrary shape (any
    number of keys per node, any depth, balanced or not) is searched as std
    does, and the result is shown to be the linear scan's provided the bound
    cuts the entries into a prefix and a suffix. *)
From Coq Require Import List Bool.
From Verif Require Import Order Outcome BTree ListLemmas.
Import ListNotations.

(** A node is a sequence child, key, child, key, ..., child. *)
Inductive tree (A : Type) : Type :=
| Leaf
| Node (f : forest A)
with forest (A : Type) : Type :=
| Last (t : tree A)
| More (t : tree A) (a : A) (f : forest A).
Arguments Leaf {A}.
Arguments Node {A} f.
Arguments Last {A} t.
Arguments More {A} t a f.

Section Tree.
  Context {A : Type}.

  Fixpoint elems (t : tree A) : list A :=
    match t with Leaf => [] | Node f => felems f end
  with felems (f : forest A) : list A :=
    match f with
    | Last t => elems t
    | More t a f' => elems t ++ a :: felems f'
    end.

  (** The search: in each node look for the first key not left of the bound
      ([p] = "left of the bound"), then descend into the child before it.  The
      result is the pair of what lies before and after the position found.
      (std: alloc/src/collections/btree/search.rs, [search_node] /
      [find_lower_bound_index], [find_upper_bound_index].) *)
  Fixpoint cut (p : A -> bool) (t : tree A) : list A * list A :=
    match t with
    | Leaf => ([], [])
    | Node f => fcut p f
    end
  with fcut (p : A -> bool) (f : forest A) : list A * list A :=
    match f with
    | Last t => cut p t
    | More t a f' =>
        if p a then let (l, r) := fcut p f' in (elems t ++ a :: l, r)
        else let (l, r) := cut p t in (l, r ++ a :: felems f')
    end.

  (** the bound splits the entries into a prefix and a suffix *)
  Definition monotone (p : A -> bool) (l : list A) : Prop :=
    forall l1 a l2 b l3, l = l1 ++ a :: l2 ++ b :: l3 -> p b = true -> p a = true.

  Lemma monotone_app p l1 l2 : monotone p (l1 ++ l2) -> monotone p l1 /\ monotone p l2.
  Proof.
    intros H. split.
    - intros x a y b z ->. apply (H x a y b (z ++ l2)). rewrite <- !app_assoc. cbn.
      rewrite <- !app_assoc. reflexivity.
    - intros x a y b z ->. apply (H (l1 ++ x) a y b z). rewrite <- !app_assoc. reflexivity.
  Qed.
  Lemma monotone_before p l1 a l2 : monotone p (l1 ++ a :: l2) -> p a = true ->
    forall x, In x l1 -> p x = true.
  Proof.
    intros H Hp x Hx. apply in_split in Hx as (y & z & ->).
    apply (H y x z a l2); [|exact Hp]. rewrite <- app_assoc. reflexivity.
  Qed.
  Lemma monotone_after p l1 a l2 : monotone p (l1 ++ a :: l2) -> p a = false ->
    forall x, In x l2 -> p x = false.
  Proof.
    intros H Hp x Hx. apply in_split in Hx as (y & z & ->).
    destruct (p x) eqn:E; [|reflexivity]. rewrite (H l1 a y x z) in Hp; [discriminate|reflexivity|exact E].
  Qed.

  Scheme tree_ind' := Induction for tree Sort Prop
  with forest_ind' := Induction for forest Sort Prop.

  Lemma scan_left (p : A -> bool) l1 a l2 : p a = true -> (forall x, In x l1 -> p x = true) ->
    take_while p (l1 ++ a :: l2) = l1 ++ a :: take_while p l2 /\
    drop_while p (l1 ++ a :: l2) = drop_while p l2.
  Proof.
    intros Ha. induction l1 as [|b l1 IH]; intros H; cbn.
    - rewrite Ha. auto.
    - rewrite (H b (or_introl eq_refl)). destruct IH as [-> ->]; auto.
      intros x Hx. apply H. right; exact Hx.
  Qed.
  Lemma scan_right (p : A -> bool) l1 a l2 : p a = false ->
    take_while p (l1 ++ a :: l2) = take_while p l1 /\
    drop_while p (l1 ++ a :: l2) = drop_while p l1 ++ a :: l2.
  Proof.
    intros Ha. induction l1 as [|b l1 [IH1 IH2]]; cbn.
    - rewrite Ha. auto.
    - destruct (p b); cbn; [rewrite IH1, IH2|]; auto.
  Qed.

  Lemma cut_scan p t : monotone p (elems t) ->
    cut p t = (take_while p (elems t), drop_while p (elems t)).
  Proof.
    revert t. apply (tree_ind' A
      (fun t => monotone p (elems t) -> cut p t = (take_while p (elems t), drop_while p (elems t)))
      (fun f => monotone p (felems f) -> fcut p f = (take_while p (felems f), drop_while p (felems f)))).
    - reflexivity.
    - intros f IH H. exact (IH H).
    - intros t IH H. exact (IH H).
    - intros t IHt a f IHf H. cbn in *. pose proof H as H0.
      apply monotone_app in H0 as [H1 H2].
      change (a :: felems f) with ([a] ++ felems f) in H2. apply monotone_app in H2 as [_ H2].
      destruct (p a) eqn:Ea.
      + rewrite (IHf H2). destruct (scan_left p (elems t) a (felems f) Ea) as [-> ->].
        * apply (monotone_before p (elems t) a (felems f)); assumption.
        * reflexivity.
      + rewrite (IHt H1). destruct (scan_right p (elems t) a (felems f) Ea) as [-> ->]. reflexivity.
  Qed.

  (** the entries between two positions *)
  Lemma between p q (l : list A) : monotone q l ->
    take_while q (drop_while p l) = skipn (length (take_while p l)) (take_while q l).
  Proof.
    induction l as [|a l IH]; intros H; [reflexivity|]. cbn.
    destruct (p a) eqn:Ep; [|reflexivity]. cbn [length skipn].
    pose proof H as H0. change (a :: l) with ([a] ++ l) in H0. apply monotone_app in H0 as [_ H0].
    rewrite (IH H0). destruct (q a) eqn:Eq; [reflexivity|].
    assert (E : take_while q l = []).
    { destruct l as [|b l]; [reflexivity|]. cbn.
      rewrite (monotone_after q [] a (b :: l) H Eq b (or_introl eq_refl)). reflexivity. }
    rewrite E. destruct (length (take_while p l)); reflexivity.
  Qed.
End Tree.

(** [BTreeMap::range] on a tree: both positions are found by descent; the
    result is what lies between them. *)
Definition tree_range {Q V} (c : Q -> Q -> comparison) (lo hi : bound Q) (t : tree (Q * V))
  : list (Q * V) :=
  skipn (length (fst (cut (fun e => below c lo (fst e)) t)))
        (fst (cut (fun e => negb (above c hi (fst e))) t)).

(** entries sorted by the ordering used for the search *)
Definition sorted_by {Q V} (c : Q -> Q -> comparison) (l : list (Q * V)) : Prop :=
  forall l1 a l2 b l3, l = l1 ++ a :: l2 ++ b :: l3 -> c (fst a) (fst b) = Lt.

Lemma tree_range_ok {Q V} (c : Q -> Q -> comparison) (HC : TotalOrd c) lo hi (t : tree (Q * V)) :
  sorted_by c (elems t) -> bad_bounds c lo hi = false ->
  bt_range c lo hi (elems t) = Ret (tree_range c lo hi t).
Proof.
  intros HS Hb. unfold bt_range, tree_range. rewrite Hb. f_equal.
  assert (M1 : monotone (fun e => below c lo (fst e)) (elems t)).
  { intros l1 a l2 b l3 E. specialize (HS _ _ _ _ _ E). destruct lo as [|q|q]; cbn; [discriminate| |].
    - destruct (c (fst b) q) eqn:E1; try discriminate. intros _.
      rewrite (ord_trans _ HC Lt _ _ _ HS E1). reflexivity.
    - destruct (c (fst b) q) eqn:E1; try discriminate; intros _.
      + rewrite (cmp_Lt_Eq HC _ _ _ HS E1). reflexivity.
      + rewrite (ord_trans _ HC Lt _ _ _ HS E1). reflexivity. }
  assert (M2 : monotone (fun e => negb (above c hi (fst e))) (elems t)).
  { intros l1 a l2 b l3 E. specialize (HS _ _ _ _ _ E). destruct hi as [|q|q]; cbn; [reflexivity| |].
    - destruct (c (fst b) q) eqn:E1; try discriminate; intros _.
      + rewrite (cmp_Lt_Eq HC _ _ _ HS E1). reflexivity.
      + rewrite (ord_trans _ HC Lt _ _ _ HS E1). reflexivity.
    - destruct (c (fst b) q) eqn:E1; try discriminate. intros _.
      rewrite (ord_trans _ HC Lt _ _ _ HS E1). reflexivity. }
  rewrite (cut_scan _ t M1), (cut_scan _ t M2). cbn [fst].
  apply between. exact M2.
Qed.
