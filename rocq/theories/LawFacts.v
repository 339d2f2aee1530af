(** The step laws follow from correct histories: two calls on two keys. *)
From Coq Require Import List Bool Lia.
From Verif Require Import Order Outcome BTree Ranges History Spec MapModel IMapModel ListLemmas IMapProps SetModel ISetModel ISetProps.
Import ListNotations.

Section Necessary.
  Context {K V : Type} {cmp : K -> K -> comparison} {veqb : V -> V -> bool} {st : stepfns K}.
  Context (HO : TotalOrd cmp).
  Notation run := (im_run cmp veqb st).
  Notation valid := (valid_rangei cmp).
  Notation covers := (in_rangei cmp).
  Notation spec := (spec_run (V := V) valid covers).

  Lemma insert_one s e (v : V) : leb cmp s e = true ->
    im_insert cmp veqb st (incl s e) v [] = (Ret tt, [(incl s e, v)]).
  Proof.
    intros H. unfold im_insert. unfold bind at 1, assert_. cbn [ri_start ri_end incl]. rewrite H.
    reflexivity.
  Qed.

  Lemma get_one s e (v : V) k :
    im_get cmp [(incl s e, v)] k
    = Ret (if leb cmp s k && leb cmp k e then Some v else None).
  Proof.
    unfold im_get, im_get_key_value. cbn. unfold cmpi_start, ri_contains, leb. cbn.
    destruct (cmp s k) eqn:E; cbn; rewrite ?E; destruct (cmp k e); reflexivity.
  Qed.
  Lemma get_none k : im_get (V := V) cmp [] k = Ret None.
  Proof. reflexivity. Qed.

  Ltac go := repeat (progress (cbn; unfold bind, ret, assert_, lift, modify, get, cmpi_start,
      ri_overlaps, kmax, kmin, leb, ltb, gtb;
    repeat match goal with E : cmp ?a ?b = _ |- _ => rewrite E end)).

  Lemma loop_one n x (e : rangei K * V) :
    im_remove_loop cmp st (S n) (incl x x) (incl x x) [e] = (Ret tt, [e]).
  Proof.
    assert (H2 : cmp x x = Eq) by (apply (ord_refl _ HO)).
    assert (Hd : cmp x (ri_start (fst e)) = CompOpp (cmp (ri_start (fst e)) x)) by apply (ord_dual _ HO).
    cbn [im_remove_loop]. unfold bind, get, lift.
    replace (bt_range (cmpi_start cmp) (Excluded (incl x x)) (Included (incl x x)) [e])
      with (Ret (A := list (rangei K * V)) []); [reflexivity|].
    unfold bt_range, bad_bounds. go.
    destruct (cmp (ri_start (fst e)) x) eqn:E; cbn in *; go; reflexivity.
  Qed.

  (** A step function that is [None] makes [remove] panic, after it has taken
      the entry out. *)
  Lemma remove_last y x (v : V) : ltb cmp y x = true ->
    im_remove cmp st (incl x x) [(incl y x, v)]
    = match sub_one st x with
      | Some p => (Ret tt, [(incl y p, v)])
      | None => (Panicked PStep, [])
      end.
  Proof.
    intros H.
    assert (H1 : cmp y x = Lt) by (unfold ltb in H; destruct (cmp y x); congruence).
    assert (H2 : cmp x x = Eq) by (apply (ord_refl _ HO)).
    assert (H3 : cmp y y = Eq) by (apply (ord_refl _ HO)).
    assert (H4 : cmp x y = Gt) by (rewrite (ord_dual _ HO), H1; reflexivity).
    unfold im_remove, im_adjust_overlapping_ranges_for_remove. go.
    destruct (sub_one st x) as [p|]; [|reflexivity].
    exact (loop_one 1 x (incl y p, v)).
  Qed.

  Lemma remove_first x y (v : V) : ltb cmp x y = true ->
    im_remove cmp st (incl x x) [(incl x y, v)]
    = match add_one st x with
      | Some s => (Ret tt, [(incl s y, v)])
      | None => (Panicked PStep, [])
      end.
  Proof.
    intros H.
    assert (H1 : cmp x y = Lt) by (unfold ltb in H; destruct (cmp x y); congruence).
    assert (H2 : cmp x x = Eq) by (apply (ord_refl _ HO)).
    assert (H3 : cmp y y = Eq) by (apply (ord_refl _ HO)).
    assert (H4 : cmp y x = Gt) by (rewrite (ord_dual _ HO), H1; reflexivity).
    unfold im_remove, im_adjust_overlapping_ranges_for_remove. go.
    destruct (add_one st x) as [s|]; [|reflexivity].
    exact (loop_one 1 x (incl s y, v)).
  Qed.

  (** The two histories. *)
  Definition cut_last (y x : K) (v : V) : list (op (rangei K) V) :=
    [OInsert (incl y x) v; ORemove (incl x x)].
  Definition cut_first (x y : K) (v : V) : list (op (rangei K) V) :=
    [OInsert (incl x y) v; ORemove (incl x x)].

  Lemma run_last y x v : ltb cmp y x = true ->
    run (cut_last y x v) = match sub_one st x with Some p => [(incl y p, v)] | None => [] end.
  Proof.
    intros H. unfold im_run, run_ops, cut_last. cbn [fold_left im_exec]. unfold im_new.
    rewrite insert_one by ord. cbn [snd]. rewrite (remove_last _ _ _ H).
    destruct (sub_one st x); reflexivity.
  Qed.
  Lemma run_first x y v : ltb cmp x y = true ->
    run (cut_first x y v) = match add_one st x with Some s => [(incl s y, v)] | None => [] end.
  Proof.
    intros H. unfold im_run, run_ops, cut_first. cbn [fold_left im_exec]. unfold im_new.
    rewrite insert_one by ord. cbn [snd]. rewrite (remove_first _ _ _ H).
    destruct (add_one st x); reflexivity.
  Qed.

  Definition has (m : imap K V) k (b : bool) : Prop :=
    exists o, im_get cmp m k = Ret o /\ (o = None <-> b = false).

  Lemma has_one s e v k b : has [(incl s e, v)] k b -> leb cmp s k && leb cmp k e = b.
  Proof.
    intros (o & G & N). rewrite get_one in G. injection G as <-.
    destruct (leb cmp s k && leb cmp k e); destruct b; try reflexivity; exfalso; intuition congruence.
  Qed.
  Lemma has_none k : ~ has [] k true.
  Proof. intros (o & G & N). rewrite get_none in G. injection G as <-. intuition congruence. Qed.

  Lemma laws_from (v : V) :
    (forall x y, ltb cmp x y = true ->
       has (run (cut_first x y v)) y true /\ has (run (cut_first x y v)) x false) ->
    (forall x y, ltb cmp y x = true ->
       has (run (cut_last y x v)) y true /\ has (run (cut_last y x v)) x false) ->
    StepLaws cmp st.
  Proof.
    intros Hf Hl. constructor.
    - intros x y Hxy. destruct (Hf x y Hxy) as (A & B).
      rewrite (run_first _ _ _ Hxy) in A, B. destruct (add_one st x) as [s|].
      + apply has_one in A, B. apply andb_true_iff in A. destruct A as [A _].
        exists s. splits; auto. apply andb_false_iff in B. destruct B as [B|B]; ord.
      + exfalso. exact (has_none _ A).
    - intros x y Hxy. destruct (Hl x y Hxy) as (A & B).
      rewrite (run_last _ _ _ Hxy) in A, B. destruct (sub_one st x) as [s|].
      + apply has_one in A, B. apply andb_true_iff in A. destruct A as [_ A].
        exists s. splits; auto. apply andb_false_iff in B. destruct B as [B|B]; ord.
      + exfalso. exact (has_none _ A).
  Qed.

  Lemma spec_first x y v : ltb cmp x y = true ->
    spec (cut_first x y v) y = Some v /\ spec (cut_first x y v) x = None.
  Proof.
    intros H. cbn. unfold put, del, in_rangei, valid_rangei. cbn.
    assert (E1 : ltb cmp x x = false) by ord. assert (E2 : ltb cmp y x = false) by ord.
    assert (E3 : ltb cmp y y = false) by ord.
    rewrite E1, E2. cbn. rewrite E1, E2, H, E3. auto.
  Qed.
  Lemma spec_last x y v : ltb cmp y x = true ->
    spec (cut_last y x v) y = Some v /\ spec (cut_last y x v) x = None.
  Proof.
    intros H. cbn. unfold put, del, in_rangei, valid_rangei. cbn.
    assert (E1 : ltb cmp x x = false) by ord. assert (E2 : ltb cmp x y = false) by ord.
    assert (E3 : ltb cmp y y = false) by ord.
    rewrite E1, E2. cbn. rewrite E1, E2, E3, H. auto.
  Qed.

  Definition right (ops : list (op (rangei K) V)) k : Prop :=
    exists o, im_get cmp (run ops) k = Ret o /\ (o = None <-> spec ops k = None).

  Lemma laws_needed (v : V) :
    (forall x y c k, valid (incl x y) = true ->
       right [OInsert (incl x y) v; ORemove (incl c c)] k) ->
    StepLaws cmp st.
  Proof.
    intros H. apply (laws_from v).
    - intros x y Hxy. destruct (spec_first x y v Hxy) as (A & B).
      assert (Hv : valid (incl x y) = true) by (unfold valid_rangei; cbn; ord).
      destruct (H x y x y Hv) as (o & G & N). destruct (H x y x x Hv) as (o' & G' & N').
      change (spec _ y) with (spec (cut_first x y v) y) in N. rewrite A in N.
      change (spec _ x) with (spec (cut_first x y v) x) in N'. rewrite B in N'.
      split; [exists o|exists o']; (split; [assumption|]); intuition congruence.
    - intros x y Hxy. destruct (spec_last x y v Hxy) as (A & B).
      assert (Hv : valid (incl y x) = true) by (unfold valid_rangei; cbn; ord).
      destruct (H y x x y Hv) as (o & G & N). destruct (H y x x x Hv) as (o' & G' & N').
      change (spec _ y) with (spec (cut_last y x v) y) in N. rewrite A in N.
      change (spec _ x) with (spec (cut_last y x v) x) in N'. rewrite B in N'.
      split; [exists o|exists o']; (split; [assumption|]); intuition congruence.
  Qed.

  (** Over a dense order every choice of steps goes wrong. *)
  Lemma first_wrong x y v s : ltb cmp x y = true -> add_one st x = Some s ->
    ltb cmp y s = true -> ~ right (cut_first x y v) y.
  Proof.
    intros H E L (o & G & N). rewrite (run_first _ _ _ H), E, get_one in G.
    destruct (spec_first x y v H) as (A & _). rewrite A in N.
    assert (E1 : leb cmp s y = false) by ord. rewrite E1 in G. cbn in G. injection G as <-.
    intuition congruence.
  Qed.
  Lemma first_keeps x y v s : ltb cmp x y = true -> add_one st x = Some s ->
    leb cmp s x = true -> ~ right (cut_first x y v) x.
  Proof.
    intros H E L (o & G & N). rewrite (run_first _ _ _ H), E, get_one in G.
    destruct (spec_first x y v H) as (_ & A). rewrite A in N.
    assert (E1 : leb cmp x y = true) by ord. rewrite L, E1 in G. cbn in G. injection G as <-.
    intuition congruence.
  Qed.
  Lemma first_panics x y v : ltb cmp x y = true -> add_one st x = None ->
    ~ right (cut_first x y v) y.
  Proof.
    intros H E (o & G & N). rewrite (run_first _ _ _ H), E, get_none in G.
    destruct (spec_first x y v H) as (A & _). rewrite A in N. injection G as <-.
    intuition congruence.
  Qed.

  Lemma dense_wrong (v : V) x y : ltb cmp x y = true ->
    (forall a b, ltb cmp a b = true -> exists c, ltb cmp a c = true /\ ltb cmp c b = true) ->
    exists z k, ltb cmp x z = true /\ leb cmp z y = true /\ (k = x \/ k = z) /\
      ~ right [OInsert (incl x z) v; ORemove (incl x x)] k.
  Proof.
    intros H D. destruct (add_one st x) as [s|] eqn:E.
    - destruct (leb cmp s x) eqn:L.
      + exists y, x. splits; auto; [ord|]. exact (first_keeps _ _ _ _ H E L).
      + destruct (ltb cmp y s) eqn:L2.
        * exists y, y. splits; auto; [ord|]. exact (first_wrong _ _ _ _ H E L2).
        * destruct (D x s ltac:(ord)) as (c & B & C). exists c, c. splits; auto; [ord|].
          exact (first_wrong _ _ _ _ B E C).
    - exists y, y. splits; auto; [ord|]. exact (first_panics _ _ _ H E).
  Qed.

  Lemma laws_exact (v : V) : PartialEquiv veqb ->
    StepLaws cmp st <->
    (forall ops, fresh_ops ops -> forall k,
       exists o, im_get cmp (run ops) k = Ret o /\ same_opt veqb o (spec ops k)).
  Proof.
    intros HV. split.
    - intros HS. exact (irun_get_spec HO HS HV).
    - intros H. apply (laws_needed v). intros x y c k _. set (ops := [_; _]).
      destruct (H ops eq_refl k) as (o & G & N).
      exists o. split; [assumption|]. unfold same_opt in N.
      destruct o, (spec ops k); intuition congruence.
  Qed.
End Necessary.

Section SetNecessary.
  Context {K : Type} {cmp : K -> K -> comparison} {st : stepfns K}.
  Context (HO : TotalOrd cmp).
  Notation run := (is_run cmp st).
  Notation mem := (mem_run (valid_rangei cmp) (in_rangei cmp)).

  Lemma set_has ops (m : iset K) k b : run ops = m -> is_contains cmp (run ops) k = Ret b -> has (cmp := cmp) m k b.
  Proof.
    intros <- H. unfold is_contains, im_contains_key in H. unfold has.
    destruct (im_get cmp (run ops) k) as [o| |]; try discriminate H.
    exists o. split; [reflexivity|]. injection H as <-. destruct o; intuition congruence.
  Qed.

  Lemma set_laws_exact :
    StepLaws cmp st <->
    (forall ops k, fresh_sops ops -> is_contains cmp (run ops) k = Ret (mem ops k)).
  Proof.
    split; [intros HS; exact (isrun_contains HO HS)|].
    intros H. apply (laws_from (V := unit) (veqb := unit_eqb) HO tt).
    - intros x y Hxy. set (ops := [SInsert (incl x y); SRemove (incl x x)]).
      assert (E : run ops = im_run cmp unit_eqb st (cut_first x y tt)) by reflexivity.
      assert (A : mem ops y = true /\ mem ops x = false).
      { cbn. unfold in_rangei, valid_rangei. cbn.
        assert (E1 : ltb cmp x x = false) by ord. assert (E2 : ltb cmp y x = false) by ord.
        assert (E3 : ltb cmp y y = false) by ord.
        rewrite E1, E2. cbn. rewrite E1, E2, Hxy, E3. auto. }
      destruct A as [A B].
      split; apply (set_has ops); auto; rewrite H; congruence || reflexivity.
    - intros x y Hxy. set (ops := [SInsert (incl y x); SRemove (incl x x)]).
      assert (E : run ops = im_run cmp unit_eqb st (cut_last y x tt)) by reflexivity.
      assert (A : mem ops y = true /\ mem ops x = false).
      { cbn. unfold in_rangei, valid_rangei. cbn.
        assert (E1 : ltb cmp x x = false) by ord. assert (E2 : ltb cmp x y = false) by ord.
        assert (E3 : ltb cmp y y = false) by ord.
        rewrite E1, E2. cbn. rewrite E1, E2, E3, Hxy. auto. }
      destruct A as [A B].
      split; apply (set_has ops); auto; rewrite H; congruence || reflexivity.
  Qed.
End SetNecessary.
