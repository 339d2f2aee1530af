
(** C90: the step laws are not only sufficient but necessary.  For any total
    order on the keys, [RangeInclusiveMap] and [RangeInclusiveSet] are correct
    for all histories exactly when [add_one] and [sub_one] satisfy them. *)
From Coq Require Import List Bool ZArith QArith Lia.
From Verif Require Import Order Outcome BTree Ranges History Spec MapModel IMapModel SetModel ISetModel
  IMapProps ListLemmas LawFacts Instances.
Import ListNotations.

Local Open Scope Z_scope.
(** steps of ten on the integers: total, inverse to each other, monotone *)
Definition tens : stepfns Z := mkStep (fun z => Some (z + 10)) (fun z => Some (z - 10)).
(** a step function that stops short of the greatest key *)
Definition early : stepfns Z :=
  mkStep (fun z => if z =? 4 then None else Some (z + 1)) (fun z => Some (z - 1)).

Lemma Qltb a b : ltb Qcompare a b = true <-> (a < b)%Q.
Proof.
  unfold ltb. rewrite Qlt_alt. destruct (a ?= b)%Q; intuition congruence.
Qed.
Lemma Q_order : TotalOrd Qcompare.
Proof.
  constructor.
  - intros x. apply Qeq_alt. reflexivity.
  - intros x y. symmetry. apply Qcompare_antisym.
  - intros [] x y z H1 H2.
    + apply Qeq_alt in H1, H2. apply Qeq_alt. rewrite H1. exact H2.
    + apply Qlt_alt in H1, H2. apply Qlt_alt. exact (Qlt_trans _ _ _ H1 H2).
    + apply Qgt_alt in H1, H2. apply Qgt_alt. exact (Qlt_trans _ _ _ H2 H1).
Qed.
Lemma Q_dense a b : ltb Qcompare a b = true ->
  exists c, ltb Qcompare a c = true /\ ltb Qcompare c b = true.
Proof.
  intros H. apply Qltb in H. exists ((a + b) / 2)%Q. rewrite !Qltb. split.
  - apply Qlt_shift_div_l; [reflexivity|]. setoid_replace (a * 2)%Q with (a + a)%Q by ring.
    apply Qplus_lt_r. exact H.
  - apply Qlt_shift_div_r; [reflexivity|]. setoid_replace (b * 2)%Q with (b + b)%Q by ring.
    apply Qplus_lt_l. exact H.
Qed.

Section Laws.
  Context {K V : Type} {cmp : K -> K -> comparison} {veqb : V -> V -> bool} {st : stepfns K}.
  Context (HO : TotalOrd cmp).
  Notation run := (im_run cmp veqb st).
  Notation spec := (spec_run (V := V) (valid_rangei cmp) (in_rangei cmp)).

  Theorem C90_laws_exact : forall v : V, PartialEquiv veqb ->
    (StepLaws cmp st <->
     forall ops, fresh_ops ops -> forall k,
       exists o, im_get cmp (run ops) k = Ret o /\ same_opt veqb o (spec ops k)).
  Proof. exact (laws_exact HO). Qed.

  (** necessity needs neither a lawful [==] nor the values: it is enough that
      the right keys are mapped after one insert and one remove *)
  Theorem C90_laws_necessary : forall v : V,
    (forall x y c k, valid_rangei cmp (incl x y) = true ->
       let ops := [OInsert (incl x y) v; ORemove (incl c c)] in
       exists o, im_get cmp (run ops) k = Ret o /\ (o = None <-> spec ops k = None)) ->
    StepLaws cmp st.
  Proof. exact (laws_needed HO). Qed.

  Theorem C90_set_laws_exact :
    StepLaws cmp st <->
    forall ops k, fresh_sops ops ->
      is_contains cmp (is_run cmp st ops) k = Ret (mem_run (valid_rangei cmp) (in_rangei cmp) ops k).
  Proof. exact (set_laws_exact HO). Qed.

  (** Over keys with no neighbours no choice of step functions is correct. *)
  Theorem C90_dense_keys_never : forall (v : V) x y, ltb cmp x y = true ->
    (forall a b, ltb cmp a b = true -> exists c, ltb cmp a c = true /\ ltb cmp c b = true) ->
    exists z k, ltb cmp x z = true /\ leb cmp z y = true /\ (k = x \/ k = z) /\
      let ops := [OInsert (incl x z) v; ORemove (incl x x)] in
      ~ exists o, im_get cmp (run ops) k = Ret o /\ (o = None <-> spec ops k = None).
  Proof. exact (dense_wrong HO). Qed.

  (** the hypotheses of C90_laws_exact are met by the integers ... *)
  Example C90_example : TotalOrd Z.compare /\ PartialEquiv Z.eqb /\ StepLaws Z.compare zst /\
    (forall ops, fresh_ops ops -> forall k,
       exists o, im_get Z.compare (im_run Z.compare Z.eqb zst ops) k = Ret o /\
         same_opt Z.eqb o (spec_run (valid_rangei Z.compare) (in_rangei Z.compare) ops k)).
  Proof.
    split; [exact Z_order|]. split; [exact Z_per|]. split; [exact zst_laws|].
    exact (proj1 (@laws_exact Z Z Z.compare Z.eqb zst Z_order 0 Z_per) zst_laws).
  Qed.

  (** ... steps that merely never fail are not enough: steps of ten store a
      backward range and lose the key 0 *)
  Theorem C90_total_steps_enough_refuted : exists st' : stepfns Z,
    (forall x, exists s, add_one st' x = Some s /\ x < s /\ sub_one st' s = Some x) /\
    (forall x, exists p, sub_one st' x = Some p /\ p < x /\ add_one st' p = Some x) /\
    ~ StepLaws Z.compare st' /\
    exists ops : list (op (rangei Z) Z), fresh_ops ops /\
      im_run Z.compare Z.eqb st' ops = [(incl 0 (-5), 1)] /\
      im_get Z.compare (im_run Z.compare Z.eqb st' ops) 0 = Ret None /\
      spec_run (valid_rangei Z.compare) (in_rangei Z.compare) ops 0 = Some 1.
  Proof.
    exists tens. split; [|split; [|split]].
    - intros x. exists (x + 10). cbn. splits; [reflexivity|lia|f_equal; lia].
    - intros x. exists (x - 10). cbn. splits; [reflexivity|lia|f_equal; lia].
    - intros H. destruct (step_succ _ _ H 0 5 eq_refl) as (s & E & _ & L).
      injection E as <-. discriminate L.
    - exists [OInsert (incl 0 5) 1; ORemove (incl 5 5)]. vm_compute. auto.
  Qed.

  (** a step that fails below the greatest key loses the rest of the range *)
  Example C90_early_example :
    fst (im_remove Z.compare early (incl 4 4) (im_run Z.compare Z.eqb early [OInsert (incl 0 9) 1]))
      = Panicked PStep /\
    im_run Z.compare Z.eqb early [OInsert (incl 0 9) 1; ORemove (incl 4 4)] = [(incl 0 3, 1)] /\
    im_get Z.compare (im_run Z.compare Z.eqb early [OInsert (incl 0 9) 1; ORemove (incl 4 4)]) 9 = Ret None.
  Proof. vm_compute. auto. Qed.

  (** the rationals are dense, and the halfway rule is one of the steps that fail *)
  Example C90_dense_example : TotalOrd Qcompare /\
    (forall a b, ltb Qcompare a b = true -> exists c, ltb Qcompare a c = true /\ ltb Qcompare c b = true) /\
    ltb Qcompare 0%Q 1%Q = true.
  Proof. split; [exact Q_order|]. split; [exact Q_dense|reflexivity]. Qed.
End Laws.

Print Assumptions C90_laws_exact.
Print Assumptions C90_laws_necessary.
Print Assumptions C90_set_laws_exact.
Print Assumptions C90_dense_keys_never.
Print Assumptions C90_total_steps_enough_refuted.
