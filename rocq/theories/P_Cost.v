(** The number of [BTreeMap] modifications (C71, C72).
    [length (fst (rmx_exec cmp veqb o m))] is the number of modifications call
    [o] makes on map [m] (CrashModel.v; C62_record_faithful and
    C62_record_complete say that the record is the call's own and complete);
    [modifications] adds them up over a history. *)
From Coq Require Import List Bool Sorting.Sorted ZArith Lia.
From Verif Require Import Order Outcome BTree Ranges History Spec MapModel IMapModel StepModel StepFacts
  ListLemmas MapProofs MapRemove MapFacts MapIter MapMore MapProps IMapProps CrashModel CrashFacts CrashProps Cost ExhaustedCrash Instances Cross CrossMore.
Import ListNotations.

Section Half.
  Context {K V : Type} {cmp : K -> K -> comparison} {veqb : V -> V -> bool}.
  Context (HO : TotalOrd cmp) (HV : PartialEquiv veqb).

  Notation run := (rm_run cmp veqb).

  (** ** C71 *)
  (** a call's modifications are paid for by its budget and by the entries that
      disappear *)
  Theorem C71_call_budget : forall ops o,
    length (fst (rmx_exec cmp veqb o (run ops))) + rm_len (run (ops ++ [o])) <=
    rm_len (run ops) + op_budget o.
  Proof. exact (call_budget HO HV). Qed.
  (** so a whole history makes a bounded number of them per call *)
  Theorem C71_history_budget : forall ops,
    modifications (rmx_exec cmp veqb) ops rm_new + rm_len (run ops) <= history_budget ops.
  Proof. exact (total_budget HO HV). Qed.
  (** and no call gets away with fewer than the number of entries it adds or drops *)
  Theorem C71_at_least : forall ops o, o <> OClear ->
    rm_len (run (ops ++ [o])) <= rm_len (run ops) + length (fst (rmx_exec cmp veqb o (run ops))) /\
    rm_len (run ops) <= rm_len (run (ops ++ [o])) + length (fst (rmx_exec cmp veqb o (run ops))).
  Proof. exact call_at_least. Qed.
End Half.

Notation zrun := (rm_run Z.compare Z.eqb).
Notation zx := (rmx_exec Z.compare Z.eqb).
(** the bounds are met: cutting an entry in the middle; and a history *)
Example C71_example :
  let m := zrun [OInsert (mkR 0 9)%Z 1%Z] in
  zrun [OInsert (mkR 0 9)%Z 1%Z; OInsert (mkR 3 4)%Z 2%Z] =
    [(mkR 0 3, 1); (mkR 3 4, 2); (mkR 4 9, 1)]%Z /\
  length (fst (zx (OInsert (mkR 3 4)%Z 2%Z) m)) = 4 /\
  zrun [OInsert (mkR 0 9)%Z 1%Z; ORemove (mkR 3 4)%Z] = [(mkR 0 3, 1); (mkR 4 9, 1)]%Z /\
  length (fst (zx (ORemove (mkR 3 4)%Z) m)) = 3 /\
  rm_len m = 1 /\
  modifications zx ex_ops rm_new = 13 /\ rm_len (zrun ex_ops) = 5 /\ history_budget ex_ops = 52.
Proof. vm_compute. auto 10. Qed.

(** "a single call makes a bounded number of modifications" is false *)
Fixpoint cells (n : nat) (a : Z) : list (range Z * Z) :=
  match n with O => [] | S n' => (mkR a (a + 1), 0)%Z :: cells n' (a + 2)%Z end.
Lemma cells_In n : forall a e, In e (cells n a) ->
  (a <= r_start (fst e) /\ r_end (fst e) = r_start (fst e) + 1 /\ r_end (fst e) < a + 2 * Z.of_nat n)%Z.
Proof.
  induction n as [|n IH]; intros a e He; [destruct He|]. cbn [cells] in He. destruct He as [<-|He].
  - cbn [fst r_start r_end]. lia.
  - apply IH in He. lia.
Qed.
Lemma cells_WF n : forall a, WF (cmp := Z.compare) (veqb := Z.eqb) (cells n a).
Proof.
  induction n as [|n IH]; intros a; cbn [cells]; [apply WF_nil|]. apply WF_cons. splits; [|apply IH|].
  - cbn. unfold ltb. destruct (Z.compare_spec a (a + 1)%Z); auto; lia.
  - intros b Hb. apply cells_In in Hb. split; cbn.
    + unfold leb. destruct (Z.compare_spec (a + 1)%Z (r_start (fst b))); auto; lia.
    + unfold eqb. destruct (Z.compare_spec (a + 1)%Z (r_start (fst b))); intros; try discriminate; lia.
Qed.
Lemma cells_length n : forall a, length (cells n a) = n.
Proof. induction n; intros a; cbn; auto. Qed.
Definition cell_ops n : list (op (range Z) Z) := map (fun e => OInsert (fst e) (snd e)) (cells n 0%Z).
Definition all_cells n : range Z := mkR 0%Z (2 * Z.of_nat n)%Z.
Lemma cells_wiped n : zrun (cell_ops (S n)) = cells (S n) 0%Z /\ rm_len (zrun (cell_ops (S n) ++ [ORemove (all_cells (S n))])) = 0.
Proof.
  set (m := cells (S n) 0%Z). set (r := all_cells (S n)). set (ops := cell_ops (S n)).
  assert (E : zrun ops = m) by (apply (insert_all_app Z_order m [] (cells_WF (S n) 0%Z))). split; [exact E|].
  destruct (zrun (ops ++ [ORemove r])) as [|e l] eqn:El; [reflexivity|exfalso].
    pose proof (run_WF Z_order Z_per (ops ++ [ORemove r])) as HW.
    assert (Hi : In e (zrun (ops ++ [ORemove r]))) by (rewrite El; left; reflexivity).
    pose proof (proj2 HW e Hi) as Hv.
    assert (Hl : lk (cmp := Z.compare) (zrun (ops ++ [ORemove r])) (r_start (fst e)) = Some (snd e)).
    { apply (lk_WF_In (veqb := Z.eqb) Z_order _ (fst e)); auto; [destruct e; exact Hi|].
      pose proof Z_order as HO. unfold r_contains. ord. }
    rewrite run_snoc in Hl. cbn [rm_exec] in Hl. rewrite E in Hl.
    assert (Hr : ltb Z.compare (r_start r) (r_end r) = true).
    { unfold ltb, r, all_cells. cbn [r_start r_end]. destruct (Z.compare_spec 0 (2 * Z.of_nat (S n))%Z); auto; lia. }
    destruct (remove_ok Z_order m r (cells_WF (S n) 0%Z) Hr) as (m' & H1 & _ & H2 & _).
    rewrite H1 in Hl. cbn [snd] in Hl. rewrite H2 in Hl.
    destruct (r_contains Z.compare r (r_start (fst e))) eqn:Ec; [discriminate|].
    apply lk_In in Hl as (q & Hq & Hc). apply cells_In in Hq. cbn [fst] in Hq.
    unfold r_contains, r, all_cells in *. cbn [r_start r_end] in *.
    unfold leb, ltb in Ec, Hc. revert Ec Hc.
    destruct (Z.compare_spec 0 (r_start (fst e))), (Z.compare_spec (r_start (fst e)) (2 * Z.of_nat (S n))%Z),
      (Z.compare_spec (r_start q) (r_start (fst e))), (Z.compare_spec (r_start (fst e)) (r_end q));
      cbn; intros; try discriminate; lia.
Qed.
Theorem C71_bounded_call_refuted : forall n, exists ops r, n < length (fst (zx (ORemove r) (zrun ops))).
Proof.
  intros n. exists (cell_ops (S n)), (all_cells (S n)). destruct (cells_wiped n) as [E Hn].
  pose proof (proj2 (@call_at_least Z Z Z.compare Z.eqb (cell_ops (S n)) (ORemove (all_cells (S n))) ltac:(discriminate))) as H.
  rewrite Hn, E in H. rewrite E. unfold rm_len in H. rewrite cells_length in H. lia.
Qed.

Section Incl.
  Context {K V : Type} {cmp : K -> K -> comparison} {veqb : V -> V -> bool} {st : stepfns K}.
  Context (HO : TotalOrd cmp) (HS : StepLaws cmp st) (HV : PartialEquiv veqb).

  Notation run := (im_run cmp veqb st).

  (** ** C72 *)
  Theorem C72_call_budget : forall ops o,
    length (fst (imx_exec cmp veqb st o (run ops))) + im_len (run (ops ++ [o])) <=
    im_len (run ops) + op_budget o.
  Proof. exact (icall_budget_any HO HS HV). Qed.
  Theorem C72_history_budget : forall ops,
    modifications (imx_exec cmp veqb st) ops im_new + im_len (run ops) <= history_budget ops.
  Proof. exact (itotal_budget_any HO HS HV). Qed.
  Theorem C72_at_least : forall ops o, o <> OClear ->
    im_len (run (ops ++ [o])) <= im_len (run ops) + length (fst (imx_exec cmp veqb st o (run ops))) /\
    im_len (run ops) <= im_len (run (ops ++ [o])) + length (fst (imx_exec cmp veqb st o (run ops))).
  Proof. exact icall_at_least. Qed.
End Incl.

Notation izrun := (im_run Z.compare Z.eqb zst).
Notation izx := (imx_exec Z.compare Z.eqb zst).
(** the same cells, through the agreement of the two kinds of map *)
Definition icell (r : range Z) : rangei Z := incl (r_start r) (r_end r - 1)%Z.
Definition icells n a : list (rangei Z * Z) := map (fun e => (icell (fst e), snd e)) (cells n a).
Definition icell_ops n : list (op (rangei Z) Z) := map (fun e => OInsert (fst e) (snd e)) (icells n 0%Z).
Lemma same_cell r : same_keys (fun x => x) r (icell r).
Proof. unfold same_keys, icell. cbn. repeat split; lia. Qed.
Lemma same_cells n : Forall2 (same_call (fun x => x)) (cell_ops n) (icell_ops n).
Proof.
  unfold cell_ops, icell_ops, icells. induction (cells n 0%Z) as [|e l IH]; cbn [map]; [constructor|].
  constructor; [|exact IH]. split; [apply same_cell|reflexivity].
Qed.
Lemma zst_up (a b : Z) : (a < b)%Z -> exists s, add_one zst a = Some s /\ s = (a + 1)%Z.
Proof. intros; eexists; split; reflexivity. Qed.
Lemma zst_down (a b : Z) : (b < a)%Z -> exists s, sub_one zst a = Some s /\ s = (a - 1)%Z.
Proof. intros; eexists; split; reflexivity. Qed.
Lemma icells_run n : izrun (icell_ops n) = icells n 0%Z.
Proof.
  pose proof (cross_entries (cmp := Z.compare) (fun x => x) (fun _ _ => eq_refl) zst_up zst_down Z_per _ _ (same_cells n)) as E.
  assert (R : zrun (cell_ops n) = cells n 0%Z) by (apply (insert_all_app Z_order (cells n 0%Z) [] (cells_WF n 0%Z))).
  unfold rm_iter, im_iter in E. rewrite R in E. unfold icells. clear R. revert E. generalize (izrun (icell_ops n)).
  induction (cells n 0%Z) as [|e l IH]; intros i E; inversion E as [|x y lx ly [(A & B & C) D] F]; subst; [reflexivity|].
  cbn [map]. f_equal; [|apply IH; exact F]. destruct y as [[s t x] v]. cbn in *. subst. unfold icell, incl.
  repeat f_equal. lia.
Qed.
Theorem C72_bounded_call_refuted : forall n, exists ops r, n < length (fst (izx (ORemove r) (izrun ops))).
Proof.
  intros n. exists (icell_ops (S n)), (icell (all_cells (S n))). destruct (cells_wiped n) as [_ Hn].
  assert (F : Forall2 (same_call (fun x => x)) (cell_ops (S n) ++ [ORemove (all_cells (S n))]) (icell_ops (S n) ++ [ORemove (icell (all_cells (S n)))])).
  { apply Forall2_app; [apply same_cells|]. constructor; [|constructor]. apply same_cell. }
  pose proof (proj2 (proj2 (x_first_last (cmp := Z.compare) (fun x => x) (fun _ _ => eq_refl) zst_up zst_down Z_per _ _ F))) as L. rewrite Hn in L.
  pose proof (proj2 (C72_at_least (cmp := Z.compare) (veqb := Z.eqb) (st := zst)
    (icell_ops (S n)) (ORemove (icell (all_cells (S n)))) ltac:(discriminate))) as H.
  rewrite <- L in H. unfold im_len in H at 1. rewrite icells_run in H at 1. unfold icells in H. rewrite map_length, cells_length in H. lia.
Qed.
Example C72_example :
  let m := izrun [OInsert (incl 0 9)%Z 1%Z] in
  izrun [OInsert (incl 0 9)%Z 1%Z; OInsert (incl 3 4)%Z 2%Z] =
    [(incl 0 2, 1); (incl 3 4, 2); (incl 5 9, 1)]%Z /\
  length (fst (izx (OInsert (incl 3 4)%Z 2%Z) m)) = 4 /\
  izrun [OInsert (incl 0 9)%Z 1%Z; ORemove (incl 3 4)%Z] = [(incl 0 2, 1); (incl 5 9, 1)]%Z /\
  length (fst (izx (ORemove (incl 3 4)%Z) m)) = 3 /\
  im_len m = 1 /\
  modifications izx iex_ops im_new = 13 /\ im_len (izrun iex_ops) = 5 /\ history_budget iex_ops = 52.
Proof. vm_compute. auto 12. Qed.

Print Assumptions C71_call_budget.
Print Assumptions C71_history_budget.
Print Assumptions C71_at_least.
Print Assumptions C71_bounded_call_refuted.
Print Assumptions C72_call_budget.
Print Assumptions C72_history_budget.
Print Assumptions C72_at_least.
Print Assumptions C72_bounded_call_refuted.
