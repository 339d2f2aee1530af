(** The exact entries after every update (C94 half-open, C95 inclusive).  Statements
    only; what is left by an update is written down in SpecExact.v, entry by entry and
    without a search tree. *)
From Coq Require Import List Bool Sorting.Permutation ZArith.
From Verif Require Import Order Outcome BTree Ranges History Spec SpecExact MapModel IMapModel SetModel ISetModel StepModel StepFacts
  ListLemmas MapProofs MapRemove MapFacts MapExact IExact MapProps IMapProps SetFacts SetProps ISetProps Instances.
Import ListNotations.
Local Open Scope Z_scope.

Section Props.
  Context {K V : Type} {cmp : K -> K -> comparison} {veqb : V -> V -> bool}.
  Context (HO : TotalOrd cmp) (HV : PartialEquiv veqb).

  Notation run := (rm_run cmp veqb).
  Notation valid := (valid_range cmp).

  (** ** C94: [RangeMap], [RangeSet] *)
  Theorem C94_insert : forall ops r v, valid r = true ->
    rm_insert cmp veqb r v (run ops) = (Ret tt, put_entries cmp veqb r v (run ops)).
  Proof. exact (fun ops r v H => insert_exact HO HV _ r v (run_WF HO HV ops) H). Qed.
  Theorem C94_remove : forall ops r, valid r = true ->
    rm_remove cmp r (run ops) = (Ret tt, del_entries cmp r (run ops)).
  Proof. exact (fun ops r H => remove_exact HO _ r (run_WF HO HV ops) H). Qed.
  (** the whole history in terms of lists of entries *)
  Theorem C94_history : forall ops,
    rm_iter (run ops) = entries_run valid (put_entries cmp veqb) (del_entries cmp) ops.
  Proof. exact (fun ops => run_from_exact HO HV ops [] WF_nil). Qed.
  (** a map is rebuilt from its entries, given in any order, to the same map *)
  Theorem C94_rebuild : forall ops l, Permutation l (rm_iter (run ops)) ->
    rm_from_iter cmp veqb l = Ret (run ops).
  Proof.
    intros ops l HP. unfold rm_from_iter, rm_extend, rm_new.
    rewrite (rebuild_from HO HV l [] (run ops) (run_WF HO HV ops) WF_nil HP). reflexivity.
  Qed.

  Notation srun := (rs_run cmp).
  Theorem C94_set_insert : forall ops r, valid r = true ->
    rs_insert cmp r (srun ops) = (Ret tt, put_entries cmp unit_eqb r tt (srun ops)).
  Proof. exact (fun ops r H => insert_exact HO unit_per _ r tt (srun_WF HO ops) H). Qed.
  Theorem C94_set_remove : forall ops r, valid r = true ->
    rs_remove cmp r (srun ops) = (Ret tt, del_entries cmp r (srun ops)).
  Proof. exact (fun ops r H => remove_exact HO _ r (srun_WF HO ops) H). Qed.

  (** ** C95: [RangeInclusiveMap], [RangeInclusiveSet]; exhausted ranges included *)
  Context {st : stepfns K} (HS : StepLaws cmp st).
  Notation irun := (im_run cmp veqb st).
  Notation ivalid := (valid_rangei cmp).
  Theorem C95_insert : forall ops r v, ivalid r = true ->
    im_insert cmp veqb st r v (irun ops) = (Ret tt, puti_entries cmp veqb st r v (irun ops)).
  Proof. exact (exact_iinsert HO HS HV). Qed.
  Theorem C95_remove : forall ops r, ivalid r = true ->
    im_remove cmp st r (irun ops) = (Ret tt, deli_entries cmp st r (irun ops)).
  Proof. exact (exact_iremove HO HS HV). Qed.
  Theorem C95_history : forall ops,
    im_iter (irun ops) = entries_run ivalid (puti_entries cmp veqb st) (deli_entries cmp st) ops.
  Proof. exact (exact_irun HO HS HV). Qed.
  Theorem C95_rebuild : forall ops l, Permutation l (im_iter (irun ops)) ->
    im_from_iter cmp veqb st l = Ret (irun ops).
  Proof. exact (exact_irebuild HO HS HV). Qed.
  Notation isrun := (is_run cmp st).
  Theorem C95_set_insert : forall ops r, ivalid r = true ->
    is_insert cmp st r (isrun ops) = (Ret tt, puti_entries cmp unit_eqb st r tt (isrun ops)).
  Proof. intros ops r. rewrite irun_to_ops. exact (exact_iinsert HO HS unit_per (to_ops ops) r tt). Qed.
  Theorem C95_set_remove : forall ops r, ivalid r = true ->
    is_remove cmp st r (isrun ops) = (Ret tt, deli_entries cmp st r (isrun ops)).
  Proof. intros ops r. rewrite irun_to_ops. exact (exact_iremove HO HS unit_per (to_ops ops) r). Qed.
End Props.

(** ** Examples *)
Notation zrun := (rm_run Z.compare Z.eqb).
Example C94_example :
  zrun ex_ops = [(mkR 0 4, 1); (mkR 4 6, 2); (mkR 6 8, 1); (mkR 12 20, 2); (mkR 40 60, 3)] /\
  (* cuts an entry at each end, swallows two, touches none *)
  put_entries Z.compare Z.eqb (mkR 2 14) 9 (zrun ex_ops) =
    [(mkR 0 2, 1); (mkR 2 14, 9); (mkR 14 20, 2); (mkR 40 60, 3)] /\
  snd (rm_insert Z.compare Z.eqb (mkR 2 14) 9 (zrun ex_ops)) = put_entries Z.compare Z.eqb (mkR 2 14) 9 (zrun ex_ops) /\
  (* joins the entries at both ends *)
  put_entries Z.compare Z.eqb (mkR 6 12) 2 (zrun ex_ops) = [(mkR 0 4, 1); (mkR 4 20, 2); (mkR 40 60, 3)] /\
  snd (rm_insert Z.compare Z.eqb (mkR 6 12) 2 (zrun ex_ops)) = put_entries Z.compare Z.eqb (mkR 6 12) 2 (zrun ex_ops) /\
  (* splits an entry *)
  del_entries Z.compare (mkR 45 50) (zrun ex_ops) =
    [(mkR 0 4, 1); (mkR 4 6, 2); (mkR 6 8, 1); (mkR 12 20, 2); (mkR 40 45, 3); (mkR 50 60, 3)] /\
  snd (rm_remove Z.compare (mkR 45 50) (zrun ex_ops)) = del_entries Z.compare (mkR 45 50) (zrun ex_ops) /\
  rm_from_iter Z.compare Z.eqb [(mkR 12 20, 2); (mkR 6 8, 1); (mkR 40 60, 3); (mkR 4 6, 2); (mkR 0 4, 1)] = Ret (zrun ex_ops).
Proof. vm_compute. repeat split. Qed.
(** the ranges of a set are its entries with the value [()] *)
Example C94_set_example :
  rs_run Z.compare [SInsert (mkR 0 3); SInsert (mkR 5 7)] = [(mkR 0 3, tt); (mkR 5 7, tt)] /\
  put_entries Z.compare unit_eqb (mkR 3 5) tt [(mkR 0 3, tt); (mkR 5 7, tt)] = [(mkR 0 7, tt)] /\
  del_entries Z.compare (mkR 2 6) [(mkR 0 3, tt); (mkR 5 7, tt)] = [(mkR 0 2, tt); (mkR 6 7, tt)].
Proof. vm_compute. auto. Qed.
Example C95_example :
  fresh_ops iex_ops /\ im_run Z.compare Z.eqb zst iex_ops =
    [(incl 0 3, 1); (incl 4 5, 2); (incl 6 7, 1); (incl 12 19, 2); (incl 40 59, 3)] /\
  puti_entries Z.compare Z.eqb zst (incl 2 13) 9 (im_run Z.compare Z.eqb zst iex_ops) =
    [(incl 0 1, 1); (incl 2 13, 9); (incl 14 19, 2); (incl 40 59, 3)] /\
  puti_entries Z.compare Z.eqb zst (incl 6 11) 2 (im_run Z.compare Z.eqb zst iex_ops) =
    [(incl 0 3, 1); (incl 4 19, 2); (incl 40 59, 3)] /\
  deli_entries Z.compare zst (incl 45 49) (im_run Z.compare Z.eqb zst iex_ops) =
    [(incl 0 3, 1); (incl 4 5, 2); (incl 6 7, 1); (incl 12 19, 2); (incl 40 44, 3); (incl 50 59, 3)] /\
  im_from_iter Z.compare Z.eqb zst [(incl 12 19, 2); (incl 6 7, 1); (incl 40 59, 3); (incl 4 5, 2); (incl 0 3, 1)] =
    Ret (im_run Z.compare Z.eqb zst iex_ops).
Proof. vm_compute. repeat split. Qed.
(** flags: an entry joined with nothing keeps the range it was given, flag included; a
    joined entry and the parts of a cut one are new ranges *)
Example C95_example_exhausted :
  im_run Z.compare Z.eqb zst [OInsert (mkRI 0 9 true) 1; OInsert (mkRI 20 29 true) 2; OInsert (mkRI 40 44 true) 3; ORemove (incl 24 25)]
    = [(mkRI 0 9 true, 1); (incl 20 23, 2); (incl 26 29, 2); (mkRI 40 44 true, 3)] /\
  puti_entries Z.compare Z.eqb zst (mkRI 30 39 true) 3
      [(mkRI 0 9 true, 1); (incl 20 23, 2); (incl 26 29, 2); (mkRI 40 44 true, 3)] =
    [(mkRI 0 9 true, 1); (incl 20 23, 2); (incl 26 29, 2); (incl 30 44, 3)] /\
  puti_entries Z.compare Z.eqb zst (mkRI 12 19 true) 9 [(mkRI 0 9 true, 1); (incl 20 23, 2)] =
    [(mkRI 0 9 true, 1); (mkRI 12 19 true, 9); (incl 20 23, 2)].
Proof. vm_compute. repeat split. Qed.
(** keys that compare equal but differ: the objects kept are those the specification names *)
Definition ex_second (a b : Z * Z) : comparison := Z.compare (fst a) (fst b).
Definition ex_second_st : stepfns (Z * Z) := mkStep (fun k => Some (fst k + 1, 0)) (fun k => Some (fst k - 1, 0)).
Example C95_example_objects :
  im_run ex_second Z.eqb ex_second_st [OInsert (incl (0, 1) (5, 2)) 7; OInsert (incl (3, 3) (5, 4)) 7] =
    [(incl (0, 1) (5, 2), 7)] /\
  im_run ex_second Z.eqb ex_second_st [OInsert (incl (0, 1) (5, 2)) 7; OInsert (incl (0, 3) (9, 4)) 7] =
    [(incl (0, 3) (9, 4), 7)].
Proof. vm_compute. repeat split. Qed.

Print Assumptions C94_insert.
Print Assumptions C94_remove.
Print Assumptions C94_history.
Print Assumptions C94_rebuild.
Print Assumptions C94_set_insert.
Print Assumptions C94_set_remove.
Print Assumptions C95_insert.
Print Assumptions C95_remove.
Print Assumptions C95_history.
Print Assumptions C95_rebuild.
Print Assumptions C95_set_insert.
Print Assumptions C95_set_remove.
