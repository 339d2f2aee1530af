(** Interrupted updates of sets (C105, C106): what is left of a set when user
    code panics in the middle of a call.  [crash_states (rsx_exec cmp o) s] are
    the sets that can be left behind (CrashSetModel.v); [rsx_run xs] is the set
    reached by a history [xs] in which calls may be interrupted. *)
From Coq Require Import List Bool Sorting.Sorted ZArith.
From Verif Require Import Order Outcome BTree Ranges History Spec MapModel IMapModel SetModel ISetModel StepModel StepFacts
  IMapProps SetProps ISetProps ISetAny CrashModel CrashSetModel CrashSet Instances.
Import ListNotations.

Section Half.
  Context {K : Type} {cmp : K -> K -> comparison} (HO : TotalOrd cmp).
  Notation run := (rs_run cmp).
  Notation mem := (mem_run (valid_range cmp) (in_range cmp)).
  Notation ranges s := (map fst (rs_iter s)).
  Notation states o s := (crash_states (rsx_exec cmp o) s).

  (** ** C105 *)
  (** what the record is: it ends with the set after the call, starts with the set
      before it, and changes by one range at a time *)
  Theorem C105_record_faithful : forall o s,
    snd (rsx_exec cmp o s) = rs_exec cmp o s /\ last (states o s) s = snd (rs_exec cmp o s).
  Proof. exact srecord_faithful. Qed.
  Theorem C105_record_complete : forall o s, o <> SClear ->
    hd_error (states o s) = Some s /\ stepwise one_change (states o s).
  Proof. exact srecord_complete. Qed.
  (** whatever is interrupted, however often: some history of completed calls
      reaches the set, so it is stored as the maximal runs of its members *)
  Theorem C105_interrupted_reachable : forall xs, exists ops, rsx_run cmp xs = run ops.
  Proof. exact (sxrun_reachable HO). Qed.
  Theorem C105_interrupted_runs : forall xs, exists ops,
    (forall k, rs_contains cmp (rsx_run cmp xs) k = Ret (mem ops k)) /\
    runs_of cmp (mem ops) (ranges (rsx_run cmp xs)).
  Proof.
    intros xs. destruct (sxrun_reachable HO xs) as (ops & ->). exists ops.
    split; [exact (srun_contains HO ops)|exact (srun_runs HO ops)].
  Qed.
  (** an interrupted [insert] is complete or has only lost keys; a stored range
      that it does not touch is still there *)
  Theorem C105_insert_interrupted : forall ops r x, In x (states (SInsert r) (run ops)) ->
    (x = run (ops ++ [SInsert r]) \/
     forall k, rs_contains cmp x k = Ret false \/ rs_contains cmp x k = Ret true /\ mem ops k = true) /\
    (forall q, In q (ranges (run ops)) ->
       ltb cmp (r_end q) (r_start r) = true \/ ltb cmp (r_end r) (r_start q) = true -> In q (ranges x)).
  Proof. exact (sinsert_interrupted HO). Qed.
  (** an interrupted [remove] has only lost keys, and no range that it does not overlap *)
  Theorem C105_remove_interrupted : forall ops r x, In x (states (SRemove r) (run ops)) ->
    (forall k, rs_contains cmp x k = Ret false \/ rs_contains cmp x k = Ret true /\ mem ops k = true) /\
    (forall q, In q (ranges (run ops)) ->
       leb cmp (r_end q) (r_start r) = true \/ leb cmp (r_end r) (r_start q) = true -> In q (ranges x)).
  Proof. exact (sremove_interrupted HO). Qed.
  (** an interrupted [extend] stands at one of the states of inserting one of its items *)
  Theorem C105_extend_interrupted : forall ops l x, In x (states (SExtend l) (run ops)) ->
    x = run ops \/ exists l1 r l2, l = l1 ++ r :: l2 /\
      fst (rs_exec cmp (SExtend l1) (run ops)) = Ret tt /\
      In x (states (SInsert r) (run (ops ++ [SExtend l1]))).
  Proof. exact sextend_interrupted. Qed.
End Half.

Section Incl.
  Context {K : Type} {cmp : K -> K -> comparison} {st : stepfns K}.
  Context (HO : TotalOrd cmp) (HS : StepLaws cmp st).
  Notation run := (is_run cmp st).
  Notation mem := (mem_run (valid_rangei cmp) (in_rangei cmp)).
  Notation ranges s := (map fst (is_iter s)).
  Notation states o s := (crash_states (isx_exec cmp st o) s).

  (** ** C106: the same, exhausted ranges included *)
  Theorem C106_record_faithful : forall o s,
    snd (isx_exec cmp st o s) = is_exec cmp st o s /\ last (states o s) s = snd (is_exec cmp st o s).
  Proof. exact isrecord_faithful. Qed.
  Theorem C106_record_complete : forall o s, o <> SClear ->
    hd_error (states o s) = Some s /\ stepwise one_change (states o s).
  Proof. exact isrecord_complete. Qed.
  Theorem C106_interrupted_reachable : forall xs, exists ops, isx_run cmp st xs = run ops.
  Proof. exact (isxrun_reachable HO HS). Qed.
  Theorem C106_interrupted_covers : forall xs, exists ops, forall k,
    (exists q, In q (ranges (isx_run cmp st xs)) /\ in_rangei cmp q k = true) <-> mem ops k = true.
  Proof. intros xs. destruct (isxrun_reachable HO HS xs) as (ops & ->). exists ops. exact (runs_covered HO HS ops). Qed.
  Theorem C106_insert_interrupted : forall ops r x, In x (states (SInsert r) (run ops)) ->
    (x = run (ops ++ [SInsert r]) \/
     forall q k, In q (ranges x) -> in_rangei cmp q k = true -> mem ops k = true) /\
    (forall q, In q (ranges (run ops)) ->
       (exists k, ltb cmp (ri_end q) k = true /\ ltb cmp k (ri_start r) = true) \/
       (exists k, ltb cmp (ri_end r) k = true /\ ltb cmp k (ri_start q) = true) -> In q (ranges x)).
  Proof. exact (isinsert_interrupted HO HS). Qed.
  Theorem C106_remove_interrupted : forall ops r x, In x (states (SRemove r) (run ops)) ->
    (forall q k, In q (ranges x) -> in_rangei cmp q k = true -> mem ops k = true) /\
    (forall q, In q (ranges (run ops)) ->
       ltb cmp (ri_end q) (ri_start r) = true \/ ltb cmp (ri_end r) (ri_start q) = true -> In q (ranges x)).
  Proof. exact (isremove_interrupted HO HS). Qed.
  Theorem C106_extend_interrupted : forall ops l x, In x (states (SExtend l) (run ops)) ->
    x = run ops \/ exists l1 r l2, l = l1 ++ r :: l2 /\
      fst (is_exec cmp st (SExtend l1) (run ops)) = Ret tt /\
      In x (states (SInsert r) (run (ops ++ [SExtend l1]))).
  Proof. exact isextend_interrupted. Qed.
End Incl.

(** ** Examples *)
Local Open Scope Z_scope.
Definition cs_ops : list (sop (range Z)) := [SInsert (mkR 0 4); SInsert (mkR 6 9); SInsert (mkR 20 30)].
Notation zs := (rsx_exec Z.compare).
(** an insert that joins two ranges; a remove that splits one; an extend *)
Example C105_example :
  TotalOrd Z.compare /\
  map (map fst) (crash_states (zs (SInsert (mkR 4 7))) (rs_run Z.compare cs_ops)) =
    [[mkR 0 4; mkR 6 9; mkR 20 30]; [mkR 6 9; mkR 20 30]; [mkR 20 30]; [mkR 0 9; mkR 20 30]] /\
  map (map fst) (crash_states (zs (SRemove (mkR 22 24))) (rs_run Z.compare cs_ops)) =
    [[mkR 0 4; mkR 6 9; mkR 20 30]; [mkR 0 4; mkR 6 9]; [mkR 0 4; mkR 6 9; mkR 20 22];
     [mkR 0 4; mkR 6 9; mkR 20 22; mkR 24 30]] /\
  map (map fst) (crash_states (zs (SExtend [mkR 9 10; mkR 5 5; mkR 40 50])) (rs_run Z.compare cs_ops)) =
    [[mkR 0 4; mkR 6 9; mkR 20 30]; [mkR 0 4; mkR 20 30]; [mkR 0 4; mkR 6 10; mkR 20 30]] /\
  map fst (rsx_run Z.compare (map XSDone cs_ops ++ [XSCrash (SInsert (mkR 4 7)) 1; XSCrash (SRemove (mkR 22 24)) 2; XSDone (SInsert (mkR 22 23))])) =
    [mkR 6 9; mkR 20 23].
Proof. split; [exact Z_order|]. vm_compute. auto. Qed.
(** "an interrupted insert does not lose keys" is false *)
Theorem C105_no_loss_refuted : exists ops r x k,
  In x (crash_states (zs (SInsert r)) (rs_run Z.compare ops)) /\
  rs_contains Z.compare (rs_run Z.compare ops) k = Ret true /\ rs_contains Z.compare x k = Ret false.
Proof. exists cs_ops, (mkR 4 7), [(mkR 20 30, tt)], 0. vm_compute. auto 10. Qed.

Definition cis_ops : list (sop (rangei Z)) := [SInsert (mkRI 0 4 true); SInsert (incl 6 9); SInsert (mkRI 20 30 true)].
Notation izs := (isx_exec Z.compare zst).
Example C106_example :
  TotalOrd Z.compare /\ StepLaws Z.compare zst /\
  map (map fst) (crash_states (izs (SInsert (incl 5 7))) (is_run Z.compare zst cis_ops)) =
    [[mkRI 0 4 true; incl 6 9; mkRI 20 30 true]; [incl 6 9; mkRI 20 30 true]; [mkRI 20 30 true];
     [incl 0 9; mkRI 20 30 true]] /\
  map (map fst) (crash_states (izs (SRemove (incl 22 24))) (is_run Z.compare zst cis_ops)) =
    [[mkRI 0 4 true; incl 6 9; mkRI 20 30 true]; [mkRI 0 4 true; incl 6 9]; [mkRI 0 4 true; incl 6 9; incl 20 21];
     [mkRI 0 4 true; incl 6 9; incl 20 21; incl 25 30]] /\
  map (map fst) (crash_states (izs (SExtend [incl 10 10; incl 6 5; incl 40 50])) (is_run Z.compare zst cis_ops)) =
    [[mkRI 0 4 true; incl 6 9; mkRI 20 30 true]; [mkRI 0 4 true; mkRI 20 30 true]; [mkRI 0 4 true; incl 6 10; mkRI 20 30 true]] /\
  map fst (isx_run Z.compare zst (map XSDone cis_ops ++ [XSCrash (SInsert (incl 5 7)) 1; XSCrash (SRemove (incl 22 24)) 2])) =
    [incl 6 9; incl 20 21].
Proof. split; [exact Z_order|]. split; [exact zst_laws|]. vm_compute. auto. Qed.
Theorem C106_no_loss_refuted : exists ops r x k,
  In x (crash_states (izs (SInsert r)) (is_run Z.compare zst ops)) /\
  is_contains Z.compare (is_run Z.compare zst ops) k = Ret true /\ is_contains Z.compare x k = Ret false.
Proof. exists cis_ops, (incl 5 7), [(mkRI 20 30 true, tt)], 0. vm_compute. auto 10. Qed.

Print Assumptions C105_record_faithful.
Print Assumptions C105_record_complete.
Print Assumptions C105_interrupted_reachable.
Print Assumptions C105_interrupted_runs.
Print Assumptions C105_insert_interrupted.
Print Assumptions C105_remove_interrupted.
Print Assumptions C105_extend_interrupted.
Print Assumptions C105_no_loss_refuted.
Print Assumptions C106_record_faithful.
Print Assumptions C106_record_complete.
Print Assumptions C106_interrupted_reachable.
Print Assumptions C106_interrupted_covers.
Print Assumptions C106_insert_interrupted.
Print Assumptions C106_remove_interrupted.
Print Assumptions C106_extend_interrupted.
Print Assumptions C106_no_loss_refuted.
