(** Interrupted updates (C62, C63): what is left when user code panics in the
    middle of a call.  [crash_states (rmx_exec cmp veqb o) m] are the maps that
    can be left behind (CrashModel.v); [rmx_run xs] is the map reached by a
    history [xs] in which calls may be interrupted. *)
From Coq Require Import List Bool Sorting.Sorted ZArith.
From Verif Require Import Order Outcome BTree Ranges History Spec MapModel IMapModel StepModel StepFacts
  MapFacts MapProps IMapProps CrashModel CrashFacts CrashProps Exhausted ExhaustedCrash
  CrashAny CrashSet Instances.
Import ListNotations.
Local Open Scope Z_scope.

Section Half.
  Context {K V : Type} {cmp : K -> K -> comparison} {veqb : V -> V -> bool}.
  Context (HO : TotalOrd cmp) (HV : PartialEquiv veqb).

  Notation run := (rm_run cmp veqb).
  Notation st e := (r_start (fst e)).
  Notation en e := (r_end (fst e)).

  (** ** C62 *)
  (** recording the intermediate maps changes neither outcome nor final map,
      and the last recorded map is the final one *)
  Theorem C62_record_faithful : forall o m,
    snd (rmx_exec cmp veqb o m) = rm_exec cmp veqb o m /\
    last (crash_states (rmx_exec cmp veqb o) m) m = snd (rm_exec cmp veqb o m).
  Proof. exact (record_faithful cmp veqb). Qed.
  (** no intermediate map is left out: the first one is the map before the call,
      and from one to the next at most one entry changes ([clear] aside) *)
  Theorem C62_record_complete : forall o m, o <> OClear ->
    hd_error (crash_states (rmx_exec cmp veqb o) m) = Some m /\
    stepwise one_change (crash_states (rmx_exec cmp veqb o) m).
  Proof. exact (fun o m H => conj eq_refl (exec_stepwise cmp veqb o m H)). Qed.
  (** whatever is interrupted, however often: the map is one that some history
      of completed calls reaches, so everything proved about those applies *)
  Theorem C62_interrupted_reachable : forall xs, exists ops, rmx_run cmp veqb xs = run ops.
  Proof. exact (xrun_reachable HO HV). Qed.
  Theorem C62_interrupted_valid : forall xs,
    ascending cmp (rm_iter (rmx_run cmp veqb xs)) /\
    (forall r v, In (r, v) (rm_iter (rmx_run cmp veqb xs)) -> valid_range cmp r = true) /\
    coalesced cmp veqb (rm_iter (rmx_run cmp veqb xs)).
  Proof. exact (xrun_valid HO HV). Qed.
  (** an interrupted [insert] is complete or has only lost keys; and every stored
      entry that it neither overlaps nor coalesces with is still there *)
  Theorem C62_insert_interrupted : forall ops r v x,
    In x (crash_states (rmx_exec cmp veqb (OInsert r v)) (run ops)) ->
    (x = run (ops ++ [OInsert r v]) \/
     (forall k, rm_get cmp x k = rm_get cmp (run ops) k \/ rm_get cmp x k = Ret None)) /\
    (forall e, In e (run ops) ->
       leb cmp (en e) (r_start r) = true /\ (eqb cmp (en e) (r_start r) = true -> veqb (snd e) v = false) \/
       leb cmp (r_end r) (st e) = true /\ (eqb cmp (r_end r) (st e) = true -> veqb (snd e) v = false) ->
       In e x).
  Proof. exact (fun ops r v x H => proj2 (insert_crash HO HV ops r v x H)). Qed.
  (** the same for [remove], with overlapping in place of touching *)
  Theorem C62_remove_interrupted : forall ops r x,
    In x (crash_states (rmx_exec cmp veqb (ORemove r)) (run ops)) ->
    (forall k, rm_get cmp x k = rm_get cmp (run ops) k \/ rm_get cmp x k = Ret None) /\
    (forall e, In e (run ops) ->
       leb cmp (en e) (r_start r) = true \/ leb cmp (r_end r) (st e) = true -> In e x).
  Proof. exact (fun ops r x H => proj2 (remove_crash' HO HV ops r x H)). Qed.
  (** an interrupted [extend] stands at one of the states of inserting one of its
      items, everything before it having been inserted *)
  Theorem C62_extend_interrupted : forall ops l x,
    In x (crash_states (rmx_exec cmp veqb (OExtend l)) (run ops)) ->
    x = run ops \/ exists l1 e l2, l = l1 ++ e :: l2 /\
      fst (rm_exec cmp veqb (OExtend l1) (run ops)) = Ret tt /\
      In x (crash_states (rmx_exec cmp veqb (OInsert (fst e) (snd e))) (run (ops ++ [OExtend l1]))).
  Proof. exact (@extend_interrupted K V cmp veqb). Qed.
End Half.

Notation zrun := (rm_run Z.compare Z.eqb).
Notation zx := (rmx_exec Z.compare Z.eqb).
(** all states of an insert that cuts one entry, swallows one and adopts one *)
Example C62_example :
  zrun ex_ops = [(mkR 0 4, 1); (mkR 4 6, 2); (mkR 6 8, 1); (mkR 12 20, 2); (mkR 40 60, 3)] /\
  crash_states (zx (OInsert (mkR 5 12) 2)) (zrun ex_ops) =
  [[(mkR 0 4, 1); (mkR 4 6, 2); (mkR 6 8, 1); (mkR 12 20, 2); (mkR 40 60, 3)];
   [(mkR 0 4, 1); (mkR 6 8, 1); (mkR 12 20, 2); (mkR 40 60, 3)];
   [(mkR 0 4, 1); (mkR 12 20, 2); (mkR 40 60, 3)];
   [(mkR 0 4, 1); (mkR 40 60, 3)];
   [(mkR 0 4, 1); (mkR 4 20, 2); (mkR 40 60, 3)]] /\
  rmx_run Z.compare Z.eqb
    (map XDone ex_ops ++ [XCrash (OInsert (mkR 5 12) 2) 3; XCrash (ORemove (mkR 45 50)) 2; XDone (OInsert (mkR 4 9) 1)]) =
  [(mkR 0 9, 1); (mkR 40 45, 3)].
Proof. vm_compute. auto. Qed.

(** an [extend] whose third item is rejected: interrupted at the second, or left
    by the assertion *)
Example C62_extend_example :
  let l := [(mkR 0 4, 1); (mkR 2 6, 2); (mkR 9 9, 3); (mkR 20 30, 3)] in
  crash_states (zx (OExtend l)) [] =
    [[]; [(mkR 0 4, 1)]; []; [(mkR 0 2, 1)]; [(mkR 0 2, 1); (mkR 2 6, 2)]] /\
  l = [(mkR 0 4, 1)] ++ (mkR 2 6, 2) :: [(mkR 9 9, 3); (mkR 20 30, 3)] /\
  fst (rm_exec Z.compare Z.eqb (OExtend [(mkR 0 4, 1)]) []) = Ret tt /\
  In [(mkR 0 2, 1)] (crash_states (zx (OInsert (mkR 2 6) 2)) (zrun [OExtend [(mkR 0 4, 1)]])).
Proof. vm_compute. auto 10. Qed.

(** "a panicking update only affects keys in its own range" is false *)
Theorem C62_only_own_range_refuted : exists ops r v x x' k k',
  in_range Z.compare r k = false /\ in_range Z.compare r k' = false /\
  In x (crash_states (zx (OInsert r v)) (zrun ops)) /\
  rm_get Z.compare (zrun ops) k = Ret (Some 2) /\ rm_get Z.compare x k = Ret None /\
  In x' (crash_states (zx (ORemove r)) (zrun ops)) /\
  rm_get Z.compare (zrun ops) k' = Ret (Some 2) /\ rm_get Z.compare x' k' = Ret None.
Proof.
  exists ex_ops, (mkR 5 12), 2, [(mkR 0 4, 1); (mkR 40 60, 3)],
    [(mkR 0 4, 1); (mkR 6 8, 1); (mkR 12 20, 2); (mkR 40 60, 3)], 15, 4.
  vm_compute. intuition.
Qed.

Section Incl.
  Context {K V : Type} {cmp : K -> K -> comparison} {veqb : V -> V -> bool} {st : stepfns K}.
  Context (HO : TotalOrd cmp) (HS : StepLaws cmp st) (HV : PartialEquiv veqb).

  Notation run := (im_run cmp veqb st).
  Notation s0 e := (ri_start (fst e)).
  Notation e0 e := (ri_end (fst e)).

  (** ** C63 *)
  Theorem C63_record_faithful : forall o m,
    snd (imx_exec cmp veqb st o m) = im_exec cmp veqb st o m /\
    last (crash_states (imx_exec cmp veqb st o) m) m = snd (im_exec cmp veqb st o m).
  Proof. exact (irecord_faithful cmp veqb st). Qed.
  Theorem C63_record_complete : forall o m, o <> OClear ->
    hd_error (crash_states (imx_exec cmp veqb st o) m) = Some m /\
    stepwise one_change (crash_states (imx_exec cmp veqb st o) m).
  Proof. exact (fun o m H => conj eq_refl (iexec_stepwise cmp veqb st o m H)). Qed.
  Theorem C63_interrupted_reachable : forall xs, fresh_ops (map xop_of xs) ->
    exists ops, fresh_ops ops /\ imx_run cmp veqb st xs = run ops.
  Proof. exact (ixrun_reachable HO HS HV). Qed.
  Theorem C63_interrupted_valid : forall xs, fresh_ops (map xop_of xs) ->
    ascendingi cmp (im_iter (imx_run cmp veqb st xs)) /\
    (forall r v, In (r, v) (im_iter (imx_run cmp veqb st xs)) ->
       valid_rangei cmp r = true /\ ri_exhausted r = false) /\
    coalescedi cmp veqb (im_iter (imx_run cmp veqb st xs)).
  Proof. exact (ixrun_valid HO HS HV). Qed.
  (** also if exhausted ranges are inserted *)
  Theorem C63_interrupted_valid_exhausted : forall xs,
    ascendingi cmp (im_iter (imx_run cmp veqb st xs)) /\
    (forall r v, In (r, v) (im_iter (imx_run cmp veqb st xs)) -> valid_rangei cmp r = true) /\
    coalescedi cmp veqb (im_iter (imx_run cmp veqb st xs)).
  Proof. exact (ixrun_valid_any HO HS HV). Qed.
  (** C38: whether ranges are exhausted makes no difference to the maps a call
      goes through, other than the flags themselves *)
  Theorem C38_interrupted_ignores_flag : forall xs o,
    imx_run cmp veqb st (map freshen_xop xs) = map freshen_entry (imx_run cmp veqb st xs) /\
    crash_states (imx_exec cmp veqb st (freshen_op o)) (imx_run cmp veqb st (map freshen_xop xs)) =
    map (map freshen_entry) (crash_states (imx_exec cmp veqb st o) (imx_run cmp veqb st xs)).
  Proof. exact (fun xs o => conj (cx_run xs) (eq_trans (f_equal _ (cx_run xs)) (cx_states o _))). Qed.
  Theorem C63_interrupted_reachable_exhausted : forall xs, exists ops, imx_run cmp veqb st xs = run ops.
  Proof. exact (ixrun_reachable_any HO HS HV). Qed.
  Theorem C63_insert_interrupted : forall ops r v x, fresh_ops ops -> ri_exhausted r = false ->
    In x (crash_states (imx_exec cmp veqb st (OInsert r v)) (run ops)) ->
    (x = run (ops ++ [OInsert r v]) \/
     (forall k, im_get cmp x k = im_get cmp (run ops) k \/ im_get cmp x k = Ret None)) /\
    (forall e, In e (run ops) ->
       (ltb cmp (e0 e) (ri_start r) = true /\
          (veqb (snd e) v = false \/
           exists k, ltb cmp (e0 e) k = true /\ ltb cmp k (ri_start r) = true)) \/
       (ltb cmp (ri_end r) (s0 e) = true /\
          (veqb (snd e) v = false \/
           exists k, ltb cmp (ri_end r) k = true /\ ltb cmp k (s0 e) = true)) ->
       In e x).
  Proof. exact (fun ops r v x H1 H2 H => proj2 (iinsert_crash HO HS HV ops r v x H1 H2 H)). Qed.
  Theorem C63_remove_interrupted : forall ops r x, fresh_ops ops ->
    In x (crash_states (imx_exec cmp veqb st (ORemove r)) (run ops)) ->
    (forall k, im_get cmp x k = im_get cmp (run ops) k \/ im_get cmp x k = Ret None) /\
    (forall e, In e (run ops) ->
       ltb cmp (e0 e) (ri_start r) = true \/ ltb cmp (ri_end r) (s0 e) = true -> In e x).
  Proof. exact (fun ops r x H1 H => proj2 (iremove_crash HO HS HV ops r x H1 H)). Qed.
  (** exhausted ranges: the same by the bounds of the stored ranges (a lookup of
      the last key of an exhausted entry may find it once the entry is cut) *)
  Theorem C63_insert_interrupted_exhausted : forall ops r v x,
    In x (crash_states (imx_exec cmp veqb st (OInsert r v)) (run ops)) ->
    (x = run (ops ++ [OInsert r v]) \/
     (forall e k, In e x -> in_rangei cmp (fst e) k = true ->
        exists e', In e' (run ops) /\ in_rangei cmp (fst e') k = true /\ snd e' = snd e)) /\
    (forall e, In e (run ops) ->
       (ltb cmp (e0 e) (ri_start r) = true /\
          (veqb (snd e) v = false \/
           exists k, ltb cmp (e0 e) k = true /\ ltb cmp k (ri_start r) = true)) \/
       (ltb cmp (ri_end r) (s0 e) = true /\
          (veqb (snd e) v = false \/
           exists k, ltb cmp (ri_end r) k = true /\ ltb cmp k (s0 e) = true)) ->
       In e x).
  Proof. exact (iinsert_interrupted_any HO HS HV). Qed.
  Theorem C63_remove_interrupted_exhausted : forall ops r x,
    In x (crash_states (imx_exec cmp veqb st (ORemove r)) (run ops)) ->
    (forall e k, In e x -> in_rangei cmp (fst e) k = true ->
       exists e', In e' (run ops) /\ in_rangei cmp (fst e') k = true /\ snd e' = snd e) /\
    (forall e, In e (run ops) ->
       ltb cmp (e0 e) (ri_start r) = true \/ ltb cmp (ri_end r) (s0 e) = true -> In e x).
  Proof. exact (iremove_interrupted_any HO HS HV). Qed.
  Theorem C63_extend_interrupted : forall ops l x,
    In x (crash_states (imx_exec cmp veqb st (OExtend l)) (run ops)) ->
    x = run ops \/ exists l1 e l2, l = l1 ++ e :: l2 /\
      fst (im_exec cmp veqb st (OExtend l1) (run ops)) = Ret tt /\
      In x (crash_states (imx_exec cmp veqb st (OInsert (fst e) (snd e))) (run (ops ++ [OExtend l1]))).
  Proof. exact (@iextend_interrupted K V cmp veqb st). Qed.
End Incl.

Notation izrun := (im_run Z.compare Z.eqb zst).
Notation izx := (imx_exec Z.compare Z.eqb zst).
Example C63_example :
  TotalOrd Z.compare /\ StepLaws Z.compare zst /\ PartialEquiv Z.eqb /\ fresh_ops iex_ops /\
  crash_states (izx (OInsert (incl 5 11) 2)) (izrun iex_ops) =
  [[(incl 0 3, 1); (incl 4 5, 2); (incl 6 7, 1); (incl 12 19, 2); (incl 40 59, 3)];
   [(incl 0 3, 1); (incl 6 7, 1); (incl 12 19, 2); (incl 40 59, 3)];
   [(incl 0 3, 1); (incl 12 19, 2); (incl 40 59, 3)];
   [(incl 0 3, 1); (incl 40 59, 3)];
   [(incl 0 3, 1); (incl 4 19, 2); (incl 40 59, 3)]] /\
  imx_run Z.compare Z.eqb zst
    (map XDone iex_ops ++ [XCrash (OInsert (incl 5 11) 2) 3; XCrash (ORemove (incl 45 49)) 2; XDone (OInsert (incl 4 8) 1)]) =
  [(incl 0 8, 1); (incl 40 44, 3)].
Proof.
  split; [exact Z_order|]. split; [exact zst_laws|]. split; [exact Z_per|]. vm_compute. auto.
Qed.
Example C38_interrupted_example :
  let xs := [XDone (OInsert (mkRI 0 9 true) 1); XDone (OInsert (mkRI 12 15 true) 2);
             XCrash (OInsert (mkRI 3 4 true) 7) 2] in
  imx_run Z.compare Z.eqb zst xs = [(incl 0 2, 1); (mkRI 12 15 true, 2)] /\
  imx_run Z.compare Z.eqb zst (map freshen_xop xs) = [(incl 0 2, 1); (incl 12 15, 2)] /\
  crash_states (izx (ORemove (mkRI 13 13 true))) (imx_run Z.compare Z.eqb zst xs) =
    [[(incl 0 2, 1); (mkRI 12 15 true, 2)]; [(incl 0 2, 1)]; [(incl 0 2, 1); (incl 12 12, 2)];
     [(incl 0 2, 1); (incl 12 12, 2); (incl 14 15, 2)]].
Proof. vm_compute. auto. Qed.
(** 9, the last key of an exhausted entry, is found once the entry has been cut *)
Example C63_exhausted_example :
  let ops := [OInsert (mkRI 0 9 true) 1; OInsert (mkRI 12 15 true) 2] in
  crash_states (izx (OInsert (mkRI 3 4 true) 7)) (izrun ops) =
    [[(mkRI 0 9 true, 1); (mkRI 12 15 true, 2)]; [(mkRI 12 15 true, 2)];
     [(incl 0 2, 1); (mkRI 12 15 true, 2)]; [(incl 0 2, 1); (incl 5 9, 1); (mkRI 12 15 true, 2)];
     [(incl 0 2, 1); (mkRI 3 4 true, 7); (incl 5 9, 1); (mkRI 12 15 true, 2)]] /\
  im_get Z.compare (izrun ops) 9 = Ret None /\
  im_get Z.compare [(incl 0 2, 1); (incl 5 9, 1); (mkRI 12 15 true, 2)] 9 = Ret (Some 1) /\
  crash_states (izx (OExtend [(mkRI 3 4 true, 7); (mkRI 5 4 false, 7)])) [] = [[]; [(mkRI 3 4 true, 7)]].
Proof. vm_compute. auto. Qed.
Theorem C63_only_own_range_refuted : exists ops r v x x' k k',
  fresh_ops ops /\ in_rangei Z.compare r k = false /\ in_rangei Z.compare r k' = false /\
  In x (crash_states (izx (OInsert r v)) (izrun ops)) /\
  im_get Z.compare (izrun ops) k = Ret (Some 2) /\ im_get Z.compare x k = Ret None /\
  In x' (crash_states (izx (ORemove r)) (izrun ops)) /\
  im_get Z.compare (izrun ops) k' = Ret (Some 2) /\ im_get Z.compare x' k' = Ret None.
Proof.
  exists iex_ops, (incl 5 11), 2, [(incl 0 3, 1); (incl 40 59, 3)],
    [(incl 0 3, 1); (incl 6 7, 1); (incl 12 19, 2); (incl 40 59, 3)], 15, 4.
  vm_compute. intuition.
Qed.

Print Assumptions C62_record_faithful.
Print Assumptions C62_record_complete.
Print Assumptions C62_interrupted_reachable.
Print Assumptions C62_interrupted_valid.
Print Assumptions C62_insert_interrupted.
Print Assumptions C62_remove_interrupted.
Print Assumptions C62_extend_interrupted.
Print Assumptions C62_only_own_range_refuted.
Print Assumptions C63_record_faithful.
Print Assumptions C63_record_complete.
Print Assumptions C63_interrupted_reachable.
Print Assumptions C63_interrupted_valid.
Print Assumptions C63_interrupted_valid_exhausted.
Print Assumptions C38_interrupted_ignores_flag.
Print Assumptions C63_insert_interrupted.
Print Assumptions C63_remove_interrupted.
Print Assumptions C63_interrupted_reachable_exhausted.
Print Assumptions C63_insert_interrupted_exhausted.
Print Assumptions C63_remove_interrupted_exhausted.
Print Assumptions C63_extend_interrupted.
Print Assumptions C63_only_own_range_refuted.
