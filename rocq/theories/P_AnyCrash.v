(** C107, C108: interrupted updates of maps whose values have an arbitrary [==]
    (no law is assumed of [veqb]).  [rmx_run cmp veqb xs] is the map reached by a
    history [xs] in which calls may be interrupted; [crash_states c m] are the
    maps that the call [c] can leave behind (CrashModel.v). *)
From Coq Require Import List Bool Sorting.Sorted ZArith.
From Verif Require Import Order Outcome BTree SearchTree Ranges History Spec MapModel IMapModel StepModel
  IterFacts MapProofs MapFacts IMapProps CrashModel Exhausted ExhaustedEq AnyEq AnyFacts AnyCrash AnyCrashIncl P_AnyEq
  Instances.
Import ListNotations.

(** ** C107: [RangeMap] *)
Section Half.
  Context {K V : Type} {cmp : K -> K -> comparison} {veqb : V -> V -> bool}.
  Context (HO : TotalOrd cmp).
  Notation xrun := (rmx_run cmp veqb).
  Notation states o m := (crash_states (rmx_exec cmp veqb o) m).
  Notation valid := (valid_range cmp).
  Notation covers := (in_range cmp).
  Notation far a b := (ltb cmp (r_end a) (r_start b) = true \/ ltb cmp (r_end b) (r_start a) = true).

  (** the entries are in order, disjoint and non-empty, and lookups are exact *)
  Theorem C107_iter_and_lookup : forall xs,
    ascending cmp (rm_iter (xrun xs)) /\
    (forall r v, In (r, v) (rm_iter (xrun xs)) -> valid r = true) /\
    (forall k r v, rm_get_key_value cmp (xrun xs) k = Ret (Some (r, v)) <->
       In (r, v) (rm_iter (xrun xs)) /\ covers r k = true) /\
    (forall k, rm_get_key_value cmp (xrun xs) k = Ret None <->
       (forall r v, In (r, v) (rm_iter (xrun xs)) -> covers r k = false)).
  Proof. exact (x_iter HO). Qed.
  (** every later call returns and does what it does to a map that was never interrupted *)
  Theorem C107_insert_outcome : forall xs r v,
    if valid r
    then exists m', rm_insert cmp veqb r v (xrun xs) = (Ret tt, m') /\ (length m' <= length (xrun xs) + 2)%nat /\
      exists n, In (n, v) (rm_iter m') /\ (forall k, covers r k = true -> covers n k = true) /\
      forall k, exists o o', rm_get cmp (xrun xs) k = Ret o /\ rm_get cmp m' k = Ret o' /\
        if covers r k then o' = Some v
        else o' = o \/ covers n k = true /\ exists w, o = Some w /\ veqb w v = true /\ o' = Some v
    else rm_insert cmp veqb r v (xrun xs) = (Panicked PAssert, xrun xs).
  Proof. exact (x_insert HO). Qed.
  Theorem C107_remove_outcome : forall xs r,
    if valid r
    then exists m', rm_remove cmp r (xrun xs) = (Ret tt, m') /\ (length m' <= length (xrun xs) + 1)%nat /\
      forall k, rm_get cmp m' k = if covers r k then Ret None else rm_get cmp (xrun xs) k
    else rm_remove cmp r (xrun xs) = (Panicked PAssert, xrun xs).
  Proof. exact (x_remove HO). Qed.
  (** an interrupted [insert] is complete or has only lost keys.  An entry with a
      gap to [r], and with a gap to every entry that has an [==] value and no gap
      to [r], is still there *)
  Theorem C107_insert_interrupted : forall xs r v x, In x (states (OInsert r v) (xrun xs)) ->
    (x = xrun (xs ++ [XDone (OInsert r v)]) \/
     forall k, rm_get cmp x k = rm_get cmp (xrun xs) k \/ rm_get cmp x k = Ret None) /\
    (forall e, In e (rm_iter (xrun xs)) -> far (fst e) r ->
       (forall y, In y (rm_iter (xrun xs)) -> veqb (snd y) v = true -> far (fst y) r \/ far (fst e) (fst y)) ->
       In e (rm_iter x)).
  Proof. exact (x_insert_interrupted HO). Qed.
  (** an interrupted [remove] has only lost keys, and no entry that it does not overlap *)
  Theorem C107_remove_interrupted : forall xs r x, In x (states (ORemove r) (xrun xs)) ->
    (forall k, rm_get cmp x k = rm_get cmp (xrun xs) k \/ rm_get cmp x k = Ret None) /\
    (forall e, In e (rm_iter (xrun xs)) ->
       leb cmp (r_end (fst e)) (r_start r) = true \/ leb cmp (r_end r) (r_start (fst e)) = true -> In e (rm_iter x)).
  Proof. exact (x_remove_interrupted HO). Qed.
  (** the map is one that completed calls reach with an [==] that is never true,
      so every property of reachable maps that is not about coalescing holds of it *)
  Theorem C107_interrupted_reachable : forall xs, exists ops, xrun xs = rm_run cmp (fun _ _ => false) ops.
  Proof. exact (xrun_never HO). Qed.
End Half.

Local Open Scope Z_scope.
Notation nxrun := (rmx_run Z.compare near).
Definition cut_short : list (xop (range Z) Z) :=
  [XDone (OInsert (mkR 0 2) 1); XDone (OInsert (mkR 2 3) 3); XDone (OInsert (mkR 5 8) 3); XDone (OInsert (mkR 20 30) 3);
   XCrash (OInsert (mkR 4 6) 4) 1].
Example cut_short_run : nxrun cut_short = [(mkR 0 2, 1); (mkR 2 3, 3); (mkR 20 30, 3)].
Proof. vm_compute. reflexivity. Qed.
(** an insertion of [0..1]: it first takes out [0..2], then [2..3], which does not touch [0..1] *)
Example C107_example :
  TotalOrd Z.compare /\
  map rm_iter (crash_states (rmx_exec Z.compare near (OInsert (mkR 0 1) 2)) (nxrun cut_short)) =
    [[(mkR 0 2, 1); (mkR 2 3, 3); (mkR 20 30, 3)]; [(mkR 2 3, 3); (mkR 20 30, 3)]; [(mkR 20 30, 3)];
     [(mkR 0 3, 2); (mkR 20 30, 3)]] /\
  map rm_iter (crash_states (rmx_exec Z.compare near (ORemove (mkR 1 21))) (nxrun cut_short)) =
    [[(mkR 0 2, 1); (mkR 2 3, 3); (mkR 20 30, 3)]; [(mkR 2 3, 3); (mkR 20 30, 3)];
     [(mkR 0 1, 1); (mkR 2 3, 3); (mkR 20 30, 3)]; [(mkR 0 1, 1); (mkR 20 30, 3)];
     [(mkR 0 1, 1)]; [(mkR 0 1, 1); (mkR 21 30, 3)]] /\
  rm_get Z.compare (nxrun cut_short) 2 = Ret (Some 3) /\ rm_get Z.compare (nxrun cut_short) 5 = Ret None.
Proof. split; [exact Z_order|]. vm_compute. auto. Qed.
(** the gap to the entries with an [==] value is needed: [insert] may take away an
    entry that does not touch the inserted range, and did not have the value *)
Theorem C107_only_touching_refuted : exists ops r v x e,
  In x (crash_states (rmx_exec Z.compare near (OInsert r v)) (nrun ops)) /\
  In e (rm_iter (nrun ops)) /\ ltb Z.compare (r_end r) (r_start (fst e)) = true /\
  rm_get Z.compare x (r_start (fst e)) = Ret None.
Proof.
  exists [OInsert (mkR 0 2) 1; OInsert (mkR 2 3) 3], (mkR 0 1), 2, [], (mkR 2 3, 3).
  vm_compute. auto.
Qed.
Local Close Scope Z_scope.

(** ** C108: [RangeInclusiveMap]; the ranges may be exhausted *)
Section Incl.
  Context {K V : Type} {cmp : K -> K -> comparison} {veqb : V -> V -> bool} {st : stepfns K}.
  Context (HO : TotalOrd cmp) (HS : StepLaws cmp st).
  Notation xrun := (imx_run cmp veqb st).
  Notation states o m := (crash_states (imx_exec cmp veqb st o) m).
  Notation valid := (valid_rangei cmp).
  Notation covers := (in_rangei cmp).
  Notation fe := (@freshen_entry K V).
  (** some key lies between the two ranges *)
  Notation far a b :=
    ((exists k, ltb cmp (ri_end a) k = true /\ ltb cmp k (ri_start b) = true) \/
     (exists k, ltb cmp (ri_end b) k = true /\ ltb cmp k (ri_start a) = true)).
  (** what [x] maps, [m] maps to the same value *)
  Notation only_lost x m :=
    (forall e k, In e x -> covers (fst e) k = true -> exists e', In e' m /\ covers (fst e') k = true /\ snd e' = snd e).

  Theorem C108_iter_and_lookup : forall xs,
    ascendingi cmp (im_iter (xrun xs)) /\
    (forall r v, In (r, v) (im_iter (xrun xs)) -> valid r = true) /\
    (forall k r v, im_get_key_value cmp (xrun xs) k = Ret (Some (r, v)) <->
       In (r, v) (im_iter (xrun xs)) /\ covers r k = true /\ (ri_exhausted r = true -> eqb cmp k (ri_end r) = false)) /\
    (forall k, im_get_key_value cmp (xrun xs) k = Ret None <->
       (forall r v, In (r, v) (im_iter (xrun xs)) ->
          ~ (covers r k = true /\ (ri_exhausted r = true -> eqb cmp k (ri_end r) = false)))).
  Proof. exact (ix_iter HO HS). Qed.
  (** [map fe] clears the flags: [get] does not see the last key of a range with the flag *)
  Theorem C108_insert_outcome : forall xs r v,
    if valid r
    then exists m', im_insert cmp veqb st r v (xrun xs) = (Ret tt, m') /\ (length m' <= length (xrun xs) + 2)%nat /\
      exists n, In (n, v) (im_iter m') /\ (forall k, covers r k = true -> covers n k = true) /\
      forall k, exists o o', im_get cmp (map fe (xrun xs)) k = Ret o /\ im_get cmp (map fe m') k = Ret o' /\
        if covers r k then o' = Some v
        else o' = o \/ covers n k = true /\ exists w, o = Some w /\ veqb w v = true /\ o' = Some v
    else im_insert cmp veqb st r v (xrun xs) = (Panicked PAssert, xrun xs).
  Proof. exact (ix_insert HO HS). Qed.
  Theorem C108_remove_outcome : forall xs r,
    if valid r
    then exists m', im_remove cmp st r (xrun xs) = (Ret tt, m') /\ (length m' <= length (xrun xs) + 1)%nat /\
      forall k, im_get cmp (map fe m') k = if covers r k then Ret None else im_get cmp (map fe (xrun xs)) k
    else im_remove cmp st r (xrun xs) = (Panicked PAssert, xrun xs).
  Proof. exact (ix_remove HO HS). Qed.
  Theorem C108_insert_interrupted : forall xs r v x, In x (states (OInsert r v) (xrun xs)) ->
    (x = xrun (xs ++ [XDone (OInsert r v)]) \/ only_lost (im_iter x) (im_iter (xrun xs))) /\
    (forall e, In e (im_iter (xrun xs)) -> far (fst e) r ->
       (forall y, In y (im_iter (xrun xs)) -> veqb (snd y) v = true -> far (fst y) r \/ far (fst e) (fst y)) ->
       In e (im_iter x)).
  Proof. exact (ix_insert_interrupted HO HS). Qed.
  Theorem C108_remove_interrupted : forall xs r x, In x (states (ORemove r) (xrun xs)) ->
    only_lost (im_iter x) (im_iter (xrun xs)) /\
    (forall e, In e (im_iter (xrun xs)) ->
       ltb cmp (ri_end (fst e)) (ri_start r) = true \/ ltb cmp (ri_end r) (ri_start (fst e)) = true -> In e (im_iter x)).
  Proof. exact (ix_remove_interrupted HO HS). Qed.
  Theorem C108_interrupted_reachable : forall xs, exists ops, xrun xs = im_run cmp (fun _ _ => false) st ops.
  Proof. exact (ix_reachable HO HS). Qed.
End Incl.

Local Open Scope Z_scope.
Notation nixrun := (imx_run Z.compare near zst).
Definition icut_short : list (xop (rangei Z) Z) :=
  [XDone (OInsert (incl 0 1) 1); XDone (OInsert (incl 2 2) 3); XDone (OInsert (mkRI 5 7 true) 3);
   XDone (OInsert (mkRI 20 29 true) 3); XCrash (OInsert (incl 4 5) 4) 1].
Example icut_short_run : nixrun icut_short = [(incl 0 1, 1); (incl 2 2, 3); (mkRI 20 29 true, 3)].
Proof. vm_compute. reflexivity. Qed.
Example C108_example :
  TotalOrd Z.compare /\ StepLaws Z.compare zst /\
  map im_iter (crash_states (imx_exec Z.compare near zst (OInsert (incl 0 0) 2)) (nixrun icut_short)) =
    [[(incl 0 1, 1); (incl 2 2, 3); (mkRI 20 29 true, 3)]; [(incl 2 2, 3); (mkRI 20 29 true, 3)];
     [(mkRI 20 29 true, 3)]; [(incl 0 2, 2); (mkRI 20 29 true, 3)]] /\
  map im_iter (crash_states (imx_exec Z.compare near zst (ORemove (incl 2 20))) (nixrun icut_short)) =
    [[(incl 0 1, 1); (incl 2 2, 3); (mkRI 20 29 true, 3)]; [(incl 0 1, 1); (mkRI 20 29 true, 3)];
     [(incl 0 1, 1)]; [(incl 0 1, 1); (incl 21 29, 3)]] /\
  im_get Z.compare (nixrun icut_short) 28 = Ret (Some 3) /\ im_get Z.compare (nixrun icut_short) 29 = Ret None.
Proof. split; [exact Z_order|]. split; [exact zst_laws|]. vm_compute. auto. Qed.
Theorem C108_only_touching_refuted : exists ops r v x e k,
  In x (crash_states (imx_exec Z.compare near zst (OInsert r v)) (nirun ops)) /\
  In e (im_iter (nirun ops)) /\
  ltb Z.compare (ri_end r) k = true /\ ltb Z.compare k (ri_start (fst e)) = true /\
  im_get Z.compare x (ri_start (fst e)) = Ret None.
Proof.
  exists [OInsert (incl 0 1) 1; OInsert (incl 2 2) 3], (incl 0 0), 2, [], (incl 2 2, 3), 1.
  vm_compute. auto 10.
Qed.

Print Assumptions C107_iter_and_lookup.
Print Assumptions C107_insert_outcome.
Print Assumptions C107_remove_outcome.
Print Assumptions C107_insert_interrupted.
Print Assumptions C107_remove_interrupted.
Print Assumptions C107_interrupted_reachable.
Print Assumptions C107_only_touching_refuted.
Print Assumptions C108_iter_and_lookup.
Print Assumptions C108_insert_outcome.
Print Assumptions C108_remove_outcome.
Print Assumptions C108_insert_interrupted.
Print Assumptions C108_remove_interrupted.
Print Assumptions C108_interrupted_reachable.
Print Assumptions C108_only_touching_refuted.
