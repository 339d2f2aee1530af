(** C109, C110: updates when [==] and [!=] on values answer in any way at all:
    differently each time, [!=] not as the negation of [==], and so on.
    [rmq_run cmp qs] is the map after calls each of which got any answers and was
    interrupted anywhere, or completed; [rmq_insert cmp r v bs m] is an [insert]
    into [m] that gets the answers [bs]; it is [OutOfFuel] if it wants more
    (AskModel.v). *)
From Coq Require Import List Bool Sorting.Sorted ZArith Lia.
From Verif Require Import Order Outcome BTree SearchTree Ranges History Spec MapModel IMapModel StepModel
  IterFacts MapProofs MapFacts MapIter IMapProps CrashModel Exhausted ExhaustedEq CrashAny AnyEq AnyFacts AnyCrash AnyCrashIncl
  AskModel AskFacts AskSim AskIncl Instances.
Import ListNotations.

(** how many answers are [true] *)
Notation yes bs := (length (filter (fun b : bool => b) bs)).

(** ** C109: [RangeMap] *)
Section Half.
  Context {K V : Type} {cmp : K -> K -> comparison}.
  Context (HO : TotalOrd cmp).
  Notation qrun := (@rmq_run K V cmp).
  Notation valid := (valid_range cmp).
  Notation covers := (in_range cmp).
  Notation far a b := (ltb cmp (r_end a) (r_start b) = true \/ ltb cmp (r_end b) (r_start a) = true).

  Theorem C109_iter_and_lookup : forall qs,
    ascending cmp (rm_iter (qrun qs)) /\
    (forall r v, In (r, v) (rm_iter (qrun qs)) -> valid r = true) /\
    (forall k r v, rm_get_key_value cmp (qrun qs) k = Ret (Some (r, v)) <->
       In (r, v) (rm_iter (qrun qs)) /\ covers r k = true) /\
    (forall k, rm_get_key_value cmp (qrun qs) k = Ret None <->
       (forall r v, In (r, v) (rm_iter (qrun qs)) -> covers r k = false)).
  Proof. intros qs. destruct (qrun_never HO qs) as (ops & ->). exact (any_iter HO (veqb := fun _ _ => false) ops). Qed.
  (** the map is one that completed calls reach with an [==] that is never true,
      so every property of reachable maps that is not about coalescing holds of it *)
  Theorem C109_reachable : forall qs, exists ops, qrun qs = rm_run cmp (fun _ _ => false) ops.
  Proof. exact (qrun_never HO). Qed.
  (** what an [insert] that returns has done: the range [n] that it stored holds
      [r] and besides only keys that were mapped already; other keys are as
      before.  An [insert] still running has had few answers [true]; no answers
      make it panic. *)
  Theorem C109_insert_outcome : forall qs r v bs,
    if valid r
    then match snd (rmq_insert cmp r v bs (qrun qs)) with
         | (Ret _, m') => (length m' <= length (qrun qs) + 2)%nat /\
             exists n, In (n, v) (rm_iter m') /\ (forall k, covers r k = true -> covers n k = true) /\
             forall k, exists o o', rm_get cmp (qrun qs) k = Ret o /\ rm_get cmp m' k = Ret o' /\
               if covers r k then o' = Some v
               else o' = o \/ covers n k = true /\ o <> None /\ o' = Some v
         | (OutOfFuel, _) => (yes bs <= length (qrun qs) + 2)%nat
         | (Panicked _, _) => False
         end
    else rmq_insert cmp r v bs (qrun qs) = ([], (Panicked PAssert, qrun qs)).
  Proof. exact (q_insert HO). Qed.
  (** enough answers [true], wherever among the [false] ones, make it return *)
  Theorem C109_insert_returns : forall qs r v bs, valid r = true -> (length (qrun qs) + 2 < yes bs)%nat ->
    exists rest m', snd (rmq_insert cmp r v bs (qrun qs)) = (Ret (tt, rest), m').
  Proof.
    intros qs r v bs Hv Hy. pose proof (q_insert HO qs r v bs) as H. rewrite Hv in H.
    destruct (snd (rmq_insert cmp r v bs (qrun qs))) as [[[[] rest]|p|] m']; [eauto|destruct H|lia].
  Qed.
  (** an interrupted [insert] has completed or only lost keys.  An entry with a gap to
      [r], and with a gap to every entry that has no gap to [r], is still there *)
  Theorem C109_insert_interrupted : forall qs r v bs x,
    In x (crash_states (rmq_insert cmp r v bs) (qrun qs)) ->
    ((exists rest, snd (rmq_insert cmp r v bs (qrun qs)) = (Ret (tt, rest), x)) \/
     forall k, rm_get cmp x k = rm_get cmp (qrun qs) k \/ rm_get cmp x k = Ret None) /\
    (forall e, In e (rm_iter (qrun qs)) -> far (fst e) r ->
       (forall y, In y (rm_iter (qrun qs)) -> far (fst y) r \/ far (fst e) (fst y)) ->
       In e (rm_iter x)).
  Proof. exact (q_insert_interrupted HO). Qed.
  (** [remove] asks nothing *)
  Theorem C109_remove_outcome : forall qs r bs,
    if valid r
    then exists t m', rmq_exec cmp (ORemove r) bs (qrun qs) = (t, (Ret (tt, bs), m')) /\
      (length m' <= length (qrun qs) + 1)%nat /\
      forall k, rm_get cmp m' k = if covers r k then Ret None else rm_get cmp (qrun qs) k
    else rmq_exec cmp (ORemove r) bs (qrun qs) = ([], (Panicked PAssert, qrun qs)).
  Proof. exact (q_remove HO). Qed.
  (** an [==] that is a function of the values, and [!=] its negation: the calls
      make the same modifications as in CrashModel.v (the answers are [bs], and
      [rest] is not asked for) *)
  Theorem C109_function : forall (veqb : V -> V -> bool) o m t m',
    rmx_exec cmp veqb o m = (t, (Ret tt, m')) ->
    exists bs, forall rest, rmq_exec cmp o (bs ++ rest) m = (t, (Ret (tt, rest), m')).
  Proof. intros veqb. exact (a_exec veqb). Qed.
End Half.

Local Open Scope Z_scope.
Notation zq := (@rmq_run Z Z Z.compare).
(** equal values that are told apart, and an interrupted [remove] *)
Definition fickle : list (qcall (range Z) Z) :=
  [mkCall (OInsert (mkR 0 2) 1) [] 9; mkCall (OInsert (mkR 2 4) 1) [false] 9; mkCall (OInsert (mkR 4 6) 1) [false] 9;
   mkCall (OInsert (mkR 20 30) 1) [] 9; mkCall (OExtend [(mkR 40 50, 5); (mkR 45 47, 5)]) [false; true] 9;
   mkCall (ORemove (mkR 42 44)) [] 2].
Example fickle_run : zq fickle = [(mkR 0 2, 1); (mkR 2 4, 1); (mkR 4 6, 1); (mkR 20 30, 1); (mkR 40 42, 5); (mkR 45 47, 5); (mkR 47 50, 5)].
Proof. vm_compute. reflexivity. Qed.
(** [bs = [true; false; false; false; true; true]]: the value of [0..2] is [==]; the
    loop begins at [0..2] and finds [2..4]: not [!=], not [==]; again: not [!=],
    but [==]; [2..4] is merged, and [4..6] no longer begins at the end looked at *)
Example C109_example :
  TotalOrd Z.compare /\
  rmq_insert Z.compare (mkR 0 2) 1 [true; false; false; false; true; true] (zq fickle) =
    ([[(mkR 2 4, 1); (mkR 4 6, 1); (mkR 20 30, 1); (mkR 40 42, 5); (mkR 45 47, 5); (mkR 47 50, 5)];
      [(mkR 4 6, 1); (mkR 20 30, 1); (mkR 40 42, 5); (mkR 45 47, 5); (mkR 47 50, 5)];
      [(mkR 0 4, 1); (mkR 4 6, 1); (mkR 20 30, 1); (mkR 40 42, 5); (mkR 45 47, 5); (mkR 47 50, 5)]],
     (Ret (tt, [true]), [(mkR 0 4, 1); (mkR 4 6, 1); (mkR 20 30, 1); (mkR 40 42, 5); (mkR 45 47, 5); (mkR 47 50, 5)])) /\
  rmq_exec Z.compare (ORemove (mkR 1 3)) [true] (zq [mkCall (OInsert (mkR 0 2) 1) [] 9]) =
    ([[]; [(mkR 0 1, 1)]], (Ret (tt, [true]), [(mkR 0 1, 1)])) /\
  (exists rest m', snd (rmq_insert Z.compare (mkR 0 2) 1 (repeat true 10) (zq fickle)) = (Ret (tt, rest), m')).
Proof.
  split; [exact Z_order|]. split; [vm_compute; reflexivity|]. split; [vm_compute; reflexivity|].
  apply (C109_insert_returns Z_order); [reflexivity|vm_compute; lia].
Qed.
Example C109_function_example :
  rmx_exec Z.compare Z.eqb (OInsert (mkR 1 3) 1) [(mkR 0 2, 1); (mkR 3 4, 2)] =
    ([[(mkR 3 4, 2)]; [(mkR 0 3, 1); (mkR 3 4, 2)]], (Ret tt, [(mkR 0 3, 1); (mkR 3 4, 2)])) /\
  rmq_exec Z.compare (OInsert (mkR 1 3) 1) [true; true; false] [(mkR 0 2, 1); (mkR 3 4, 2)] =
    ([[(mkR 3 4, 2)]; [(mkR 0 3, 1); (mkR 3 4, 2)]], (Ret (tt, [false]), [(mkR 0 3, 1); (mkR 3 4, 2)])).
Proof. vm_compute. auto. Qed.
(** [insert] need not return: with [==] and [!=] both never true it looks at the
    range that begins where the new one ends for ever, and changes nothing *)
Lemma spin_loop : forall fuel n,
  rmq_insert_loop Z.compare fuel (mkR 0 2) 9 (mkR 2 2) (repeat false n) [(mkR 2 4, 7)] = ([], (OutOfFuel, [(mkR 2 4, 7)])).
Proof.
  induction fuel as [|fuel IH]; intros n; [reflexivity|]. destruct n as [|[|n]]; [reflexivity|reflexivity|].
  specialize (IH n). cbn [repeat] in *. cbn -[repeat rmq_insert_loop]. cbn [rmq_insert_loop].
  cbn -[repeat rmq_insert_loop]. rewrite IH. reflexivity.
Qed.
Theorem C109_insert_always_returns_refuted : exists qs r v,
  valid_range Z.compare r = true /\
  forall n, rmq_insert Z.compare r v (repeat false n) (zq qs) = ([], (OutOfFuel, zq qs)).
Proof.
  exists [mkCall (OInsert (mkR 2 4) 7) [] 9], (mkR 0 2), 9. split; [reflexivity|]. intros n.
  change (zq [mkCall (OInsert (mkR 2 4) 7) [] 9]) with [(mkR 2 4, 7)].
  pose proof (spin_loop (S (length (repeat false n))) n) as H.
  unfold rmq_insert. do 3 (erewrite qbind_Ret by (apply qlift_Ret; vm_compute; reflexivity)).
  cbn [rev firstn filter app]. erewrite qbind_Ret by reflexivity.
  unfold qbind, cbind. cbn [r_end]. rewrite H. reflexivity.
Qed.
Local Close Scope Z_scope.

(** ** C110: [RangeInclusiveMap]; the ranges may be exhausted *)
Section Incl.
  Context {K V : Type} {cmp : K -> K -> comparison} {st : stepfns K}.
  Context (HO : TotalOrd cmp) (HS : StepLaws cmp st).
  Notation qrun := (@imq_run K V cmp st).
  Notation valid := (valid_rangei cmp).
  Notation covers := (in_rangei cmp).
  Notation fe := (@freshen_entry K V).
  (** some key lies between the two ranges *)
  Notation far a b :=
    ((exists k, ltb cmp (ri_end a) k = true /\ ltb cmp k (ri_start b) = true) \/
     (exists k, ltb cmp (ri_end b) k = true /\ ltb cmp k (ri_start a) = true)).
  (** what [x] maps, [m] maps to the same value *)
  Notation only_lost x m :=
    (forall e k, In e x -> covers (fst e) k = true -> exists e', In e' m /\ covers (fst e') k = true /\ snd e' = snd e).

  Theorem C110_iter_and_lookup : forall qs,
    ascendingi cmp (im_iter (qrun qs)) /\
    (forall r v, In (r, v) (im_iter (qrun qs)) -> valid r = true) /\
    (forall k r v, im_get_key_value cmp (qrun qs) k = Ret (Some (r, v)) <->
       In (r, v) (im_iter (qrun qs)) /\ covers r k = true /\ (ri_exhausted r = true -> eqb cmp k (ri_end r) = false)) /\
    (forall k, im_get_key_value cmp (qrun qs) k = Ret None <->
       (forall r v, In (r, v) (im_iter (qrun qs)) ->
          ~ (covers r k = true /\ (ri_exhausted r = true -> eqb cmp k (ri_end r) = false)))).
  Proof. exact (q_iter_incl HO HS). Qed.
  Theorem C110_reachable : forall qs, exists ops, qrun qs = im_run cmp (fun _ _ => false) st ops.
  Proof. exact (qrun_never_incl HO HS). Qed.
  (** [map fe] clears the flags: [get] does not see the last key of a range with the flag *)
  Theorem C110_insert_outcome : forall qs r v bs,
    if valid r
    then match snd (imq_insert cmp st r v bs (qrun qs)) with
         | (Ret _, m') => (length m' <= length (qrun qs) + 2)%nat /\
             exists n, In (n, v) (im_iter m') /\ (forall k, covers r k = true -> covers n k = true) /\
             forall k, exists o o', im_get cmp (map fe (qrun qs)) k = Ret o /\ im_get cmp (map fe m') k = Ret o' /\
               if covers r k then o' = Some v
               else o' = o \/ covers n k = true /\ o <> None /\ o' = Some v
         | (OutOfFuel, _) => (yes bs <= length (qrun qs) + 2)%nat
         | (Panicked _, _) => False
         end
    else imq_insert cmp st r v bs (qrun qs) = ([], (Panicked PAssert, qrun qs)).
  Proof. exact (q_insert_incl HO HS). Qed.
  Theorem C110_insert_returns : forall qs r v bs, valid r = true -> (length (qrun qs) + 2 < yes bs)%nat ->
    exists rest m', snd (imq_insert cmp st r v bs (qrun qs)) = (Ret (tt, rest), m').
  Proof.
    intros qs r v bs Hv Hy. pose proof (q_insert_incl HO HS qs r v bs) as H. rewrite Hv in H.
    destruct (snd (imq_insert cmp st r v bs (qrun qs))) as [[[[] rest]|p|] m']; [eauto|destruct H|lia].
  Qed.
  Theorem C110_insert_interrupted : forall qs r v bs x,
    In x (crash_states (imq_insert cmp st r v bs) (qrun qs)) ->
    ((exists rest, snd (imq_insert cmp st r v bs (qrun qs)) = (Ret (tt, rest), x)) \/
     only_lost (im_iter x) (im_iter (qrun qs))) /\
    (forall e, In e (im_iter (qrun qs)) -> far (fst e) r ->
       (forall y, In y (im_iter (qrun qs)) -> far (fst y) r \/ far (fst e) (fst y)) ->
       In e (im_iter x)).
  Proof. exact (q_insert_interrupted_incl HO HS). Qed.
  Theorem C110_remove_outcome : forall qs r bs,
    if valid r
    then exists t m', imq_exec cmp st (ORemove r) bs (qrun qs) = (t, (Ret (tt, bs), m')) /\
      (length m' <= length (qrun qs) + 1)%nat /\
      forall k, im_get cmp (map fe m') k = if covers r k then Ret None else im_get cmp (map fe (qrun qs)) k
    else imq_exec cmp st (ORemove r) bs (qrun qs) = ([], (Panicked PAssert, qrun qs)).
  Proof. exact (q_remove_incl HO HS). Qed.
  Theorem C110_function : forall (veqb : V -> V -> bool) o m t m',
    imx_exec cmp veqb st o m = (t, (Ret tt, m')) ->
    exists bs, forall rest, imq_exec cmp st o (bs ++ rest) m = (t, (Ret (tt, rest), m')).
  Proof. intros veqb. exact (ia_exec veqb). Qed.
End Incl.

Local Open Scope Z_scope.
Notation ziq := (@imq_run Z Z Z.compare zst).
Definition ifickle : list (qcall (rangei Z) Z) :=
  [mkCall (OInsert (mkRI 0 1 true) 1) [] 9; mkCall (OInsert (incl 2 3) 1) [false] 9; mkCall (OInsert (mkRI 4 5 true) 1) [false] 9;
   mkCall (OInsert (incl 20 29) 1) [] 9; mkCall (OExtend [(incl 40 49, 5); (incl 45 46, 5)]) [false; true] 9;
   mkCall (ORemove (incl 42 43)) [] 2].
Example ifickle_run : ziq ifickle =
  [(mkRI 0 1 true, 1); (incl 2 3, 1); (mkRI 4 5 true, 1); (incl 20 29, 1); (incl 40 41, 5); (incl 45 46, 5); (incl 47 49, 5)].
Proof. vm_compute. reflexivity. Qed.
Example C110_example :
  TotalOrd Z.compare /\ StepLaws Z.compare zst /\
  imq_insert Z.compare zst (incl 0 1) 1 [true; false; false; false; true; true] (ziq ifickle) =
    ([[(incl 2 3, 1); (mkRI 4 5 true, 1); (incl 20 29, 1); (incl 40 41, 5); (incl 45 46, 5); (incl 47 49, 5)];
      [(mkRI 4 5 true, 1); (incl 20 29, 1); (incl 40 41, 5); (incl 45 46, 5); (incl 47 49, 5)];
      [(incl 0 3, 1); (mkRI 4 5 true, 1); (incl 20 29, 1); (incl 40 41, 5); (incl 45 46, 5); (incl 47 49, 5)]],
     (Ret (tt, [true]), [(incl 0 3, 1); (mkRI 4 5 true, 1); (incl 20 29, 1); (incl 40 41, 5); (incl 45 46, 5); (incl 47 49, 5)])) /\
  imq_exec Z.compare zst (ORemove (incl 1 2)) [true] (ziq [mkCall (OInsert (incl 0 1) 1) [] 9]) =
    ([[]; [(incl 0 0, 1)]], (Ret (tt, [true]), [(incl 0 0, 1)])) /\
  (exists rest m', snd (imq_insert Z.compare zst (incl 0 1) 1 (repeat true 10) (ziq ifickle)) = (Ret (tt, rest), m')).
Proof.
  split; [exact Z_order|]. split; [exact zst_laws|]. split; [vm_compute; reflexivity|]. split; [vm_compute; reflexivity|].
  apply (C110_insert_returns Z_order zst_laws); [reflexivity|vm_compute; lia].
Qed.
Example C110_function_example :
  imx_exec Z.compare Z.eqb zst (OInsert (incl 1 2) 1) [(incl 0 1, 1); (incl 3 3, 2)] =
    ([[(incl 3 3, 2)]; [(incl 0 2, 1); (incl 3 3, 2)]], (Ret tt, [(incl 0 2, 1); (incl 3 3, 2)])) /\
  imq_exec Z.compare zst (OInsert (incl 1 2) 1) [true; true; false] [(incl 0 1, 1); (incl 3 3, 2)] =
    ([[(incl 3 3, 2)]; [(incl 0 2, 1); (incl 3 3, 2)]], (Ret (tt, [false]), [(incl 0 2, 1); (incl 3 3, 2)])).
Proof. vm_compute. auto. Qed.
Lemma ispin_loop : forall fuel n,
  imq_insert_loop Z.compare zst fuel (incl 0 1) 9 (incl 1 1) (repeat false n) [(incl 2 3, 7)] = ([], (OutOfFuel, [(incl 2 3, 7)])).
Proof.
  induction fuel as [|fuel IH]; intros n; [reflexivity|]. destruct n as [|[|n]]; [reflexivity|reflexivity|].
  specialize (IH n). cbn [repeat] in *. cbn -[repeat imq_insert_loop]. cbn [imq_insert_loop].
  cbn -[repeat imq_insert_loop]. rewrite IH. reflexivity.
Qed.
Theorem C110_insert_always_returns_refuted : exists qs r v,
  valid_rangei Z.compare r = true /\
  forall n, imq_insert Z.compare zst r v (repeat false n) (ziq qs) = ([], (OutOfFuel, ziq qs)).
Proof.
  exists [mkCall (OInsert (incl 2 3) 7) [] 9], (incl 0 1), 9. split; [reflexivity|]. intros n.
  change (ziq [mkCall (OInsert (incl 2 3) 7) [] 9]) with [(incl 2 3, 7)].
  pose proof (ispin_loop (S (length (repeat false n))) n) as H.
  unfold imq_insert. do 4 (erewrite qbind_Ret by (apply qlift_Ret; vm_compute; reflexivity)).
  erewrite qbind_Ret by reflexivity.
  unfold qbind, cbind, incl in *. cbn [ri_end]. rewrite H. reflexivity.
Qed.

Print Assumptions C109_iter_and_lookup.
Print Assumptions C109_reachable.
Print Assumptions C109_insert_outcome.
Print Assumptions C109_insert_returns.
Print Assumptions C109_insert_interrupted.
Print Assumptions C109_remove_outcome.
Print Assumptions C109_function.
Print Assumptions C109_insert_always_returns_refuted.
Print Assumptions C110_iter_and_lookup.
Print Assumptions C110_reachable.
Print Assumptions C110_insert_outcome.
Print Assumptions C110_insert_returns.
Print Assumptions C110_insert_interrupted.
Print Assumptions C110_remove_outcome.
Print Assumptions C110_function.
Print Assumptions C110_insert_always_returns_refuted.
