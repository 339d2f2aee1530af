(** C117, C118: [RangeInclusiveMap] and [RangeInclusiveSet] over step functions
    that are not lawful.  C117: ones that panic on keys where the laws want an
    answer.  C118: exactly which ones let an update run forever. *)
From Coq Require Import List Bool Sorting.Sorted ZArith Lia.
From Verif Require Import Order Outcome BTree Ranges History Spec SpecStep SpecProg MapModel IMapModel SetModel ISetModel ProgModel
  CrashModel WithinModel IMapProps ListLemmas Instances P_Laws CrashSetModel ExhaustedSet StepPanic StepPanicSet ProgPanic WithinFacts.
Import ListNotations.
Local Open Scope Z_scope.

Section Panicking.
  Context {K V : Type} {cmp : K -> K -> comparison} {veqb : V -> V -> bool} {st pst : stepfns K}.
  Context (HP : panics_more st pst).
  Notation run := (im_run cmp veqb st).
  Notation prun := (im_run cmp veqb pst).
  Notation s0 e := (ri_start (fst e)).
  Notation e0 e := (ri_end (fst e)).

  (** ** C117 *)
  (** Each call does what it does without the panics, or stops on the way: no
      law of the order, the steps or [==] is needed for this. *)
  Theorem C117_call : forall o m,
    im_exec cmp veqb pst o m = im_exec cmp veqb st o m \/
    exists m', im_exec cmp veqb pst o m = (Panicked PStep, m') /\
      In m' (crash_states (imx_exec cmp veqb st o) m).
  Proof. exact (sp_call (fun x => proj1 (HP x)) (fun x => proj2 (HP x))). Qed.
  Theorem C117_gaps : forall g : gapsi K V,
    gpi_next cmp pst g = gpi_next cmp st g \/ fst (gpi_next cmp pst g) = Panicked PStep.
  Proof. exact (sp_gaps (fun x => proj1 (HP x)) (fun x => proj2 (HP x))). Qed.
  (** A history in which no step function panicked is a history over [st]. *)
  Theorem C117_quiet : forall ops,
    (forall l1 o l2, ops = l1 ++ o :: l2 -> fst (im_exec cmp veqb pst o (prun l1)) <> Panicked PStep) ->
    prun ops = run ops.
  Proof. exact (sp_quiet (fun x => proj1 (HP x)) (fun x => proj2 (HP x))). Qed.

  (** Over lawful steps that sometimes panic: *)
  Context (HO : TotalOrd cmp) (HS : StepLaws cmp st) (HV : PartialEquiv veqb).
  Theorem C117_valid : forall ops,
    ascendingi cmp (im_iter (prun ops)) /\
    (forall r v, In (r, v) (im_iter (prun ops)) -> valid_rangei cmp r = true) /\
    coalescedi cmp veqb (im_iter (prun ops)).
  Proof. exact (sp_valid (fun x => proj1 (HP x)) (fun x => proj2 (HP x)) HO HS HV). Qed.
  Theorem C117_reachable : forall ops, exists ops', prun ops = run ops'.
  Proof. exact (sp_reachable (fun x => proj1 (HP x)) (fun x => proj2 (HP x)) HO HS HV). Qed.
  Theorem C117_outcome : forall ops o,
    fst (im_exec cmp veqb pst o (prun ops)) = Ret tt \/
    fst (im_exec cmp veqb pst o (prun ops)) = Panicked PAssert \/
    fst (im_exec cmp veqb pst o (prun ops)) = Panicked PStep.
  Proof. exact (sp_outcome (fun x => proj1 (HP x)) (fun x => proj2 (HP x)) HO HS HV). Qed.
  (** An insertion that does not complete only loses keys, and only those of
      the entries it has to do with. *)
  Theorem C117_insert : forall ops r v,
    if valid_rangei cmp r
    then (im_insert cmp veqb pst r v (prun ops) = im_insert cmp veqb st r v (prun ops) /\
          fst (im_insert cmp veqb pst r v (prun ops)) = Ret tt) \/
         (exists x, im_insert cmp veqb pst r v (prun ops) = (Panicked PStep, x) /\
            (forall e k, In e x -> in_rangei cmp (fst e) k = true ->
               exists e', In e' (prun ops) /\ in_rangei cmp (fst e') k = true /\ snd e' = snd e) /\
            (forall e, In e (prun ops) ->
               (ltb cmp (e0 e) (ri_start r) = true /\
                  (veqb (snd e) v = false \/
                   exists k, ltb cmp (e0 e) k = true /\ ltb cmp k (ri_start r) = true)) \/
               (ltb cmp (ri_end r) (s0 e) = true /\
                  (veqb (snd e) v = false \/
                   exists k, ltb cmp (ri_end r) k = true /\ ltb cmp k (s0 e) = true)) ->
               In e x))
    else im_insert cmp veqb pst r v (prun ops) = (Panicked PAssert, prun ops).
  Proof. exact (sp_insert (fun x => proj1 (HP x)) (fun x => proj2 (HP x)) HO HS HV). Qed.
  Theorem C117_remove : forall ops r,
    if valid_rangei cmp r
    then (im_remove cmp pst r (prun ops) = im_remove cmp st r (prun ops) /\
          fst (im_remove cmp pst r (prun ops)) = Ret tt) \/
         (exists x, im_remove cmp pst r (prun ops) = (Panicked PStep, x) /\
            (forall e k, In e x -> in_rangei cmp (fst e) k = true ->
               exists e', In e' (prun ops) /\ in_rangei cmp (fst e') k = true /\ snd e' = snd e) /\
            (forall e, In e (prun ops) ->
               ltb cmp (e0 e) (ri_start r) = true \/ ltb cmp (ri_end r) (s0 e) = true -> In e x))
    else im_remove cmp pst r (prun ops) = (Panicked PAssert, prun ops).
  Proof. exact (sp_remove (fun x => proj1 (HP x)) (fun x => proj2 (HP x)) HO HS HV). Qed.
End Panicking.

(** [early] (P_Laws.v) panics above 4: an insertion that has to cut at 4 loses
    the entry it cuts and stores nothing; one that does not ask completes *)
Example C117_example :
  panics_more zst early /\ TotalOrd Z.compare /\ StepLaws Z.compare zst /\ PartialEquiv Z.eqb /\
  let m := im_run Z.compare Z.eqb early [OInsert (incl 0 9) 1; OInsert (incl 20 29) 2] in
  im_insert Z.compare Z.eqb early (incl 2 4) 3 m = (Panicked PStep, [(incl 0 1, 1); (incl 20 29, 2)]) /\
  snd (im_insert Z.compare Z.eqb early (incl 2 5) 3 m) = [(incl 0 1, 1); (incl 2 5, 3); (incl 6 9, 1); (incl 20 29, 2)] /\
  im_remove Z.compare early (incl 4 4) m = (Panicked PStep, [(incl 0 3, 1); (incl 20 29, 2)]).
Proof.
  split; [|split; [exact Z_order|split; [exact zst_laws|split; [exact Z_per|vm_compute; auto]]]].
  intros x. cbn. split; [destruct (x =? 4); auto|auto].
Qed.

(** The same for sets, and for programs that combine sets. *)
Section PanickingSets.
  Context {K : Type} {cmp : K -> K -> comparison} {st pst : stepfns K}.
  Context (HP : panics_more st pst).
  Notation run := (is_run cmp st).
  Notation prun := (is_run cmp pst).
  Notation ranges s := (map fst (is_iter s)).
  Notation covers := (in_rangei cmp).

  Theorem C117_set_call : forall o s,
    is_exec cmp pst o s = is_exec cmp st o s \/
    exists s', is_exec cmp pst o s = (Panicked PStep, s') /\ In s' (crash_states (isx_exec cmp st o) s).
  Proof. exact (sps_call HP). Qed.
  Theorem C117_set_quiet : forall ops,
    (forall l1 o l2, ops = l1 ++ o :: l2 -> fst (is_exec cmp pst o (prun l1)) <> Panicked PStep) ->
    prun ops = run ops.
  Proof. exact (sps_quiet HP). Qed.
  (** [|] and [&] of any two sets: what they are without the panics, or a panic *)
  Theorem C117_set_bitor_bitand : forall a b,
    (is_bitor cmp pst a b = is_bitor cmp st a b \/ is_bitor cmp pst a b = Panicked PStep) /\
    (is_bitand cmp pst a b = is_bitand cmp st a b \/ is_bitand cmp pst a b = Panicked PStep).
  Proof. intros a b. exact (conj (sps_bitor HP a b) (sps_bitand HP a b)). Qed.
  (** a program none of whose updates was stopped gives the same set or panics *)
  Theorem C117_set_expressions_quiet : forall x,
    (forall y o s, In (y, o) (sexp_calls x) -> is_eval cmp pst y = Ret s -> fst (is_exec cmp pst o s) <> Panicked PStep) ->
    is_eval cmp pst x = is_eval cmp st x \/ is_eval cmp pst x = Panicked PStep.
  Proof. exact (sps_eval_quiet HP). Qed.

  Context (HO : TotalOrd cmp) (HS : StepLaws cmp st).
  Theorem C117_set_reachable : forall ops, exists ops', prun ops = run ops'.
  Proof. exact (sps_reachable HP HO HS). Qed.
  Theorem C117_set_valid : forall ops,
    (forall r, In r (ranges (prun ops)) -> valid_rangei cmp r = true) /\
    StronglySorted (fun a b => exists k, ltb cmp (ri_end a) k = true /\ ltb cmp k (ri_start b) = true) (ranges (prun ops)).
  Proof.
    intros ops. destruct (sps_reachable HP HO HS ops) as (ops' & ->).
    destruct (xs_runs' HO HS ops') as (H1 & H2 & _). split; assumption.
  Qed.
  Theorem C117_set_outcome : forall ops o,
    fst (is_exec cmp pst o (prun ops)) = Ret tt \/
    fst (is_exec cmp pst o (prun ops)) = Panicked PAssert \/
    fst (is_exec cmp pst o (prun ops)) = Panicked PStep.
  Proof. exact (sps_outcome HP HO HS). Qed.
  (** A stopped insertion only loses members, and only ranges that have no key
      between them and the inserted one; a stopped removal only ranges it
      overlaps. *)
  Theorem C117_set_insert : forall ops r,
    if valid_rangei cmp r
    then (is_insert cmp pst r (prun ops) = is_insert cmp st r (prun ops) /\ fst (is_insert cmp pst r (prun ops)) = Ret tt) \/
         (exists x, is_insert cmp pst r (prun ops) = (Panicked PStep, x) /\
            (forall q k, In q (ranges x) -> covers q k = true -> exists q', In q' (ranges (prun ops)) /\ covers q' k = true) /\
            (forall q, In q (ranges (prun ops)) ->
               (exists k, ltb cmp (ri_end q) k = true /\ ltb cmp k (ri_start r) = true) \/
               (exists k, ltb cmp (ri_end r) k = true /\ ltb cmp k (ri_start q) = true) -> In q (ranges x)))
    else is_insert cmp pst r (prun ops) = (Panicked PAssert, prun ops).
  Proof. exact (sps_insert HP HO HS). Qed.
  Theorem C117_set_remove : forall ops r,
    if valid_rangei cmp r
    then (is_remove cmp pst r (prun ops) = is_remove cmp st r (prun ops) /\ fst (is_remove cmp pst r (prun ops)) = Ret tt) \/
         (exists x, is_remove cmp pst r (prun ops) = (Panicked PStep, x) /\
            (forall q k, In q (ranges x) -> covers q k = true -> exists q', In q' (ranges (prun ops)) /\ covers q' k = true) /\
            (forall q, In q (ranges (prun ops)) ->
               ltb cmp (ri_end q) (ri_start r) = true \/ ltb cmp (ri_end r) (ri_start q) = true -> In q (ranges x)))
    else is_remove cmp pst r (prun ops) = (Panicked PAssert, prun ops).
  Proof. exact (sps_remove HP HO HS). Qed.
  (** Any program that combines sets: a set that a lawful history makes, or a
      panic inside a step function made by [|] or [&]. *)
  Theorem C117_set_expressions : forall x,
    is_eval cmp pst x = Panicked PStep \/ exists ops, is_eval cmp pst x = Ret (run ops).
  Proof. exact (sps_eval HP HO HS). Qed.
  (** If the program removes nothing, the set has no members that its meaning
      does not have: stopped insertions lose members and gain none. *)
  Theorem C117_set_expressions_gain_nothing : forall x, (forall y o, In (y, o) (sexp_calls x) -> forall r, o <> SRemove r) ->
    forall s, is_eval cmp pst x = Ret s -> forall q k, In q (ranges s) -> covers q k = true ->
    mem_sexp (valid_rangei cmp) covers x k = true.
  Proof.
    intros x H s E q k Hq Hk. destruct (sps_eval_below HP HO HS x H s E) as (ops & -> & B). apply B.
    apply (ISetAny.runs_covered HO HS). exists q. auto.
  Qed.
End PanickingSets.

(** With removals it can: a removal that is stopped at the first of the ranges
    it overlaps leaves the others. *)
Theorem C117_set_gain_nothing_refuted : exists (pst : stepfns Z) x s q k, panics_more zst pst /\
  is_eval Z.compare pst x = Ret s /\ In q (map fst (is_iter s)) /\ in_rangei Z.compare q k = true /\
  mem_sexp (valid_rangei Z.compare) (in_rangei Z.compare) x k = false.
Proof.
  exists (mkStep (fun z => Some (z + 1)) (fun z => if z =? 2 then None else Some (z - 1))),
    (XOp (XOp (XOp XNew (SInsert (incl 0 9))) (SInsert (incl 20 29))) (SRemove (incl 2 22))).
  exists [(incl 20 29, tt)], (incl 20 29), 21. split; [|vm_compute; auto].
  intros x. cbn. split; [auto|destruct (x =? 2); auto].
Qed.

(** a removal that has to go on after 4 loses the whole rest of the range it
    cuts; an insertion that has to ask whether 4 and 6 touch stops before it
    changes anything; so does [|], which inserts the same ranges; [&] of the same
    sets is empty and inserts nothing *)
Example C117_set_example :
  panics_more zst early /\ TotalOrd Z.compare /\ StepLaws Z.compare zst /\
  let s := is_run Z.compare early [SInsert (incl 0 9); SInsert (incl 20 29)] in
  let t := is_run Z.compare early [SInsert (incl 0 4)] in
  let x := XOp (XOp XNew (SInsert (incl 0 9))) (SRemove (incl 4 4)) in
  is_remove Z.compare early (incl 4 4) s = (Panicked PStep, [(incl 0 3, tt); (incl 20 29, tt)]) /\
  is_insert Z.compare early (incl 6 8) t = (Panicked PStep, t) /\
  is_bitor Z.compare early t [(incl 6 8, tt)] = Panicked PStep /\
  is_bitor Z.compare zst t [(incl 6 8, tt)] = Ret [(incl 0 4, tt); (incl 6 8, tt)] /\
  is_bitand Z.compare early t [(incl 6 8, tt)] = Ret [] /\
  is_eval Z.compare early x = Ret [(incl 0 3, tt)] /\
  is_eval Z.compare zst x = Ret [(incl 0 3, tt); (incl 5 9, tt)] /\
  is_eval Z.compare early (XOr (XOp XNew (SInsert (incl 0 2))) (XOp XNew (SInsert (incl 3 8)))) = Ret [(incl 0 8, tt)] /\
  is_eval Z.compare early (XOp (XOp XNew (SInsert (incl 0 4))) (SExtend [incl 2 3; incl 6 8])) = Ret [(incl 0 4, tt)] /\
  sexp_calls (XOr x (XOp XNew SClear)) =
    [(XNew, SInsert (incl 0 9)); (XOp XNew (SInsert (incl 0 9)), SRemove (incl 4 4)); (XNew, SClear)].
Proof.
  split; [|split; [exact Z_order|split; [exact zst_laws|vm_compute; repeat split]]].
  intros x. cbn. split; [destruct (x =? 4); auto|auto].
Qed.

(** The same for the programs of C97, which build maps and sets out of each
    other. *)
Section PanickingPrograms.
  Context {K V : Type} {cmp : K -> K -> comparison} {veqb : V -> V -> bool} {st pst : stepfns K}.
  Context (HP : panics_more st pst).

  (** A program none of whose updates was stopped gives the same map or set, or
      panics in an [extend], a [collect], a gap iterator or a removal loop. *)
  Theorem C117_programs_quiet :
    let quiet (l : list (mprog (rangei K) V * op (rangei K) V + sprog (rangei K) V * sop (rangei K))) :=
      (forall y o m, In (inl (y, o)) l -> imrun cmp veqb pst y = Ret m -> fst (im_exec cmp veqb pst o m) <> Panicked PStep) /\
      (forall y o s, In (inr (y, o)) l -> isrun cmp veqb pst y = Ret s -> fst (is_exec cmp pst o s) <> Panicked PStep) in
    (forall x, quiet (mprog_calls x) ->
       imrun cmp veqb pst x = imrun cmp veqb st x \/ imrun cmp veqb pst x = Panicked PStep) /\
    (forall x, quiet (sprog_calls x) ->
       isrun cmp veqb pst x = isrun cmp veqb st x \/ isrun cmp veqb pst x = Panicked PStep).
  Proof. exact (prog_quiet HP). Qed.

  Context (HO : TotalOrd cmp) (HS : StepLaws cmp st) (HV : PartialEquiv veqb).
  (** any program: what a lawful history makes, or a panic inside a step function *)
  Theorem C117_map_programs : forall x,
    imrun cmp veqb pst x = Panicked PStep \/ exists ops, imrun cmp veqb pst x = Ret (im_run cmp veqb st ops).
  Proof. exact (proj1 (prog_upto HP HO HS HV)). Qed.
  Theorem C117_set_programs : forall x,
    isrun cmp veqb pst x = Panicked PStep \/ exists ops, isrun cmp veqb pst x = Ret (is_run cmp st ops).
  Proof. exact (proj2 (prog_upto HP HO HS HV)). Qed.
End PanickingPrograms.

(** The free ranges around 0..=4 cannot be computed, those around 0..=5 can;
    a program goes on after an update that was stopped, with what is left; the
    updates of a program are those of its parts. *)
Example C117_programs_example :
  panics_more zst early /\ TotalOrd Z.compare /\ StepLaws Z.compare zst /\ PartialEquiv Z.eqb /\
  let m e := PCall PNew (OInsert (incl 0 e) 1) in
  let s := QCall QNew (SInsert (incl 6 7)) in
  let cut := PCall (m 9) (ORemove (incl 4 4)) in
  isrun Z.compare Z.eqb early (QFree (m 4) (incl 0 9)) = Panicked PStep /\
  isrun Z.compare Z.eqb zst (QFree (m 4) (incl 0 9)) = Ret [(incl 5 9, tt)] /\
  isrun Z.compare Z.eqb early (QFree (m 5) (incl 0 9)) = Ret [(incl 6 9, tt)] /\
  imrun Z.compare Z.eqb early (PMinus (m 9) s) = Ret [(incl 0 5, 1); (incl 8 9, 1)] /\
  imrun Z.compare Z.eqb early (PExtend (PPaint s 2) cut) = Ret [(incl 0 3, 1); (incl 6 7, 2)] /\
  imrun Z.compare Z.eqb zst (PExtend (PPaint s 2) cut) = Ret [(incl 0 3, 1); (incl 5 9, 1)] /\
  imrun Z.compare Z.eqb early (PExtend cut (PPaint s 2)) = Ret [(incl 0 3, 1); (incl 6 7, 2)] /\
  imrun Z.compare Z.eqb early (PFill cut (incl 0 9) 2) = Ret [(incl 0 3, 1); (incl 4 9, 2)] /\
  mprog_calls (PExtend (PPaint s 2) cut) =
    [inr (QNew, SInsert (incl 6 7)); inl (PNew, OInsert (incl 0 9) 1); inl (m 9, ORemove (incl 4 4))] /\
  sprog_calls (QOr (QAnd (QFree (m 4) (incl 0 9)) (QWhere (Z.eqb 1) (m 5)))
      (QMinus (QExtend (QGaps s (incl 0 9)) QNew) (QCall (QCall QNew SClear) (SRemove (incl 1 2))))) =
    [inl (PNew, OInsert (incl 0 4) 1); inl (PNew, OInsert (incl 0 5) 1); inr (QNew, SInsert (incl 6 7));
     inr (QNew, SClear); inr (QCall QNew SClear, SRemove (incl 1 2))] /\
  mprog_calls (PApply Z.succ (PFill (PMinus (m 3) s) (incl 0 9) 2)) =
    [inl (PNew, OInsert (incl 0 3) 1); inr (QNew, SInsert (incl 6 7))].
Proof.
  split; [|split; [exact Z_order|split; [exact zst_laws|split; [exact Z_per|vm_compute; repeat split]]]].
  intros x. cbn. split; [destruct (x =? 4); auto|auto].
Qed.

Section Hanging.
  Context {K V : Type} {cmp : K -> K -> comparison} {veqb : V -> V -> bool} {st : stepfns K}.
  Notation within := (im_exec_within cmp veqb st).

  (** ** C118 *)
  (** [im_exec_within n] is the call cut off after [n] rounds of a loop: more
      rounds change nothing once it came back, and the rounds of IMapModel.v are
      enough whenever they suffice *)
  Theorem C118_rounds : forall o m,
    (forall n n', (n <= n')%nat -> fst (within n o m) <> OutOfFuel -> within n' o m = within n o m) /\
    (fst (im_exec cmp veqb st o m) <> OutOfFuel ->
       exists N, forall n, (N <= n)%nat -> within n o m = im_exec cmp veqb st o m).
  Proof. exact (fun o m => conj (fun n n' H => within_more n n' o H m) (within_settles o m)). Qed.

  Context (HO : TotalOrd cmp).
  (** A map with two different values: the calls on all reachable maps come
      back exactly if the step functions are honest.  They need not answer. *)
  Theorem C118_hangs_exact : forall v w, veqb w v = false ->
    (never_hangs within [] <-> honest cmp st).
  Proof. exact (hang_exact HO). Qed.
  (** with a bound on the rounds, and stored ranges with ascending starts, none
      of them backward *)
  Theorem C118_honest_bound : honest cmp st -> forall m o n, reached within [] m ->
    (match o with OExtend l => 2 * (length m + 2 * length l) | _ => 2 * S (length m) end < n)%nat ->
    fst (within n o m) <> OutOfFuel.
  Proof. exact (fun H m o n => honest_stops HO H m o n). Qed.
  Theorem C118_honest_forward : honest cmp st -> forall m, reached within [] m ->
    Sorted.StronglySorted (fun a b => ltb cmp (ri_start (fst a)) (ri_start (fst b)) = true) m /\
    Forall (fun e => leb cmp (ri_start (fst e)) (ri_end (fst e)) = true) m.
  Proof. exact (fun H m => honest_kept HO H m). Qed.
  Theorem C118_lawful_honest : StepLaws cmp st -> honest cmp st.
  Proof. exact laws_honest. Qed.
End Hanging.

Section Sets.
  Context {K : Type} {cmp : K -> K -> comparison} {st : stepfns K} (HO : TotalOrd cmp).
  (** A set hangs for fewer step functions: only [remove] can, and only if
      [add_one] goes back. *)
  Theorem C118_set_hangs_exact :
    never_hangs (im_exec_within cmp unit_eqb st) [] <-> never_back cmp st.
  Proof. exact (set_exact HO tt (fun _ _ => eq_refl)). Qed.
  Theorem C118_set_insert_returns : forall (s : iset K) n r,
    Sorted.StronglySorted (fun a b => ltb cmp (ri_start (fst a)) (ri_start (fst b)) = true) s ->
    (2 * S (length s) < n)%nat -> fst (im_insert_within cmp unit_eqb st n r tt s) <> OutOfFuel.
  Proof. exact (set_insert_returns HO). Qed.
  Theorem C118_honest_never_back : honest cmp st -> never_back cmp st.
  Proof. exact (honest_never_back HO). Qed.
End Sets.

(** steps of ten are not honest ([insert] of 0..=0 before 5..=7 never returns),
    nor are steps that stay, nor ones that step down too far; of these only the
    second can hang a set ... *)
Definition stays : stepfns Z := mkStep (fun z => Some z) (fun z => Some (z - 1)).
Definition far_down : stepfns Z := mkStep (fun z => Some (z + 1)) (fun z => Some (z - 10)).
(** ... while a [sub_one] that answers its argument, and an [add_one] that
    panics on every odd key, are honest without being lawful *)
Definition lazy_down : stepfns Z :=
  mkStep (fun z => if Z.odd z then None else Some (z + 1)) (fun z => Some z).
Example C118_example :
  (~ honest Z.compare tens /\ ~ honest Z.compare stays /\ ~ honest Z.compare far_down) /\
  (never_back Z.compare tens /\ ~ never_back Z.compare stays /\ never_back Z.compare far_down) /\
  (honest Z.compare lazy_down /\ ~ StepLaws Z.compare lazy_down) /\
  fst (im_exec_within Z.compare Z.eqb tens 100 (OInsert (incl 0 0) 1) [(incl 5 7, 2)]) = OutOfFuel /\
  im_exec_within Z.compare Z.eqb lazy_down 3 (OInsert (incl 5 6) 1) [(incl 2 9, 2)] =
    (Ret tt, [(incl 2 5, 2); (incl 5 6, 1); (incl 7 9, 2)]).
Proof.
  assert (L : forall x y, ltb Z.compare x y = true <-> x < y) by (intros; unfold ltb; rewrite <- Z.compare_lt_iff; destruct (x ?= y); intuition congruence).
  assert (M : forall x y, leb Z.compare x y = true <-> x <= y) by (intros; unfold leb, Z.le; destruct (x ?= y); intuition congruence).
  split; [|split; [|split; [|split; vm_compute; reflexivity]]].
  - splits; intros H; destruct (H 0 5 eq_refl) as [H1 H2].
    + destruct (H1 10 eq_refl) as [_ H3]. discriminate H3.
    + destruct (H1 0 eq_refl) as [H3 _]. discriminate H3.
    + specialize (H2 (-5) eq_refl). discriminate H2.
  - splits.
    + intros a s x y H1 H2 H3 H4. injection H4 as <-. apply M in H2. lia.
    + intros H. apply (H 0 1 1 2); reflexivity.
    + intros a s x y H1 H2 H3 H4. injection H4 as <-. apply M in H2. lia.
  - split.
    + intros x y H. apply L in H. split.
      * intros s E. cbn in E. destruct (Z.odd x); [discriminate|]. injection E as <-. rewrite L, M. lia.
      * intros p E. injection E as <-. rewrite M. lia.
    + intros H. destruct (step_succ _ _ H 1 2 eq_refl) as (s & E & _). discriminate E.
Qed.
Example C118_distinct_values_example : Z.eqb 2 1 = false /\ TotalOrd Z.compare /\
  hangs (im_exec_within Z.compare Z.eqb tens) (OInsert (incl 0 0) 1) [(incl 5 5, 2)] /\
  hangs (im_exec_within Z.compare unit_eqb stays) (ORemove (incl 0 3)) [(incl 3 5, tt)] /\
  reached (im_exec_within Z.compare Z.eqb tens) [] [(incl 5 5, 2)].
Proof.
  split; [reflexivity|]. split; [exact Z_order|]. splits.
  - apply (hang_over Z_order 1 2 0 5 10); reflexivity.
  - apply (hang_remove Z_order tt 0 3 3 5); reflexivity.
  - apply reach_one. reflexivity.
Qed.

Print Assumptions C117_call.
Print Assumptions C117_gaps.
Print Assumptions C117_quiet.
Print Assumptions C117_valid.
Print Assumptions C117_reachable.
Print Assumptions C117_outcome.
Print Assumptions C117_insert.
Print Assumptions C117_remove.
Print Assumptions C117_set_call.
Print Assumptions C117_set_quiet.
Print Assumptions C117_set_bitor_bitand.
Print Assumptions C117_set_expressions_quiet.
Print Assumptions C117_set_reachable.
Print Assumptions C117_set_valid.
Print Assumptions C117_set_outcome.
Print Assumptions C117_set_insert.
Print Assumptions C117_set_remove.
Print Assumptions C117_set_expressions.
Print Assumptions C117_set_expressions_gain_nothing.
Print Assumptions C117_set_gain_nothing_refuted.
Print Assumptions C117_programs_quiet.
Print Assumptions C117_map_programs.
Print Assumptions C117_set_programs.
Print Assumptions C118_rounds.
Print Assumptions C118_hangs_exact.
Print Assumptions C118_honest_bound.
Print Assumptions C118_honest_forward.
Print Assumptions C118_lawful_honest.
Print Assumptions C118_set_hangs_exact.
Print Assumptions C118_set_insert_returns.
Print Assumptions C118_honest_never_back.
