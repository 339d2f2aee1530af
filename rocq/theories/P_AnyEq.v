(** C88, C89: maps whose values have an arbitrary [==], one that need be neither
    symmetric nor transitive.  The maps stay sound (no panic, no lost or invented
    key, exact queries); only the value clauses weaken. *)
From Coq Require Import List Bool Sorting.Sorted ZArith Lia.
From Verif Require Import Order Outcome BTree SearchTree Ranges History Spec MapModel IMapModel StepModel
  IterFacts MapProofs MapFacts MapIter IMapProps Exhausted ExhaustedEq AnyFacts Instances.
Import ListNotations.

Local Open Scope Z_scope.
(** "at most 1 apart": reflexive and symmetric, not transitive *)
Definition near (a b : Z) : bool := Z.abs (a - b) <=? 1.
Notation nrun := (rm_run Z.compare near).
Notation nirun := (im_run Z.compare near zst).
Definition drift : list (op (range Z) Z) :=
  [OInsert (mkR 0 1) 0; OInsert (mkR 1 2) 1; OInsert (mkR 2 3) 2; OInsert (mkR 5 9) 7; ORemove (mkR 6 7)].
Definition left_out : list (op (range Z) Z) :=
  [OInsert (mkR 0 1) 2; OInsert (mkR 1 2) 0; OInsert (mkR 2 3) 1].
Definition idrift : list (op (rangei Z) Z) :=
  [OInsert (incl 0 0) 0; OInsert (incl 1 1) 1; OInsert (incl 2 2) 2; OInsert (incl 5 8) 7; ORemove (incl 6 6)].
Definition ileft_out : list (op (rangei Z) Z) :=
  [OInsert (incl 0 0) 2; OInsert (incl 1 1) 0; OInsert (incl 2 2) 1].

Example near_unlawful : near 0 1 = true /\ near 1 2 = true /\ near 0 2 = false.
Proof. vm_compute. auto. Qed.
Example drift_run : nrun drift = [(mkR 0 3, 2); (mkR 5 6, 7); (mkR 7 9, 7)].
Proof. vm_compute. reflexivity. Qed.
Example idrift_run : nirun idrift = [(incl 0 2, 2); (incl 5 5, 7); (incl 7 8, 7)].
Proof. vm_compute. reflexivity. Qed.

(** ** C88: [RangeMap] *)
Section Half.
  Context {K V : Type} {cmp : K -> K -> comparison} {veqb : V -> V -> bool}.
  Context (HO : TotalOrd cmp).

  Notation run := (rm_run cmp veqb).
  Notation valid := (valid_range cmp).
  Notation covers := (in_range cmp).
  Notation spec := (spec_run (V := V) valid covers).

  (** a key is mapped exactly when the history maps it, and the value read is
      linked by [==] steps to the last one written there *)
  Theorem C88_linked_to_last_writer : forall ops k,
    exists o, rm_get cmp (run ops) k = Ret o /\ linked_opt veqb (spec ops k) o.
  Proof. exact (any_get_spec HO). Qed.
  Theorem C88_contains_key_exact : forall ops k,
    rm_contains_key cmp (run ops) k = Ret (match spec ops k with Some _ => true | None => false end).
  Proof. exact (any_contains HO). Qed.
  (** inserted keys read back the inserted value; another key keeps its value,
      or takes the inserted one if its old value was [==] to it and it now shares
      the entry of the inserted range *)
  Theorem C88_insert_outcome : forall ops r v,
    if valid r
    then exists m', rm_insert cmp veqb r v (run ops) = (Ret tt, m') /\
      (length m' <= length (run ops) + 2)%nat /\
      exists n, In (n, v) (rm_iter m') /\ (forall k, covers r k = true -> covers n k = true) /\
      forall k, exists o o', rm_get cmp (run ops) k = Ret o /\ rm_get cmp m' k = Ret o' /\
        if covers r k then o' = Some v
        else o' = o \/ covers n k = true /\ exists w, o = Some w /\ veqb w v = true /\ o' = Some v
    else rm_insert cmp veqb r v (run ops) = (Panicked PAssert, run ops).
  Proof. exact (any_insert HO). Qed.
  Theorem C88_remove_outcome : forall ops r,
    if valid r
    then exists m', rm_remove cmp r (run ops) = (Ret tt, m') /\
      (length m' <= length (run ops) + 1)%nat /\
      forall k, rm_get cmp m' k = if covers r k then Ret None else rm_get cmp (run ops) k
    else rm_remove cmp r (run ops) = (Panicked PAssert, run ops).
  Proof. exact (any_remove HO). Qed.
  Theorem C88_iter_and_lookup : forall ops,
    ascending cmp (rm_iter (run ops)) /\
    (forall r v, In (r, v) (rm_iter (run ops)) -> valid r = true) /\
    (forall k r v, rm_get_key_value cmp (run ops) k = Ret (Some (r, v)) <->
       In (r, v) (rm_iter (run ops)) /\ covers r k = true) /\
    (forall k, rm_get_key_value cmp (run ops) k = Ret None <->
       (forall r v, In (r, v) (rm_iter (run ops)) -> covers r k = false)).
  Proof. exact (any_iter HO). Qed.
  Theorem C88_gaps_exact : forall ops outer,
    exists g gs, rm_gaps cmp (run ops) outer = Ret g /\
      (forall n, nexts (gp_next cmp) n g = yields n gs) /\
      gaps_of cmp (spec ops) outer gs.
  Proof. exact (any_gaps HO). Qed.
  Theorem C88_overlapping_schedules : forall ops q sched,
    exists o, rm_overlapping cmp (run ops) q = Ret o /\
      map fst (sched_trace (both (ov_next cmp) (ov_next_back cmp)) (fun _ => tt) sched o) =
      deque_run sched (filter (fun e => meets cmp q (fst e)) (rm_iter (run ops))).
  Proof. exact (any_overlapping HO). Qed.
  Theorem C88_overlaps : forall ops q,
    rm_overlaps cmp (run ops) q = Ret (existsb (fun e => meets cmp q (fst e)) (rm_iter (run ops))).
  Proof. exact (any_overlaps HO). Qed.
  (** the map is one that some history reaches with an [==] that is never true,
      so every property of reachable maps not about coalescing holds of it *)
  Theorem C88_reachable_lawfully : forall ops,
    exists ops', run ops = rm_run cmp (fun _ _ => false) ops'.
  Proof. exact (never_reachable HO). Qed.
End Half.
(** for a lawful [==] the links collapse to C01's "the same up to [==]" *)
Theorem C88_linked_lawful : forall V (veqb : V -> V -> bool), PartialEquiv veqb ->
  forall expected o, linked_opt veqb expected o -> same_opt veqb o expected.
Proof. exact (@linked_opt_lawful). Qed.

Example C88_example :
  TotalOrd Z.compare /\
  spec_run (valid_range Z.compare) (in_range Z.compare) drift 0 = Some 0 /\
  rm_get Z.compare (nrun drift) 0 = Ret (Some 2) /\ linked near 0 2 /\
  rm_contains_key Z.compare (nrun drift) 6 = Ret false /\
  fst (rm_insert Z.compare near (mkR 6 7) 8 (nrun drift)) = Ret tt /\
  snd (rm_insert Z.compare near (mkR 6 7) 8 (nrun drift)) = [(mkR 0 3, 2); (mkR 5 9, 8)] /\
  snd (rm_remove Z.compare (mkR 1 8) (nrun drift)) = [(mkR 0 1, 2); (mkR 8 9, 7)] /\
  (exists g, rm_gaps Z.compare (nrun drift) (mkR 0 8) = Ret g /\
     nexts (gp_next Z.compare) 3 g = [Some (mkR 3 5); Some (mkR 6 7); None]) /\
  (exists o, rm_overlapping Z.compare (nrun drift) (mkR 2 6) = Ret o /\
     nexts (ov_next Z.compare) 3 o = [Some (mkR 0 3, 2); Some (mkR 5 6, 7); None]).
Proof.
  split; [exact Z_order|]. split; [reflexivity|]. split; [reflexivity|]. split.
  { apply (linked_step near 0 1 2); [|reflexivity].
    apply (linked_step near 0 0 1); [|reflexivity]. apply linked_refl. }
  repeat (split; [vm_compute; reflexivity|]). split; eexists; vm_compute; auto.
Qed.
(** C01 and C05 need the laws: a value may drift away from what was written,
    and touching entries with [==] values may stay apart *)
Theorem C88_last_writer_wins_refuted : exists ops k w v,
  spec_run (valid_range Z.compare) (in_range Z.compare) ops k = Some w /\
  rm_get Z.compare (nrun ops) k = Ret (Some v) /\ near w v = false.
Proof. exists drift, 0, 0, 2. vm_compute. auto. Qed.
Theorem C88_coalesced_refuted : exists ops, ~ coalesced Z.compare near (rm_iter (nrun ops)).
Proof.
  exists left_out. intros H.
  specialize (H (mkR 0 1, 2) (mkR 1 3, 1) ltac:(vm_compute; auto) ltac:(vm_compute; auto) eq_refl).
  discriminate.
Qed.

(** ** C89: [RangeInclusiveMap] *)
Section Incl.
  Context {K V : Type} {cmp : K -> K -> comparison} {veqb : V -> V -> bool} {st : stepfns K}.
  Context (HO : TotalOrd cmp) (HS : StepLaws cmp st).

  Notation run := (im_run cmp veqb st).
  Notation valid := (valid_rangei cmp).
  Notation covers := (in_rangei cmp).
  Notation spec := (spec_run (V := V) valid covers).

  Theorem C89_linked_to_last_writer : forall ops k, fresh_ops ops ->
    exists o, im_get cmp (run ops) k = Ret o /\ linked_opt veqb (spec ops k) o.
  Proof. exact (iany_get_spec HO HS). Qed.
  Theorem C89_contains_key_exact : forall ops k, fresh_ops ops ->
    im_contains_key cmp (run ops) k = Ret (match spec ops k with Some _ => true | None => false end).
  Proof. exact (iany_contains HO HS). Qed.
  Theorem C89_insert_outcome : forall ops r v, fresh_ops ops -> ri_exhausted r = false ->
    if valid r
    then exists m', im_insert cmp veqb st r v (run ops) = (Ret tt, m') /\
      (length m' <= length (run ops) + 2)%nat /\
      exists n, In (n, v) (im_iter m') /\ (forall k, covers r k = true -> covers n k = true) /\
      forall k, exists o o', im_get cmp (run ops) k = Ret o /\ im_get cmp m' k = Ret o' /\
        if covers r k then o' = Some v
        else o' = o \/ covers n k = true /\ exists w, o = Some w /\ veqb w v = true /\ o' = Some v
    else im_insert cmp veqb st r v (run ops) = (Panicked PAssert, run ops).
  Proof. exact (iany_insert HO HS). Qed.
  Theorem C89_remove_outcome : forall ops r, fresh_ops ops ->
    if valid r
    then exists m', im_remove cmp st r (run ops) = (Ret tt, m') /\
      (length m' <= length (run ops) + 1)%nat /\
      forall k, im_get cmp m' k = if covers r k then Ret None else im_get cmp (run ops) k
    else im_remove cmp st r (run ops) = (Panicked PAssert, run ops).
  Proof. exact (iany_remove HO HS). Qed.
  (** From here on exhausted ranges are allowed.  [inside r k]: what [r] contains,
      flag and all; what is stored has the flag only if an argument had it. *)
  Notation inside r k := (covers r k = true /\ (ri_exhausted r = true -> eqb cmp k (ri_end r) = false)).
  Theorem C89_iter_and_lookup : forall ops,
    ascendingi cmp (im_iter (run ops)) /\
    (forall r v, In (r, v) (im_iter (run ops)) -> valid r = true /\ (fresh_ops ops -> ri_exhausted r = false)) /\
    (forall k r v, im_get_key_value cmp (run ops) k = Ret (Some (r, v)) <->
       In (r, v) (im_iter (run ops)) /\ inside r k) /\
    (forall k, im_get_key_value cmp (run ops) k = Ret None <->
       (forall r v, In (r, v) (im_iter (run ops)) -> ~ inside r k)).
  Proof. exact (e_iter HO HS). Qed.
  (** the entries with their flags cleared still give a value linked to the last
      one written, and calls change them as above *)
  Theorem C89_linked_by_bounds : forall ops k, exists o,
    im_get cmp (map freshen_entry (run ops)) k = Ret o /\ linked_opt veqb (spec ops k) o.
  Proof. exact (e_get HO HS). Qed.
  Theorem C89_contains_key_exhausted : forall ops k, im_contains_key cmp (run ops) k =
    Ret (match spec ops k with Some _ => true | None => false end &&
         negb (existsb (fun e => ri_exhausted (fst e) && eqb cmp k (ri_end (fst e))) (im_iter (run ops)))).
  Proof. exact (e_contains HO HS). Qed.
  Theorem C89_insert_by_bounds : forall ops r v,
    if valid r
    then exists m', im_insert cmp veqb st r v (run ops) = (Ret tt, m') /\
      (length m' <= length (run ops) + 2)%nat /\
      exists n, In (n, v) (im_iter m') /\ (forall k, covers r k = true -> covers n k = true) /\
      forall k, exists o o', im_get cmp (map freshen_entry (run ops)) k = Ret o /\
        im_get cmp (map freshen_entry m') k = Ret o' /\
        if covers r k then o' = Some v
        else o' = o \/ covers n k = true /\ exists w, o = Some w /\ veqb w v = true /\ o' = Some v
    else im_insert cmp veqb st r v (run ops) = (Panicked PAssert, run ops).
  Proof. exact (e_insert HO HS). Qed.
  Theorem C89_remove_by_bounds : forall ops r,
    if valid r
    then exists m', im_remove cmp st r (run ops) = (Ret tt, m') /\
      (length m' <= length (run ops) + 1)%nat /\
      forall k, im_get cmp (map freshen_entry m') k =
        if covers r k then Ret None else im_get cmp (map freshen_entry (run ops)) k
    else im_remove cmp st r (run ops) = (Panicked PAssert, run ops).
  Proof. exact (e_remove HO HS). Qed.
  Theorem C89_gaps_exact : forall ops outer,
    exists g gs, im_gaps cmp (run ops) outer = Ret g /\
      (forall n, nexts_m (gpi_next cmp st) n g = map Ret (yields n gs)) /\
      gapsi_of cmp (spec ops) outer gs.
  Proof. exact (e_gaps HO HS). Qed.
  Theorem C89_overlapping_schedules : forall ops q sched,
    exists o, im_overlapping cmp (run ops) q = Ret o /\
      map fst (sched_trace (both (ovi_next cmp) (ovi_next_back cmp)) (fun _ => tt) sched o) =
      deque_run sched (filter (fun e => meetsi cmp q (fst e)) (im_iter (run ops))).
  Proof. exact (e_overlapping HO HS). Qed.
  Theorem C89_overlaps : forall ops q,
    im_overlaps cmp (run ops) q = Ret (existsb (fun e => meetsi cmp q (fst e)) (im_iter (run ops))).
  Proof. exact (e_overlaps HO HS). Qed.
  Theorem C89_reachable_lawfully : forall ops, exists ops', run ops = im_run cmp (fun _ _ => false) st ops'.
  Proof. exact (e_reachable HO HS). Qed.
End Incl.

Example C89_example :
  TotalOrd Z.compare /\ StepLaws Z.compare zst /\ fresh_ops idrift /\
  spec_run (valid_rangei Z.compare) (in_rangei Z.compare) idrift 0 = Some 0 /\
  im_get Z.compare (nirun idrift) 0 = Ret (Some 2) /\
  im_contains_key Z.compare (nirun idrift) 6 = Ret false /\
  im_insert Z.compare near zst (incl 6 6) 8 (nirun idrift) = (Ret tt, [(incl 0 2, 2); (incl 5 8, 8)]) /\
  im_remove Z.compare zst (incl 1 7) (nirun idrift) = (Ret tt, [(incl 0 0, 2); (incl 8 8, 7)]) /\
  (exists g, im_gaps Z.compare (nirun idrift) (incl 0 8) = Ret g /\
     nexts_m (gpi_next Z.compare zst) 3 g = [Ret (Some (incl 3 4)); Ret (Some (incl 6 6)); Ret None]) /\
  (exists o, im_overlapping Z.compare (nirun idrift) (incl 2 5) = Ret o /\
     nexts (ovi_next Z.compare) 3 o = [Some (incl 0 2, 2); Some (incl 5 5, 7); None]).
Proof.
  split; [exact Z_order|]. split; [exact zst_laws|].
  repeat (split; [vm_compute; reflexivity|]). split; eexists; vm_compute; auto.
Qed.
(** with exhausted ranges: 0..=2 is absorbed, 8..=9 is not and hides its last key *)
Definition xdrift : list (op (rangei Z) Z) :=
  [OInsert (mkRI 0 2 true) 0; OInsert (incl 3 4) 1; OInsert (mkRI 8 9 true) 7].
Example C89_example_exhausted :
  nirun xdrift = [(incl 0 4, 1); (mkRI 8 9 true, 7)] /\
  spec_run (valid_rangei Z.compare) (in_rangei Z.compare) xdrift 2 = Some 0 /\
  map (im_get Z.compare (nirun xdrift)) [2; 8; 9] = map Ret [Some 1; Some 7; None] /\
  im_get Z.compare (map freshen_entry (nirun xdrift)) 9 = Ret (Some 7) /\
  im_contains_key Z.compare (nirun xdrift) 9 = Ret false /\
  (exists g, im_gaps Z.compare (nirun xdrift) (mkRI 0 12 true) = Ret g /\
     nexts_m (gpi_next Z.compare zst) 3 g = [Ret (Some (incl 5 7)); Ret (Some (incl 10 12)); Ret None]).
Proof. repeat (split; [vm_compute; reflexivity|]). eexists; vm_compute; auto. Qed.
Theorem C89_last_writer_wins_refuted : exists ops k w v, fresh_ops ops /\
  spec_run (valid_rangei Z.compare) (in_rangei Z.compare) ops k = Some w /\
  im_get Z.compare (nirun ops) k = Ret (Some v) /\ near w v = false.
Proof. exists idrift, 0, 0, 2. vm_compute. auto. Qed.
Theorem C89_coalesced_refuted : exists ops, fresh_ops ops /\
  ~ coalescedi Z.compare near (im_iter (nirun ops)).
Proof.
  exists ileft_out. split; [reflexivity|]. intros H.
  destruct (H (incl 0 0, 2) (incl 1 2, 1) ltac:(vm_compute; auto) ltac:(vm_compute; auto) eq_refl eq_refl)
    as (k & H1 & H2).
  cbn in H1, H2. apply Z.ltb_lt in H1, H2. lia.
Qed.

Print Assumptions C88_linked_to_last_writer.
Print Assumptions C88_contains_key_exact.
Print Assumptions C88_insert_outcome.
Print Assumptions C88_remove_outcome.
Print Assumptions C88_iter_and_lookup.
Print Assumptions C88_gaps_exact.
Print Assumptions C88_overlapping_schedules.
Print Assumptions C88_overlaps.
Print Assumptions C88_reachable_lawfully.
Print Assumptions C88_linked_lawful.
Print Assumptions C88_last_writer_wins_refuted.
Print Assumptions C88_coalesced_refuted.
Print Assumptions C89_linked_to_last_writer.
Print Assumptions C89_contains_key_exact.
Print Assumptions C89_insert_outcome.
Print Assumptions C89_remove_outcome.
Print Assumptions C89_iter_and_lookup.
Print Assumptions C89_linked_by_bounds.
Print Assumptions C89_contains_key_exhausted.
Print Assumptions C89_insert_by_bounds.
Print Assumptions C89_remove_by_bounds.
Print Assumptions C89_gaps_exact.
Print Assumptions C89_overlapping_schedules.
Print Assumptions C89_overlaps.
Print Assumptions C89_reachable_lawfully.
Print Assumptions C89_last_writer_wins_refuted.
Print Assumptions C89_coalesced_refuted.
