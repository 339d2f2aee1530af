(** Properties of [RangeInclusiveMap] (C25-C44; inclusive parts of C22 and C66).
    Statements only: every proof is a reference to a lemma.  [run ops] is the
    map reached by the history [ops] from the empty map; [spec ops] is the
    key -> value function the history describes (Spec.v).  [fresh_ops ops]: no
    inserted [RangeInclusive] has been iterated to exhaustion (C38 shows what
    happens otherwise); theorems without it hold for all histories.  [StepLaws]: the contract of the step functions, which
    says nothing about the extremes of the key type. *)
From Coq Require Import List Bool Sorting.Sorted ZArith.
From Verif Require Import Order Outcome BTree SearchTree Ranges History Spec MapModel IMapModel StepModel
  StepFacts IterFacts MapIter ISim Cuts IFacts IMapProps CrashProps Exhausted ExhaustedCrash ExhaustedAny Instances.
Import ListNotations.

(** Example data *)
Local Open Scope Z_scope.
Notation zrun := (im_run Z.compare Z.eqb zst).
Notation zops := iex_ops.
Example zops_run : zrun zops =
  [(incl 0 3, 1); (incl 4 5, 2); (incl 6 7, 1); (incl 12 19, 2); (incl 40 59, 3)].
Proof. vm_compute. reflexivity. Qed.
Example zops_hyps : TotalOrd Z.compare /\ StepLaws Z.compare zst /\ PartialEquiv Z.eqb /\ fresh_ops zops.
Proof. exact (conj Z_order (conj zst_laws (conj Z_per eq_refl))). Qed.
(** the same with [u8] keys and ranges up to both extremes, in both build modes *)
Notation u8run md := (im_run (icmp u8) Z.eqb (int_steps md u8)).
Example u8_ops_run :
  u8_show (u8run Checked u8_ops) = [(4, 99, 1); (100, 110, 2); (111, 249, 1); (250, 254, 2); (255, 255, 1)] /\
  u8_show (u8run Wrapping u8_ops) = u8_show (u8run Checked u8_ops).
Proof. vm_compute. auto. Qed.
Example u8_hyps : TotalOrd (icmp u8) /\ StepLaws (icmp u8) (int_steps Checked u8) /\
  StepLaws (icmp u8) (int_steps Wrapping u8) /\ fresh_ops u8_ops.
Proof. exact (conj (int_order u8) (conj (int_steplaws u8 Checked eq_refl) (conj (int_steplaws u8 Wrapping eq_refl) eq_refl))). Qed.

Section Props.
  Context {K V : Type} {cmp : K -> K -> comparison} {veqb : V -> V -> bool} {st : stepfns K}.
  Context (HO : TotalOrd cmp) (HS : StepLaws cmp st) (HV : PartialEquiv veqb).

  Notation run := (im_run cmp veqb st).
  Notation valid := (valid_rangei cmp).
  Notation covers := (in_rangei cmp).
  Notation spec := (spec_run (V := V) valid covers).
  Notation ins l := (map (fun e : rangei K * V => OInsert (fst e) (snd e)) l).

  (** ** C25 *)
  Theorem C25_last_writer_wins : forall ops, fresh_ops ops -> forall k,
    exists o, im_get cmp (run ops) k = Ret o /\ same_opt veqb o (spec ops k).
  Proof. exact (irun_get_spec HO HS HV). Qed.
  Theorem C25_last_writer_wins_exact : (forall a b, veqb a b = true -> a = b) ->
    forall ops, fresh_ops ops -> forall k, im_get cmp (run ops) k = Ret (spec ops k).
  Proof. exact (irun_get_spec_eq HO HS HV). Qed.
  Theorem C25_insert_read_back : forall ops r v k, fresh_ops ops -> ri_exhausted r = false ->
    valid r = true -> covers r k = true ->
    im_get cmp (run (ops ++ [OInsert r v])) k = Ret (Some v).
  Proof. exact (iinsert_read_back HO HS HV). Qed.

  Example C25_example :
    map (im_get Z.compare (zrun zops)) [-1; 3; 4; 7; 8; 12; 49; 59; 70] =
    map Ret [None; Some 1; Some 2; Some 1; None; Some 2; Some 3; Some 3; None].
  Proof. vm_compute. reflexivity. Qed.

  (** ** C26, C27: the only panic is the assertion; in particular no [PStep]
      (step function without neighbour) and no [OutOfFuel] *)
  Theorem C26_insert_outcome : forall ops r v, fresh_ops ops -> ri_exhausted r = false ->
    if valid r
    then exists m', im_insert cmp veqb st r v (run ops) = (Ret tt, m') /\
           forall k, exists o, im_get cmp m' k = Ret o /\
             same_opt veqb o (if covers r k then Some v else spec ops k)
    else im_insert cmp veqb st r v (run ops) = (Panicked PAssert, run ops).
  Proof. exact (iinsert_outcome HO HS HV). Qed.
  Theorem C27_remove_outcome : forall ops r, fresh_ops ops ->
    if valid r
    then exists m', im_remove cmp st r (run ops) = (Ret tt, m') /\
           forall k, exists o, im_get cmp m' k = Ret o /\
             same_opt veqb o (if covers r k then None else spec ops k)
    else im_remove cmp st r (run ops) = (Panicked PAssert, run ops).
  Proof. exact (iremove_outcome HO HS HV). Qed.
  (** the outcome with exhausted ranges in the map or as argument *)
  Theorem C26_insert_outcome_any_range : forall ops r v,
    if valid r then im_insert cmp veqb st r v (run ops) = (Ret tt, run (ops ++ [OInsert r v]))
    else im_insert cmp veqb st r v (run ops) = (Panicked PAssert, run ops).
  Proof. exact (any_insert HO HS HV). Qed.
  Theorem C27_remove_outcome_any_range : forall ops r,
    if valid r then im_remove cmp st r (run ops) = (Ret tt, run (ops ++ [ORemove r]))
    else im_remove cmp st r (run ops) = (Panicked PAssert, run ops).
  Proof. exact (any_remove HO HS HV). Qed.

  Example C26_C27_example :
    fst (im_insert (icmp u8) Z.eqb (int_steps Checked u8) (incl (b8 0) (b8 255)) 5 (u8run Checked u8_ops)) = Ret tt /\
    fst (im_insert Z.compare Z.eqb zst (incl 7 7) 5 (zrun zops)) = Ret tt /\
    im_insert Z.compare Z.eqb zst (incl 7 6) 5 (zrun zops) = (Panicked PAssert, zrun zops) /\
    fst (im_remove (icmp u8) (int_steps Checked u8) (incl (b8 0) (b8 255)) (u8run Checked u8_ops)) = Ret tt /\
    im_remove Z.compare zst (incl 7 6) (zrun zops) = (Panicked PAssert, zrun zops) /\
    im_insert Z.compare Z.eqb zst (mkRI 4 9 true) 5 (zrun [OInsert (mkRI 0 6 true) 1]) =
      (Ret tt, [(incl 0 3, 1); (mkRI 4 9 true, 5)]).
  Proof. vm_compute. auto 10. Qed.

  (** ** C28, C29 *)
  Theorem C28_iter_valid_ascending : forall ops,
    ascendingi cmp (im_iter (run ops)) /\
    (forall r v, In (r, v) (im_iter (run ops)) -> valid r = true /\ (fresh_ops ops -> ri_exhausted r = false)).
  Proof. exact (any_valid HO HS HV). Qed.
  Theorem C28_iter_describes : forall ops,
    represents covers veqb (im_iter (run ops)) (spec ops) /\
    describes covers veqb (im_iter (run ops)) (spec ops).
  Proof. exact (any_describes HO HS HV). Qed.
  Theorem C29_iter_coalesced : forall ops, coalescedi cmp veqb (im_iter (run ops)).
  Proof. exact (any_coalesced HO HS HV). Qed.
  Theorem C29_between_equal_values : forall ops a b,
    In a (im_iter (run ops)) -> In b (im_iter (run ops)) ->
    ltb cmp (ri_end (fst a)) (ri_start (fst b)) = true -> veqb (snd a) (snd b) = true ->
    exists k, ltb cmp (ri_end (fst a)) k = true /\ ltb cmp k (ri_start (fst b)) = true /\
      forall r w, In (r, w) (im_iter (run ops)) -> covers r k = true -> veqb (snd a) w = false.
  Proof. exact (any_between HO HS HV). Qed.

  Example C28_C29_example :
    ascendingi Z.compare (im_iter (zrun zops)) /\ length (im_iter (zrun zops)) = 5%nat /\
    In (incl 40 59, 3) (im_iter (zrun zops)).
  Proof. rewrite zops_run. split; [repeat constructor|]. cbn. auto 10. Qed.

  (** ** C30, C31 *)
  Theorem C30_lookup_iff_iter : forall ops k r v, fresh_ops ops ->
    im_get_key_value cmp (run ops) k = Ret (Some (r, v)) <->
    In (r, v) (im_iter (run ops)) /\ covers r k = true.
  Proof. exact (iget_iff HO HS HV). Qed.
  Theorem C30_lookup_none : forall ops k, fresh_ops ops ->
    im_get_key_value cmp (run ops) k = Ret None <->
    (forall r v, In (r, v) (im_iter (run ops)) -> covers r k = false).
  Proof. exact (iget_none HO HS HV). Qed.
  (** with exhausted ranges: such a range does not contain its end *)
  Theorem C30_lookup_iff_iter_any_range : forall ops k r v,
    im_get_key_value cmp (run ops) k = Ret (Some (r, v)) <->
    In (r, v) (im_iter (run ops)) /\ covers r k = true /\ (ri_exhausted r = true -> eqb cmp k (ri_end r) = false).
  Proof. exact (any_lookup HO HS HV). Qed.
  Theorem C30_lookup_none_any_range : forall ops k,
    im_get_key_value cmp (run ops) k = Ret None <->
    (forall r v, In (r, v) (im_iter (run ops)) ->
       ~ (covers r k = true /\ (ri_exhausted r = true -> eqb cmp k (ri_end r) = false))).
  Proof. exact (any_lookup_none HO HS HV). Qed.
  Theorem C30_lookups_agree : forall ops k, exists o,
    im_get_key_value cmp (run ops) k = Ret o /\
    im_get cmp (run ops) k = Ret (option_map snd o) /\
    im_contains_key cmp (run ops) k = Ret (match o with Some _ => true | None => false end).
  Proof. exact (any_lookups_agree). Qed.
  Theorem C30_unique : forall ops k r v r' v',
    In (r, v) (im_iter (run ops)) -> In (r', v') (im_iter (run ops)) ->
    covers r k = true -> covers r' k = true -> (r, v) = (r', v').
  Proof. exact (any_unique HO HS HV). Qed.
  Theorem C31_maximal_run : forall ops k r v r', fresh_ops ops ->
    im_get_key_value cmp (run ops) k = Ret (Some (r, v)) ->
    leb cmp (ri_start r') (ri_start r) = true -> leb cmp (ri_end r) (ri_end r') = true ->
    (forall k', covers r' k' = true -> covers r k' = false ->
       exists w, im_get cmp (run ops) k' = Ret (Some w) /\ veqb v w = true) ->
    eqb cmp (ri_start r') (ri_start r) = true /\ eqb cmp (ri_end r') (ri_end r) = true.
  Proof. exact (irun_maximal HO HS HV). Qed.
  Theorem C31_run_constant : forall ops k r v k', fresh_ops ops ->
    im_get_key_value cmp (run ops) k = Ret (Some (r, v)) -> covers r k' = true ->
    im_get cmp (run ops) k' = Ret (Some v).
  Proof. exact (irun_constant HO HS HV). Qed.

  Example C30_C31_example :
    im_get_key_value Z.compare (zrun zops) 45 = Ret (Some (incl 40 59, 3)) /\
    im_get_key_value Z.compare (zrun zops) 9 = Ret None /\
    im_contains_key Z.compare (zrun zops) 59 = Ret true /\
    let m := zrun [OInsert (mkRI 0 3 true) 1] in
    map (im_get_key_value Z.compare m) [2; 3] = [Ret (Some (mkRI 0 3 true, 1)); Ret None].
  Proof. vm_compute. auto. Qed.

  (** ** C32, C33 ([V: Eq]) *)
  Theorem C32_eq_extensional : (forall v, veqb v v = true) -> forall ops1 ops2,
    fresh_ops ops1 -> fresh_ops ops2 ->
    im_eqb cmp veqb (run ops1) (run ops2) = true <->
    (forall k, same_opt veqb (spec ops1 k) (spec ops2 k)).
  Proof. exact (irun_eqb_spec HO HS HV). Qed.
  Theorem C32_eq_observational : (forall v, veqb v v = true) -> forall ops1 ops2,
    fresh_ops ops1 -> fresh_ops ops2 ->
    im_eqb cmp veqb (run ops1) (run ops2) = true <->
    (forall k, exists a b, im_get cmp (run ops1) k = Ret a /\ im_get cmp (run ops2) k = Ret b /\
       same_opt veqb a b).
  Proof. exact (irun_eqb_get HO HS HV). Qed.

  Example C32_example :
    im_eqb Z.compare Z.eqb (zrun zops)
      (zrun [OInsert (incl 40 59) 3; OInsert (incl 0 7) 1; OInsert (incl 4 5) 2; OInsert (incl 12 19) 2]) = true /\
    im_eqb Z.compare Z.eqb (zrun zops) (zrun (zops ++ [OInsert (incl 7 7) 2])) = false.
  Proof. vm_compute. auto. Qed.

  Theorem C33_insert_idempotent : (forall v, veqb v v = true) -> forall ops r v,
    fresh_ops ops -> ri_exhausted r = false ->
    im_eqb cmp veqb (run (ops ++ [OInsert r v; OInsert r v])) (run (ops ++ [OInsert r v])) = true.
  Proof. exact (ilaw_insert_insert HO HS HV). Qed.
  Theorem C33_remove_idempotent : (forall v, veqb v v = true) -> forall ops r, fresh_ops ops ->
    im_eqb cmp veqb (run (ops ++ [ORemove r; ORemove r])) (run (ops ++ [ORemove r])) = true.
  Proof. exact (ilaw_remove_remove HO HS HV). Qed.
  Theorem C33_insert_then_remove : (forall v, veqb v v = true) -> forall ops r v,
    fresh_ops ops -> ri_exhausted r = false ->
    im_eqb cmp veqb (run (ops ++ [OInsert r v; ORemove r])) (run (ops ++ [ORemove r])) = true.
  Proof. exact (ilaw_insert_remove HO HS HV). Qed.
  Theorem C33_remove_then_insert : (forall v, veqb v v = true) -> forall ops r v,
    fresh_ops ops -> ri_exhausted r = false ->
    im_eqb cmp veqb (run (ops ++ [ORemove r; OInsert r v])) (run (ops ++ [OInsert r v])) = true.
  Proof. exact (ilaw_remove_insert HO HS HV). Qed.
  Theorem C33_covered_insert_invisible : (forall v, veqb v v = true) -> forall ops r1 v1 r2 v2,
    fresh_ops ops -> ri_exhausted r1 = false -> ri_exhausted r2 = false ->
    (forall k, covers r1 k = true -> covers r2 k = true) ->
    im_eqb cmp veqb (run (ops ++ [OInsert r1 v1; OInsert r2 v2])) (run (ops ++ [OInsert r2 v2])) = true.
  Proof. exact (ilaw_covered HO HS HV). Qed.
  Theorem C33_disjoint_inserts_commute : (forall v, veqb v v = true) -> forall ops r1 v1 r2 v2,
    fresh_ops ops -> ri_exhausted r1 = false -> ri_exhausted r2 = false ->
    (forall k, covers r1 k = true -> covers r2 k = true -> False) ->
    im_eqb cmp veqb (run (ops ++ [OInsert r1 v1; OInsert r2 v2]))
                    (run (ops ++ [OInsert r2 v2; OInsert r1 v1])) = true.
  Proof. exact (ilaw_commute HO HS HV). Qed.
  Theorem C33_disjoint_insert_remove_commute : (forall v, veqb v v = true) -> forall ops r1 v1 r2,
    fresh_ops ops -> ri_exhausted r1 = false ->
    (forall k, covers r1 k = true -> covers r2 k = true -> False) ->
    im_eqb cmp veqb (run (ops ++ [OInsert r1 v1; ORemove r2]))
                    (run (ops ++ [ORemove r2; OInsert r1 v1])) = true.
  Proof. exact (ilaw_commute_mixed HO HS HV). Qed.
  Theorem C33_removes_commute : (forall v, veqb v v = true) -> forall ops r1 r2, fresh_ops ops ->
    im_eqb cmp veqb (run (ops ++ [ORemove r1; ORemove r2]))
                    (run (ops ++ [ORemove r2; ORemove r1])) = true.
  Proof. exact (ilaw_commute_remove HO HS HV). Qed.

  (** without [V: Eq]: no lookup tells the two sides apart *)
  Notation look ops a b := (forall k, exists x y, im_get cmp (run (ops ++ a)) k = Ret x /\
    im_get cmp (run (ops ++ b)) k = Ret y /\ same_opt veqb x y).
  Theorem C33_laws_observed : forall ops r v r' v',
    fresh_ops ops -> ri_exhausted r = false -> ri_exhausted r' = false ->
    look ops [OInsert r v; OInsert r v] [OInsert r v] /\
    look ops [ORemove r; ORemove r] [ORemove r] /\
    look ops [OInsert r v; ORemove r] [ORemove r] /\
    look ops [ORemove r; OInsert r v] [OInsert r v] /\
    look ops [ORemove r; ORemove r'] [ORemove r'; ORemove r] /\
    ((forall k, covers r k = true -> covers r' k = true) ->
     look ops [OInsert r v; OInsert r' v'] [OInsert r' v']) /\
    ((forall k, covers r k = true -> covers r' k = true -> False) ->
     look ops [OInsert r v; OInsert r' v'] [OInsert r' v'; OInsert r v] /\
     look ops [OInsert r v; ORemove r'] [ORemove r'; OInsert r v]).
  Proof. exact (ilaws_get HO HS HV). Qed.

  Example C33_example :
    (forall v, Z.eqb v v = true) /\
    (forall k, in_rangei Z.compare (incl 2 4) k = true -> in_rangei Z.compare (incl 1 4) k = true) /\
    (forall k, in_rangei Z.compare (incl 2 4) k = true -> in_rangei Z.compare (incl 5 8) k = true -> False) /\
    fresh_ops [OInsert (incl 2 4) 7; OInsert (incl 5 8) 7] /\
    zrun (zops ++ [OInsert (incl 2 4) 7; OInsert (incl 5 8) 7]) =
    zrun (zops ++ [OInsert (incl 5 8) 7; OInsert (incl 2 4) 7]).
  Proof. exact icommute_example. Qed.

  (** ** C34, C35: the draining theorem says [Ret] for every call of [next], so
      no step function is called where there is no neighbour *)
  Theorem C34_gaps_exact : forall ops outer,
    exists g gs, im_gaps cmp (run ops) outer = Ret g /\
      (forall n, nexts_m (gpi_next cmp st) n g = map Ret (yields n gs)) /\
      gapsi_of cmp (spec ops) outer gs.
  Proof. exact (any_gaps HO HS HV). Qed.
  Theorem C34_gaps_maximal : forall (f : K -> option V) outer gs, gapsi_of cmp f outer gs ->
    forall g r', In g gs ->
      leb cmp (ri_start r') (ri_start g) = true -> leb cmp (ri_end g) (ri_end r') = true ->
      (forall k, covers r' k = true -> covers outer k = true /\ f k = None) ->
      eqb cmp (ri_start r') (ri_start g) = true /\ eqb cmp (ri_end r') (ri_end g) = true.
  Proof. exact (gapsi_maximal HO HS). Qed.
  Theorem C35_gaps_never_step_out : forall ops outer n,
    exists g, im_gaps cmp (run ops) outer = Ret g /\
      forall o, In o (nexts_m (gpi_next cmp st) n g) -> exists x, o = Ret x.
  Proof. exact (any_gaps_ret HO HS HV). Qed.
  Theorem C35_gaps_of_backward : forall ops outer, valid outer = false ->
    exists g, im_gaps cmp (run ops) outer = Ret g /\
      forall n, nexts_m (gpi_next cmp st) n g = repeat (Ret None) n.
  Proof. exact (any_gaps_empty HO HS HV). Qed.

  Example C34_C35_example : exists g g',
    im_gaps Z.compare (zrun zops) (incl 5 69) = Ret g /\
    nexts_m (gpi_next Z.compare zst) 5 g =
      map Ret [Some (incl 8 11); Some (incl 20 39); Some (incl 60 69); None; None] /\
    valid_rangei Z.compare (incl 9 8) = false /\
    (* an outer range covering all of u8, with both extremes covered and uncovered *)
    im_gaps (icmp u8) (u8run Checked u8_ops) (incl (b8 0) (b8 255)) = Ret g' /\
    nexts_m (gpi_next (icmp u8) (int_steps Checked u8)) 3 g' =
      map Ret [Some (incl (b8 0) (b8 3)); None; None].
  Proof. do 2 eexists. vm_compute. auto 10. Qed.

  (** ** C36, C37 *)
  Theorem C36_overlapping_schedules : forall ops q sched,
    exists o, im_overlapping cmp (run ops) q = Ret o /\
      map fst (sched_trace (both (ovi_next cmp) (ovi_next_back cmp)) (fun _ => tt) sched o) =
      deque_run sched (filter (fun e => meetsi cmp q (fst e)) (im_iter (run ops))).
  Proof. exact (any_overlapping HO HS HV). Qed.
  Theorem C36_meets_is_sharing_a_key : forall ops q, valid q = true ->
    forall e, In e (im_iter (run ops)) ->
    meetsi cmp q (fst e) = true <-> exists k, covers q k = true /\ covers (fst e) k = true.
  Proof. exact (any_meets HO HS HV). Qed.
  Theorem C36_overlaps_exact : forall ops q, fresh_ops ops -> valid q = true ->
    exists b, im_overlaps cmp (run ops) q = Ret b /\
      (b = true <-> exists k, covers q k = true /\ im_contains_key cmp (run ops) k = Ret true).
  Proof. exact (ioverlaps_exact HO HS HV). Qed.
  Theorem C37_overlaps_any_query : forall ops q,
    im_overlaps cmp (run ops) q = Ret (existsb (fun e => meetsi cmp q (fst e)) (im_iter (run ops))).
  Proof. exact (any_overlaps HO HS HV). Qed.
  (** "A query without keys overlaps nothing" is false. *)
  Theorem C37_backward_query_refuted :
    exists (ops : list (op (rangei Z) Z)) (q : rangei Z), fresh_ops ops /\
      (forall k, in_rangei Z.compare q k = false) /\ im_overlaps Z.compare (zrun ops) q = Ret true.
  Proof. exists [OInsert (incl 0 10) 1], (incl 7 3). exact (conj eq_refl ibackward_query_witness). Qed.

  Example C36_example : exists o,
    im_overlapping Z.compare (zrun zops) (incl 5 40) = Ret o /\
    map fst (sched_trace (both (ovi_next Z.compare) (ovi_next_back Z.compare)) (fun _ => tt)
      [Back; Front; Back; Front; Front; Back] o) =
    [Some (incl 40 59, 3); Some (incl 4 5, 2); Some (incl 12 19, 2); Some (incl 6 7, 1); None; None].
  Proof. eexists. vm_compute. auto. Qed.
  (** with a flag in the map: the entry itself is yielded *)
  Example C36_flag_example : exists o,
    im_overlapping Z.compare (zrun (zops ++ [OInsert (mkRI 6 10 true) 4])) (mkRI 5 12 true) = Ret o /\
    map fst (sched_trace (both (ovi_next Z.compare) (ovi_next_back Z.compare)) (fun _ => tt)
      [Back; Back; Front; Front] o) =
    [Some (incl 12 19, 2); Some (mkRI 6 10 true, 4); Some (incl 4 5, 2); None].
  Proof. eexists. vm_compute. auto. Qed.

  (** ** C38: exhausted ranges.  "Inserting [r] makes every key between its ends
      present" is false without [ri_exhausted r = false]; the map then also has
      [cmp] [Equal] but [==] false against the map with the fresh range. *)
  Theorem C38_exhausted_insert_refuted :
    exists (r : rangei Z) k, valid_rangei Z.compare r = true /\ in_rangei Z.compare r k = true /\
      fst (im_insert Z.compare Z.eqb zst r 1 im_new) = Ret tt /\
      im_len (zrun [OInsert r 1]) = 1%nat /\
      im_get Z.compare (zrun [OInsert r 1]) k = Ret None.
  Proof. exists (mkRI 5 5 true), 5. vm_compute. auto 10. Qed.
  Theorem C38_exhausted_eq_ord_refuted :
    exists ops1 ops2 : list (op (rangei Z) Z),
      im_cmp Z.compare Z.compare (zrun ops1) (zrun ops2) = Eq /\
      im_eqb Z.compare Z.eqb (zrun ops1) (zrun ops2) = false.
  Proof. exists [OInsert (mkRI 5 5 true) 1], [OInsert (incl 5 5) 1]. vm_compute. auto. Qed.

  (** "[remove] only takes keys away" is false for them as well: cutting the
      entry renews its last part *)
  Theorem C38_exhausted_remove_refuted :
    exists (ops : list (op (rangei Z) Z)) r k, in_rangei Z.compare r k = false /\
      im_get Z.compare (zrun ops) k = Ret None /\
      im_get Z.compare (zrun (ops ++ [ORemove r])) k = Ret (Some 3).
  Proof. exists [OInsert (mkRI 40 50 true) 3], (incl 45 46), 50. vm_compute. auto. Qed.
  (** What exhausted ranges do in general: updates and range queries work as
      with the same ranges not iterated ([freshen]); the outcome of a call is
      the same too. *)
  Theorem C38_updates_ignore_flag : forall ops o,
    run (map freshen_op ops) = map freshen_entry (run ops) /\
    fst (im_exec cmp veqb st (freshen_op o) (run (map freshen_op ops))) = fst (im_exec cmp veqb st o (run ops)).
  Proof. exact (fun ops o => conj (x_run ops) (eq_trans (f_equal _ (f_equal _ (x_run ops))) (x_outcome o (run ops)))). Qed.
  Theorem C38_queries_ignore_flag : forall ops q,
    (exists o o', im_overlapping cmp (run ops) q = Ret o /\
      im_overlapping cmp (run (map freshen_op ops)) (freshen q) = Ret o' /\
      forall sched, sched_trace (both (ovi_next cmp) (ovi_next_back cmp)) (fun _ => tt) sched o' =
        map (fun x => (option_map freshen_entry (fst x), snd x))
            (sched_trace (both (ovi_next cmp) (ovi_next_back cmp)) (fun _ => tt) sched o)) /\
    (exists g g', im_gaps cmp (run ops) q = Ret g /\ im_gaps cmp (run (map freshen_op ops)) (freshen q) = Ret g' /\
      forall n, nexts_m (gpi_next cmp st) n g' = nexts_m (gpi_next cmp st) n g).
  Proof. exact (fun ops q => conj (x_overlapping_all ops q) (x_gaps_all ops q)). Qed.
  Theorem C38_cmp_ignores_flag : forall vcmp ops1 ops2,
    im_cmp cmp vcmp (run ops1) (run ops2) =
    im_cmp cmp vcmp (run (map freshen_op ops1)) (run (map freshen_op ops2)).
  Proof. intros vcmp ops1 ops2. rewrite !x_run. symmetry. apply x_cmp. Qed.
  (** Lookups work the same too, except that the last key of an exhausted range
      that is stored as such is not found. *)
  Theorem C38_lookup : forall ops k,
    ((exists e, In e (im_iter (run ops)) /\ ri_exhausted (fst e) = true /\ eqb cmp k (ri_end (fst e)) = true) ->
     im_get_key_value cmp (run ops) k = Ret None) /\
    ((forall e, In e (im_iter (run ops)) -> ri_exhausted (fst e) = true -> eqb cmp k (ri_end (fst e)) = false) ->
     im_get_key_value cmp (run (map freshen_op ops)) k =
     omap (option_map freshen_entry) (im_get_key_value cmp (run ops) k)).
  Proof. exact (x_get HO HS HV). Qed.
  (** an exhausted range stored as such, one merged into its neighbour (and so
      fresh again), and one that was cut *)
  Example C38_example :
    let ops := [OInsert (mkRI 3 8 true) 1; OInsert (incl 20 25) 2; OInsert (mkRI 26 30 true) 2;
                OInsert (mkRI 40 50 true) 3; ORemove (mkRI 45 46 true)] in
    zrun ops = [(mkRI 3 8 true, 1); (incl 20 30, 2); (incl 40 44, 3); (incl 47 50, 3)] /\
    zrun (map freshen_op ops) = [(incl 3 8, 1); (incl 20 30, 2); (incl 40 44, 3); (incl 47 50, 3)] /\
    map (im_get Z.compare (zrun ops)) [7; 8; 30; 50] = [Ret (Some 1); Ret None; Ret (Some 2); Ret (Some 3)] /\
    im_get Z.compare (zrun (map freshen_op ops)) 8 = Ret (Some 1).
  Proof. vm_compute. auto. Qed.

  (** ** C39 *)
  Theorem C39_first_last : forall ops,
    match im_first_range_value (run ops), im_last_range_value (run ops) with
    | None, None => im_is_empty (run ops) = true
    | Some a, Some b =>
        In a (im_iter (run ops)) /\ In b (im_iter (run ops)) /\
        (forall x, In x (im_iter (run ops)) ->
           (x = a \/ ltb cmp (ri_end (fst a)) (ri_start (fst x)) = true) /\
           (x = b \/ ltb cmp (ri_end (fst x)) (ri_start (fst b)) = true)) /\
        (forall k, spec ops k <> None ->
           covers (incl (ri_start (fst a)) (ri_end (fst b))) k = true)
    | _, _ => False
    end.
  Proof. exact (any_first_last HO HS HV). Qed.
  Theorem C39_iter_schedules : forall ops sched,
    sched_trace (both it_next it_next_back) it_size_hint sched (im_iter (run ops)) =
      sched_trace deque_step (fun r => (length r, Some (length r))) sched (im_iter (run ops)) /\
    sched_trace (both it_next it_next_back) it_size_hint sched (im_into_iter (run ops)) =
      sched_trace deque_step (fun r => (length r, Some (length r))) sched (im_iter (run ops)).
  Proof. exact (fun ops sched => conj (iter_schedule _ sched) (iter_schedule _ sched)). Qed.
  Theorem C39_len_empty : forall ops, fresh_ops ops ->
    nexts it_next (im_len (run ops)) (im_iter (run ops)) = map Some (im_iter (run ops)) /\
    (im_is_empty (run ops) = true <-> im_len (run ops) = 0%nat) /\
    (im_is_empty (run ops) = true <-> forall k, im_contains_key cmp (run ops) k = Ret false) /\
    im_is_empty (run (ops ++ [OClear])) = true.
  Proof. exact (ilen_empty HO HS HV). Qed.

  Example C39_example :
    im_first_range_value (zrun zops) = Some (incl 0 3, 1) /\
    im_last_range_value (zrun zops) = Some (incl 40 59, 3) /\
    im_len (zrun zops) = 5%nat /\
    sched_trace (both it_next it_next_back) it_size_hint [Back; Front] (im_iter (zrun zops)) =
      [(Some (incl 40 59, 3), (4%nat, Some 4%nat)); (Some (incl 0 3, 1), (3%nat, Some 3%nat))].
  Proof. vm_compute. auto. Qed.

  (** ** C40 *)
  Theorem C40_extend_is_inserts : forall ops good bad,
    (forall e, In e good -> valid (fst e) = true) ->
    match bad with [] => True | e :: _ => valid (fst e) = false end ->
    im_extend cmp veqb st (good ++ bad) (run ops) =
      (match bad with [] => Ret tt | _ => Panicked PAssert end, run (ops ++ ins good)).
  Proof. exact (fun ops good => any_extend HO HS HV good ops). Qed.
  Theorem C40_from_iter_is_inserts : forall good bad,
    (forall e, In e good -> valid (fst e) = true) ->
    match bad with [] => True | e :: _ => valid (fst e) = false end ->
    im_from_iter cmp veqb st (good ++ bad) =
      match bad with [] => Ret (run (ins good)) | _ => Panicked PAssert end.
  Proof. exact (any_from_iter HO HS HV). Qed.
  Theorem C40_from_array_is_inserts : forall good bad,
    (forall e, In e good -> valid (fst e) = true) ->
    match bad with [] => True | e :: _ => valid (fst e) = false end ->
    im_from_array cmp veqb st (good ++ bad) =
      match bad with [] => Ret (run (ins good)) | _ => Panicked PAssert end.
  Proof. exact (any_from_array HO HS HV). Qed.

  Example C40_example :
    im_from_array Z.compare Z.eqb zst [(incl 0 5, 1); (incl 3 8, 2)] = Ret [(incl 0 2, 1); (incl 3 8, 2)] /\
    im_from_iter Z.compare Z.eqb zst [(incl 0 5, 1); (incl 8 3, 2)] = Panicked PAssert.
  Proof. vm_compute. auto. Qed.

  (** ** C41 *)
  Theorem C41_round_trip : forall (E : Type) ops, fresh_ops ops ->
    im_deserialize (E := E) cmp veqb st (map inr (snd (im_serialize (run ops)))) = Ret (inr (run ops)) /\
    fst (im_serialize (run ops)) = Some (length (snd (im_serialize (run ops)))).
  Proof. exact (irun_round_trip HO HS HV). Qed.
  Theorem C41_deserialize_any_input : forall (E : Type) good (rest : list (E + (K * K) * V)),
    (forall s e v, In (s, e, v) good -> leb cmp s e = true) ->
    match rest with inr ((s, e), v) :: _ => leb cmp s e = false | _ => True end ->
    im_deserialize cmp veqb st (map inr good ++ rest) =
    match rest with
    | [] => Ret (inr (run (map (fun x => OInsert (incl (fst (fst x)) (snd (fst x))) (snd x)) good)))
    | inl err :: _ => Ret (inl err)
    | inr _ :: _ => Panicked PAssert
    end.
  Proof. exact (irun_deserialize HO HS HV). Qed.

  Example C41_example :
    snd (im_serialize (zrun zops)) = [((0, 3), 1); ((4, 5), 2); ((6, 7), 1); ((12, 19), 2); ((40, 59), 3)] /\
    im_deserialize Z.compare Z.eqb zst [inr ((0, 4), 1); inr ((2, 6), 2); inl true; inr ((9, 8), 1)] = Ret (inl true) /\
    im_deserialize (E := bool) Z.compare Z.eqb zst [inr ((0, 4), 1); inr ((9, 8), 1); inl true] = Panicked PAssert.
  Proof. vm_compute. auto. Qed.

  (** ** C42 *)
  Theorem C42_hash_consistent : forall (T : Type) (hk : K -> list T) (hb : bool -> list T) (hv : V -> list T),
    (forall x y, eqb cmp x y = true -> hk x = hk y) ->
    (forall x y, veqb x y = true -> hv x = hv y) ->
    forall ops1 ops2, im_eqb cmp veqb (run ops1) (run ops2) = true ->
      im_hash hk hb hv (run ops1) = im_hash hk hb hv (run ops2).
  Proof. exact (fun T hk hb hv Hk Hv ops1 ops2 => ihash_eq hk hb hv _ _ Hk Hv). Qed.
  Theorem C42_hash_separates : forall (T : Type) (hk : K -> list T) (hb : bool -> list T) (hv : V -> list T),
    (forall x y s t, hk x ++ s = hk y ++ t -> eqb cmp x y = true /\ hk x = hk y) ->
    (forall x y s t, hb x ++ s = hb y ++ t -> x = y) ->
    (forall x y s t, hv x ++ s = hv y ++ t -> veqb x y = true /\ hv x = hv y) ->
    forall ops1 ops2 s t, im_hash hk hb hv (run ops1) ++ s = im_hash hk hb hv (run ops2) ++ t ->
      im_eqb cmp veqb (run ops1) (run ops2) = true /\ im_hash hk hb hv (run ops1) = im_hash hk hb hv (run ops2).
  Proof. exact (fun T hk hb hv Hk Hb Hv ops1 ops2 => ihash_inj hk hb hv _ _ Hk Hb Hv). Qed.
  Theorem C42_ord_lawful : forall vcmp : V -> V -> comparison, TotalOrd vcmp ->
    (forall x y, vcmp x y = Eq <-> veqb x y = true) ->
    TotalOrd (@im_cmp K V cmp vcmp) /\
    (forall ops1 ops2, fresh_ops ops1 -> fresh_ops ops2 ->
       (im_cmp cmp vcmp (run ops1) (run ops2) = Eq <-> im_eqb cmp veqb (run ops1) (run ops2) = true) /\
       (im_cmp cmp vcmp (run ops1) (run ops2) = Eq <-> forall k, same_opt veqb (spec ops1 k) (spec ops2 k))).
  Proof. exact (irun_ord HO HS HV). Qed.
  Theorem C42_partial_cmp : forall (vcmp : V -> V -> comparison) pcmp vpcmp,
    (forall x y, pcmp x y = Some (cmp x y)) -> (forall x y, vpcmp x y = Some (vcmp x y)) ->
    forall ops1 ops2, im_partial_cmp pcmp vpcmp (run ops1) (run ops2) =
      Some (im_cmp cmp vcmp (run ops1) (run ops2)).
  Proof. exact (fun vcmp pcmp vpcmp H1 H2 ops1 ops2 => im_partial_cmp_total vcmp pcmp vpcmp _ _ H1 H2). Qed.

  Example C42_example :
    (forall x y (s t : list Z), [x] ++ s = [y] ++ t -> eqb Z.compare x y = true /\ [x] = [y]) /\
    (forall x y (s t : list Z), [Z.b2z x] ++ s = [Z.b2z y] ++ t -> x = y) /\
    (forall x y, Z.compare x y = Eq <-> Z.eqb x y = true) /\
    im_cmp Z.compare Z.compare (zrun zops) (zrun [OInsert (incl 0 3) 1]) = Gt /\
    im_cmp Z.compare Z.compare (zrun [OInsert (incl 0 3) 1]) (zrun [OInsert (incl 0 4) 0]) = Lt.
  Proof. exact ihash_ord_example. Qed.

  (** ** C43: only neighbours that exist are ever asked for.  The maps are
      identical for arbitrary histories, whatever the laws. *)
  Theorem C43_updates_step_independent : forall st1 st2 : stepfns K,
    (forall x y, ltb cmp x y = true -> add_one st1 x = add_one st2 x) ->
    (forall x y, ltb cmp y x = true -> sub_one st1 x = sub_one st2 x) ->
    (forall ops, im_run cmp veqb st1 ops = im_run cmp veqb st2 ops) /\
    (forall r v m, im_insert cmp veqb st1 r v m = im_insert cmp veqb st2 r v m) /\
    (forall r (m : imap K V), im_remove cmp st1 r m = im_remove cmp st2 r m) /\
    (forall (E : Type) (l : list (E + (K * K) * V)),
       im_deserialize cmp veqb st1 l = im_deserialize cmp veqb st2 l).
  Proof.
    exact (fun st1 st2 H1 H2 => conj (run_agree H1 H2) (conj (insert_agree H1 H2)
      (conj (remove_agree H1 H2) (fun E => deserialize_agree H1 H2)))).
  Qed.
  Theorem C43_gaps_step_independent : forall st2 : stepfns K,
    (forall x y, ltb cmp x y = true -> add_one st x = add_one st2 x) ->
    (forall x y, ltb cmp y x = true -> sub_one st x = sub_one st2 x) ->
    forall ops outer,
    exists g, im_gaps cmp (run ops) outer = Ret g /\
      forall n, nexts_m (gpi_next cmp st) n g = nexts_m (gpi_next cmp st2) n g.
  Proof. exact (any_steps_gaps HO HS HV). Qed.
  (** the debug and release builds of every integer type *)
  Theorem C43_debug_release : forall t, 0 < i_bits t -> forall ops,
    im_run (icmp t) veqb (int_steps Checked t) ops = im_run (icmp t) veqb (int_steps Wrapping t) ops.
  Proof. exact (debug_release veqb). Qed.

  Example C43_example :
    option_map (@proj1_sig _ _) (add_one (int_steps Checked u8) (b8 255)) <>
    option_map (@proj1_sig _ _) (add_one (int_steps Wrapping u8) (b8 255)) /\
    u8_show (u8run Wrapping (u8_ops ++ [OInsert (incl (b8 255) (b8 255)) 2])) =
      [(4, 99, 1); (100, 110, 2); (111, 249, 1); (250, 255, 2)].
  Proof. vm_compute. split; [discriminate|reflexivity]. Qed.

  (** ** C44 *)
  Theorem C44_minimal : (forall v, veqb v v = true) -> forall ops l,
    describes covers veqb l (spec ops) -> (length (im_iter (run ops)) <= length l)%nat.
  Proof. exact (any_minimal HO HS HV). Qed.
  Theorem C44_growth : forall ops r v,
    (im_len (run (ops ++ [OInsert r v])) <= im_len (run ops) + 2)%nat /\
    (im_len (run (ops ++ [ORemove r])) <= im_len (run ops) + 1)%nat.
  Proof. exact (any_growth HO HS HV). Qed.

  Example C44_example :
    im_len (zrun ([OInsert (incl 0 9) 1] ++ [OInsert (incl 3 4) 2])) = 3%nat /\
    im_len (zrun ([OInsert (incl 0 9) 1] ++ [ORemove (incl 3 4)])) = 2%nat /\
    describes (in_rangei Z.compare) Z.eqb [(incl 0 4, 1); (incl 3 9, 1)]
      (spec_run (valid_rangei Z.compare) (in_rangei Z.compare) [OInsert (incl 0 9) 1]).
  Proof. exact iminimal_example. Qed.

  (** ** C66: updates leave entries away from their range alone *)
  Theorem C66_insert_frame : forall ops r v e,
    In e (im_iter (run ops)) ->
    (ltb cmp (ri_end (fst e)) (ri_start r) = true /\
       (veqb (snd e) v = false \/
        exists k, ltb cmp (ri_end (fst e)) k = true /\ ltb cmp k (ri_start r) = true)) \/
    (ltb cmp (ri_end r) (ri_start (fst e)) = true /\
       (veqb (snd e) v = false \/
        exists k, ltb cmp (ri_end r) k = true /\ ltb cmp k (ri_start (fst e)) = true)) ->
    In e (im_iter (run (ops ++ [OInsert r v]))).
  Proof. exact (any_insert_frame HO HS HV). Qed.
  Theorem C66_remove_frame : forall ops r e, In e (im_iter (run ops)) ->
    ltb cmp (ri_end (fst e)) (ri_start r) = true \/ ltb cmp (ri_end r) (ri_start (fst e)) = true ->
    In e (im_iter (run (ops ++ [ORemove r]))).
  Proof. exact (any_remove_frame HO HS HV). Qed.

  Example C66_example :
    nth 2 (im_iter (zrun zops)) (incl 0 0, 0) = (incl 6 7, 1) /\
    nth 2 (im_iter (zrun (zops ++ [OInsert (incl 8 14) 4]))) (incl 0 0, 0) = (incl 6 7, 1) /\
    nth 2 (im_iter (zrun (zops ++ [OInsert (incl 8 14) 1]))) (incl 0 0, 0) = (incl 6 14, 1).
  Proof. vm_compute. auto. Qed.

  (** ** C22, inclusive part *)
  Theorem C22_isorted_by_both_ends : forall ops,
    sorted_by (cmpi_start cmp) (im_iter (run ops)) /\ sorted_by (cmpi_end cmp) (im_iter (run ops)).
  Proof. exact (any_sorted HO HS HV). Qed.
  Theorem C22_iany_tree_shape : forall ops (t : tree (rangei K * V)), elems t = run ops ->
    forall c, c = cmpi_start cmp \/ c = cmpi_end cmp ->
    forall lo hi, bad_bounds c lo hi = false ->
      bt_range c lo hi (run ops) = Ret (tree_range c lo hi t).
  Proof. exact (any_tree_search HO HS HV). Qed.
End Props.

Print Assumptions C25_last_writer_wins.
Print Assumptions C25_last_writer_wins_exact.
Print Assumptions C25_insert_read_back.
Print Assumptions C26_insert_outcome.
Print Assumptions C27_remove_outcome.
Print Assumptions C26_insert_outcome_any_range.
Print Assumptions C27_remove_outcome_any_range.
Print Assumptions C28_iter_valid_ascending.
Print Assumptions C28_iter_describes.
Print Assumptions C29_iter_coalesced.
Print Assumptions C29_between_equal_values.
Print Assumptions C30_lookup_iff_iter.
Print Assumptions C30_lookup_none.
Print Assumptions C30_lookup_iff_iter_any_range.
Print Assumptions C30_lookup_none_any_range.
Print Assumptions C30_lookups_agree.
Print Assumptions C30_unique.
Print Assumptions C31_maximal_run.
Print Assumptions C31_run_constant.
Print Assumptions C32_eq_extensional.
Print Assumptions C32_eq_observational.
Print Assumptions C33_insert_idempotent.
Print Assumptions C33_remove_idempotent.
Print Assumptions C33_insert_then_remove.
Print Assumptions C33_remove_then_insert.
Print Assumptions C33_covered_insert_invisible.
Print Assumptions C33_disjoint_inserts_commute.
Print Assumptions C33_disjoint_insert_remove_commute.
Print Assumptions C33_removes_commute.
Print Assumptions C33_laws_observed.
Print Assumptions C34_gaps_exact.
Print Assumptions C34_gaps_maximal.
Print Assumptions C35_gaps_never_step_out.
Print Assumptions C35_gaps_of_backward.
Print Assumptions C36_overlapping_schedules.
Print Assumptions C36_meets_is_sharing_a_key.
Print Assumptions C36_overlaps_exact.
Print Assumptions C37_overlaps_any_query.
Print Assumptions C37_backward_query_refuted.
Print Assumptions C38_exhausted_insert_refuted.
Print Assumptions C38_exhausted_eq_ord_refuted.
Print Assumptions C38_exhausted_remove_refuted.
Print Assumptions C38_updates_ignore_flag.
Print Assumptions C38_queries_ignore_flag.
Print Assumptions C38_cmp_ignores_flag.
Print Assumptions C38_lookup.
Print Assumptions C39_first_last.
Print Assumptions C39_iter_schedules.
Print Assumptions C39_len_empty.
Print Assumptions C40_extend_is_inserts.
Print Assumptions C40_from_iter_is_inserts.
Print Assumptions C40_from_array_is_inserts.
Print Assumptions C41_round_trip.
Print Assumptions C41_deserialize_any_input.
Print Assumptions C42_hash_consistent.
Print Assumptions C42_hash_separates.
Print Assumptions C42_ord_lawful.
Print Assumptions C42_partial_cmp.
Print Assumptions C43_updates_step_independent.
Print Assumptions C43_gaps_step_independent.
Print Assumptions C43_debug_release.
Print Assumptions C44_minimal.
Print Assumptions C44_growth.
Print Assumptions C66_insert_frame.
Print Assumptions C66_remove_frame.
Print Assumptions C22_isorted_by_both_ends.
Print Assumptions C22_iany_tree_shape.
