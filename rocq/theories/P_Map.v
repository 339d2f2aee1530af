(** Properties of [RangeMap] (C01-C24, C64).  Statements only: every proof is a
    reference to a lemma.  [run ops] is the map reached by the history [ops]
    from the empty map; [spec ops] is the key -> value function the history
    describes (Spec.v). *)
From Coq Require Import List Bool Sorting.Sorted ZArith.
From Verif Require Import Order Outcome BTree SearchTree Ranges History Spec MapModel
  IterFacts MapProofs MapRemove MapFacts MapIter MapMore MapProps Instances.
Import ListNotations.

(** Example data *)
Local Open Scope Z_scope.
Notation zrun := (rm_run Z.compare Z.eqb).
Notation zops := ex_ops.
Example zops_run : zrun zops =
  [(mkR 0 4, 1); (mkR 4 6, 2); (mkR 6 8, 1); (mkR 12 20, 2); (mkR 40 60, 3)].
Proof. vm_compute. reflexivity. Qed.

Section Props.
  Context {K V : Type} {cmp : K -> K -> comparison} {veqb : V -> V -> bool}.
  Context (HO : TotalOrd cmp) (HV : PartialEquiv veqb).

  Notation run := (rm_run cmp veqb).
  Notation valid := (valid_range cmp).
  Notation covers := (in_range cmp).
  Notation spec := (spec_run (V := V) valid covers).
  Notation ins l := (map (fun e : range K * V => OInsert (fst e) (snd e)) l).

  (** ** C01 *)
  Theorem C01_last_writer_wins : forall ops k,
    exists o, rm_get cmp (run ops) k = Ret o /\ same_opt veqb o (spec ops k).
  Proof. exact (run_get_spec HO HV). Qed.
  (** with [==] being identity, exact equality *)
  Theorem C01_last_writer_wins_exact : (forall a b, veqb a b = true -> a = b) ->
    forall ops k, rm_get cmp (run ops) k = Ret (spec ops k).
  Proof. intros H ops k. exact (run_get_spec_eq HO HV ops k H). Qed.
  (** in any case the value just inserted is the one read back *)
  Theorem C01_insert_read_back : forall ops r v k,
    valid r = true -> covers r k = true ->
    rm_get cmp (run (ops ++ [OInsert r v])) k = Ret (Some v).
  Proof. exact (insert_get_exact HO HV). Qed.

  Example C01_example :
    TotalOrd Z.compare /\ PartialEquiv Z.eqb /\ (forall a b, Z.eqb a b = true -> a = b) /\
    map (rm_get Z.compare (zrun zops)) [-1; 3; 4; 7; 8; 12; 49; 59; 70] =
    map Ret [None; Some 1; Some 2; Some 1; None; Some 2; Some 3; Some 3; None].
  Proof. exact (conj Z_order (conj Z_per (conj (fun a b => proj1 (Z.eqb_eq a b)) eq_refl))). Qed.

  (** ** C02, C03 *)
  Theorem C02_insert_outcome : forall ops r v,
    if valid r
    then exists m', rm_insert cmp veqb r v (run ops) = (Ret tt, m') /\
           forall k, exists o, rm_get cmp m' k = Ret o /\
             same_opt veqb o (if covers r k then Some v else spec ops k)
    else rm_insert cmp veqb r v (run ops) = (Panicked PAssert, run ops).
  Proof. exact (insert_outcome HO HV). Qed.
  Theorem C03_remove_outcome : forall ops r,
    if valid r
    then exists m', rm_remove cmp r (run ops) = (Ret tt, m') /\
           forall k, exists o, rm_get cmp m' k = Ret o /\
             same_opt veqb o (if covers r k then None else spec ops k)
    else rm_remove cmp r (run ops) = (Panicked PAssert, run ops).
  Proof. exact (remove_outcome HO HV). Qed.

  Example C02_C03_example :
    fst (rm_insert Z.compare Z.eqb (mkR 7 13) 5 (zrun zops)) = Ret tt /\
    rm_insert Z.compare Z.eqb (mkR 7 7) 5 (zrun zops) = (Panicked PAssert, zrun zops) /\
    fst (rm_remove Z.compare (mkR 5 45) (zrun zops)) = Ret tt /\
    rm_remove Z.compare (mkR 7 6) (zrun zops) = (Panicked PAssert, zrun zops).
  Proof. vm_compute. auto. Qed.

  (** ** C04, C05 *)
  Theorem C04_iter_valid_ascending : forall ops,
    ascending cmp (rm_iter (run ops)) /\
    (forall r v, In (r, v) (rm_iter (run ops)) -> valid r = true).
  Proof. exact (iter_valid_ascending HO HV). Qed.
  Theorem C05_iter_coalesced : forall ops, coalesced cmp veqb (rm_iter (run ops)).
  Proof. exact (fun ops => WF_coalesced HO _ (run_WF HO HV ops)). Qed.
  Theorem C05_between_equal_values : forall ops a b,
    In a (rm_iter (run ops)) -> In b (rm_iter (run ops)) ->
    leb cmp (r_end (fst a)) (r_start (fst b)) = true -> veqb (snd a) (snd b) = true ->
    ltb cmp (r_end (fst a)) (r_start (fst b)) = true /\
    (rm_get cmp (run ops) (r_end (fst a)) = Ret None \/
     exists w, rm_get cmp (run ops) (r_end (fst a)) = Ret (Some w) /\ veqb (snd a) w = false).
  Proof. exact (run_between HO HV). Qed.
  (** the iterated entries describe exactly the history's function *)
  Theorem C04_iter_describes : forall ops,
    represents covers veqb (rm_iter (run ops)) (spec ops) /\
    describes covers veqb (rm_iter (run ops)) (spec ops).
  Proof. exact (iter_describes HO HV). Qed.

  Example C04_C05_example :
    ascending Z.compare (rm_iter (zrun zops)) /\ length (rm_iter (zrun zops)) = 5%nat /\
    In (mkR 40 60, 3) (rm_iter (zrun zops)).
  Proof. rewrite zops_run. split; [repeat constructor|]. cbn. auto 10. Qed.

  (** ** C06, C07 *)
  Theorem C06_lookup_iff_iter : forall ops k r v,
    rm_get_key_value cmp (run ops) k = Ret (Some (r, v)) <->
    In (r, v) (rm_iter (run ops)) /\ covers r k = true.
  Proof. exact (fun ops k r v => get_key_value_iff HO _ k r v (run_WF HO HV ops)). Qed.
  Theorem C06_lookup_none : forall ops k,
    rm_get_key_value cmp (run ops) k = Ret None <->
    (forall r v, In (r, v) (rm_iter (run ops)) -> covers r k = false).
  Proof. exact (fun ops k => get_key_value_none HO _ k (run_WF HO HV ops)). Qed.
  Theorem C06_lookups_agree : forall ops k, exists o,
    rm_get_key_value cmp (run ops) k = Ret o /\
    rm_get cmp (run ops) k = Ret (option_map snd o) /\
    rm_contains_key cmp (run ops) k = Ret (match o with Some _ => true | None => false end).
  Proof. exact (fun ops k => get_total HO _ k (run_WF HO HV ops)). Qed.
  Theorem C06_unique : forall ops k r v r' v',
    In (r, v) (rm_iter (run ops)) -> In (r', v') (rm_iter (run ops)) ->
    covers r k = true -> covers r' k = true -> (r, v) = (r', v').
  Proof. exact (iter_unique HO HV). Qed.

  Theorem C07_maximal_run : forall ops k r v r',
    rm_get_key_value cmp (run ops) k = Ret (Some (r, v)) ->
    leb cmp (r_start r') (r_start r) = true -> leb cmp (r_end r) (r_end r') = true ->
    (forall k', covers r' k' = true -> covers r k' = false ->
       exists w, rm_get cmp (run ops) k' = Ret (Some w) /\ veqb v w = true) ->
    eqb cmp (r_start r') (r_start r) = true /\ eqb cmp (r_end r') (r_end r) = true.
  Proof. exact (run_maximal HO HV). Qed.
  Theorem C07_run_constant : forall ops k r v k',
    rm_get_key_value cmp (run ops) k = Ret (Some (r, v)) -> covers r k' = true ->
    rm_get cmp (run ops) k' = Ret (Some v).
  Proof. exact (run_constant HO HV). Qed.

  Example C06_C07_example :
    rm_get_key_value Z.compare (zrun zops) 45 = Ret (Some (mkR 40 60, 3)) /\
    rm_get_key_value Z.compare (zrun zops) 9 = Ret None /\
    rm_contains_key Z.compare (zrun zops) 45 = Ret true.
  Proof. vm_compute. auto. Qed.

  (** ** C08, C09 ([V: Eq]) *)
  Theorem C08_eq_extensional : (forall v, veqb v v = true) -> forall ops1 ops2,
    rm_eqb cmp veqb (run ops1) (run ops2) = true <->
    (forall k, same_opt veqb (spec ops1 k) (spec ops2 k)).
  Proof. exact (run_eqb_spec HO HV). Qed.
  Theorem C08_eq_observational : (forall v, veqb v v = true) -> forall ops1 ops2,
    rm_eqb cmp veqb (run ops1) (run ops2) = true <->
    (forall k, exists a b, rm_get cmp (run ops1) k = Ret a /\ rm_get cmp (run ops2) k = Ret b /\
       same_opt veqb a b).
  Proof. exact (run_eqb_get HO HV). Qed.

  Example C08_example :
    rm_eqb Z.compare Z.eqb (zrun zops)
      (zrun [OInsert (mkR 40 60) 3; OInsert (mkR 0 8) 1; OInsert (mkR 4 6) 2; OInsert (mkR 12 20) 2]) = true /\
    rm_eqb Z.compare Z.eqb (zrun zops) (zrun (zops ++ [OInsert (mkR 7 8) 2])) = false.
  Proof. vm_compute. auto. Qed.

  Theorem C09_insert_idempotent : (forall v, veqb v v = true) -> forall ops r v,
    rm_eqb cmp veqb (run (ops ++ [OInsert r v; OInsert r v])) (run (ops ++ [OInsert r v])) = true.
  Proof. exact (fun H ops r v => law HO HV H ops _ _ (law_insert_insert r v)). Qed.
  Theorem C09_remove_idempotent : (forall v, veqb v v = true) -> forall ops r,
    rm_eqb cmp veqb (run (ops ++ [ORemove r; ORemove r])) (run (ops ++ [ORemove r])) = true.
  Proof. exact (fun H ops r => law HO HV H ops _ _ (law_remove_remove r)). Qed.
  Theorem C09_insert_then_remove : (forall v, veqb v v = true) -> forall ops r v,
    rm_eqb cmp veqb (run (ops ++ [OInsert r v; ORemove r])) (run (ops ++ [ORemove r])) = true.
  Proof. exact (fun H ops r v => law HO HV H ops _ _ (law_insert_remove r v)). Qed.
  Theorem C09_remove_then_insert : (forall v, veqb v v = true) -> forall ops r v,
    rm_eqb cmp veqb (run (ops ++ [ORemove r; OInsert r v])) (run (ops ++ [OInsert r v])) = true.
  Proof. exact (fun H ops r v => law HO HV H ops _ _ (law_remove_insert r v)). Qed.
  Theorem C09_covered_insert_invisible : (forall v, veqb v v = true) -> forall ops r1 v1 r2 v2,
    (forall k, covers r1 k = true -> covers r2 k = true) ->
    rm_eqb cmp veqb (run (ops ++ [OInsert r1 v1; OInsert r2 v2])) (run (ops ++ [OInsert r2 v2])) = true.
  Proof. exact (fun H ops r1 v1 r2 v2 C => law HO HV H ops _ _ (fun f k => law_covered HO r1 v1 r2 v2 f k C)). Qed.
  Theorem C09_disjoint_inserts_commute : (forall v, veqb v v = true) -> forall ops r1 v1 r2 v2,
    (forall k, covers r1 k = true -> covers r2 k = true -> False) ->
    rm_eqb cmp veqb (run (ops ++ [OInsert r1 v1; OInsert r2 v2]))
                    (run (ops ++ [OInsert r2 v2; OInsert r1 v1])) = true.
  Proof. exact (fun H ops r1 v1 r2 v2 C => law HO HV H ops _ _ (fun f k => law_commute r1 v1 r2 v2 f k C)). Qed.
  Theorem C09_disjoint_insert_remove_commute : (forall v, veqb v v = true) -> forall ops r1 v1 r2,
    (forall k, covers r1 k = true -> covers r2 k = true -> False) ->
    rm_eqb cmp veqb (run (ops ++ [OInsert r1 v1; ORemove r2]))
                    (run (ops ++ [ORemove r2; OInsert r1 v1])) = true.
  Proof. exact (fun H ops r1 v1 r2 C => law HO HV H ops _ _ (fun f k => law_commute_mixed r1 v1 r2 f k C)). Qed.
  Theorem C09_removes_commute : (forall v, veqb v v = true) -> forall ops r1 r2,
    rm_eqb cmp veqb (run (ops ++ [ORemove r1; ORemove r2]))
                    (run (ops ++ [ORemove r2; ORemove r1])) = true.
  Proof. exact (fun H ops r1 r2 => law HO HV H ops _ _ (law_commute_remove r1 r2)). Qed.

  (** without [V: Eq]: no lookup tells the two sides apart *)
  Notation look ops a b := (forall k, exists x y, rm_get cmp (run (ops ++ a)) k = Ret x /\
    rm_get cmp (run (ops ++ b)) k = Ret y /\ same_opt veqb x y).
  Theorem C09_laws_observed : forall ops r v r' v',
    look ops [OInsert r v; OInsert r v] [OInsert r v] /\
    look ops [ORemove r; ORemove r] [ORemove r] /\
    look ops [OInsert r v; ORemove r] [ORemove r] /\
    look ops [ORemove r; OInsert r v] [OInsert r v] /\
    look ops [ORemove r; ORemove r'] [ORemove r'; ORemove r] /\
    ((forall k, covers r k = true -> covers r' k = true) ->
     look ops [OInsert r v; OInsert r' v'] [OInsert r' v']) /\
    ((forall k, covers r k = true -> covers r' k = true -> False) ->
     look ops [OInsert r v; OInsert r' v'] [OInsert r' v'; OInsert r v] /\
     look ops [OInsert r v; ORemove r'] [ORemove r'; OInsert r v]).
  Proof. exact (laws_get HO HV). Qed.

  Example C09_example :
    (forall v, Z.eqb v v = true) /\
    (forall k, in_range Z.compare (mkR 2 5) k = true -> in_range Z.compare (mkR 1 5) k = true) /\
    (forall k, in_range Z.compare (mkR 2 5) k = true -> in_range Z.compare (mkR 5 9) k = true -> False) /\
    zrun (zops ++ [OInsert (mkR 2 5) 7; OInsert (mkR 5 9) 7]) =
    zrun (zops ++ [OInsert (mkR 5 9) 7; OInsert (mkR 2 5) 7]).
  Proof. exact commute_example. Qed.

  (** ** C10, C11 *)
  Theorem C10_gaps_exact : forall ops outer,
    exists g gs, rm_gaps cmp (run ops) outer = Ret g /\
      (forall n, nexts (gp_next cmp) n g = yields n gs) /\
      gaps_of cmp (spec ops) outer gs.
  Proof. exact (run_gaps HO HV). Qed.
  (** every list satisfying [gaps_of] consists of maximal uncovered ranges *)
  Theorem C10_gaps_maximal : forall (f : K -> option V) outer gs, gaps_of cmp f outer gs ->
    forall g r', In g gs ->
      leb cmp (r_start r') (r_start g) = true -> leb cmp (r_end g) (r_end r') = true ->
      (forall k, covers r' k = true -> covers outer k = true /\ f k = None) ->
      eqb cmp (r_start r') (r_start g) = true /\ eqb cmp (r_end r') (r_end g) = true.
  Proof. exact (gaps_maximal HO). Qed.
  Theorem C11_gaps_of_empty : forall ops outer, valid outer = false ->
    exists g, rm_gaps cmp (run ops) outer = Ret g /\ forall n, nexts (gp_next cmp) n g = repeat None n.
  Proof. exact (run_gaps_empty HO HV). Qed.

  Example C10_example : exists g,
    rm_gaps Z.compare (zrun zops) (mkR 5 70) = Ret g /\
    nexts (gp_next Z.compare) 5 g =
      [Some (mkR 8 12); Some (mkR 20 40); Some (mkR 60 70); None; None] /\
    valid_range Z.compare (mkR 9 9) = false.
  Proof. eexists. vm_compute. auto. Qed.

  (** The documentation (map.rs:187-189) says that an outer range with equal
      ends overlapping no stored range gives a single empty gap.  It gives none. *)
  Theorem C11_doc_single_empty_gap_refuted :
    exists (ops : list (op (range Z) Z)) (outer : range Z) g,
      r_start outer = r_end outer /\ rm_overlaps Z.compare (zrun ops) outer = Ret false /\
      rm_gaps Z.compare (zrun ops) outer = Ret g /\ fst (gp_next Z.compare g) = None.
  Proof. exists [OInsert (mkR 0 3) 1], (mkR 5 5). eexists. vm_compute. auto. Qed.

  (** ** C12, C13, C14 *)
  Theorem C13_overlapping_schedules : forall ops q sched,
    exists o, rm_overlapping cmp (run ops) q = Ret o /\
      map fst (sched_trace (both (ov_next cmp) (ov_next_back cmp)) (fun _ => tt) sched o) =
      deque_run sched (filter (fun e => meets cmp q (fst e)) (rm_iter (run ops))).
  Proof. exact (fun ops q sched => overlapping_schedule HO _ q sched (run_WF HO HV ops)). Qed.
  Theorem C12_overlapping_exact : forall ops q, valid q = true ->
    exists o, rm_overlapping cmp (run ops) q = Ret o /\
      (forall n, nexts (ov_next cmp) n o =
                 yields n (filter (fun e => meets cmp q (fst e)) (rm_iter (run ops)))) /\
      (forall e, In e (rm_iter (run ops)) ->
         meets cmp q (fst e) = true <-> exists k, covers q k = true /\ covers (fst e) k = true).
  Proof. exact (overlapping_exact HO HV). Qed.
  Theorem C12_overlaps_exact : forall ops q, valid q = true ->
    exists b, rm_overlaps cmp (run ops) q = Ret b /\
      (b = true <-> exists k, covers q k = true /\ rm_contains_key cmp (run ops) k = Ret true).
  Proof. exact (overlaps_exact HO HV). Qed.
  Theorem C14_overlaps_any_query : forall ops q,
    rm_overlaps cmp (run ops) q = Ret (existsb (fun e => meets cmp q (fst e)) (rm_iter (run ops))).
  Proof. exact (fun ops q => overlaps_ok HO _ q (run_WF HO HV ops)). Qed.

  Example C12_C13_example : exists o,
    rm_overlapping Z.compare (zrun zops) (mkR 5 41) = Ret o /\
    map fst (sched_trace (both (ov_next Z.compare) (ov_next_back Z.compare)) (fun _ => tt)
      [Back; Front; Back; Front; Front; Back] o) =
    [Some (mkR 40 60, 3); Some (mkR 4 6, 2); Some (mkR 12 20, 2); Some (mkR 6 8, 1); None; None].
  Proof. eexists. vm_compute. auto. Qed.

  (** "A query without keys overlaps nothing" is false. *)
  Theorem C14_empty_query_refuted :
    exists (ops : list (op (range Z) Z)) (q : range Z),
      (forall k, in_range Z.compare q k = false) /\ rm_overlaps Z.compare (zrun ops) q = Ret true.
  Proof. exists [OInsert (mkR 3 7) 1], (mkR 5 5). exact empty_query_witness. Qed.

  (** ** C15, C16 *)
  Theorem C15_first_last : forall ops,
    match rm_first_range_value (run ops), rm_last_range_value (run ops) with
    | None, None => rm_is_empty (run ops) = true
    | Some a, Some b =>
        In a (rm_iter (run ops)) /\ In b (rm_iter (run ops)) /\
        (forall x, In x (rm_iter (run ops)) ->
           (x = a \/ leb cmp (r_end (fst a)) (r_start (fst x)) = true) /\
           (x = b \/ leb cmp (r_end (fst x)) (r_start (fst b)) = true)) /\
        (forall k, rm_contains_key cmp (run ops) k = Ret true ->
           covers (mkR (r_start (fst a)) (r_end (fst b))) k = true)
    | _, _ => False
    end.
  Proof. exact (first_last HO HV). Qed.
  Theorem C16_iter_schedules : forall ops sched,
    sched_trace (both it_next it_next_back) it_size_hint sched (rm_iter (run ops)) =
      sched_trace deque_step (fun r => (length r, Some (length r))) sched (rm_iter (run ops)) /\
    sched_trace (both it_next it_next_back) it_size_hint sched (rm_into_iter (run ops)) =
      sched_trace deque_step (fun r => (length r, Some (length r))) sched (rm_iter (run ops)).
  Proof. exact (fun ops sched => conj (iter_schedule _ sched) (iter_schedule _ sched)). Qed.
  Theorem C16_len_empty : forall ops,
    nexts it_next (rm_len (run ops)) (rm_iter (run ops)) = map Some (rm_iter (run ops)) /\
    (rm_is_empty (run ops) = true <-> rm_len (run ops) = 0%nat) /\
    (rm_is_empty (run ops) = true <-> forall k, rm_contains_key cmp (run ops) k = Ret false) /\
    rm_is_empty (run (ops ++ [OClear])) = true.
  Proof. exact (len_empty HO HV). Qed.

  Example C15_C16_example :
    rm_first_range_value (zrun zops) = Some (mkR 0 4, 1) /\
    rm_last_range_value (zrun zops) = Some (mkR 40 60, 3) /\
    rm_len (zrun zops) = 5%nat /\
    sched_trace (both it_next it_next_back) it_size_hint [Back; Front] (rm_iter (zrun zops)) =
      [(Some (mkR 40 60, 3), (4%nat, Some 4%nat)); (Some (mkR 0 4, 1), (3%nat, Some 3%nat))].
  Proof. vm_compute. auto. Qed.

  (** ** C17: any input splits into a valid prefix [good] and a rest [bad] that
      is empty or starts with an invalid range *)
  Theorem C17_extend_is_inserts : forall ops good bad,
    (forall e, In e good -> valid (fst e) = true) ->
    match bad with [] => True | e :: _ => valid (fst e) = false end ->
    rm_extend cmp veqb (good ++ bad) (run ops) =
      (match bad with [] => Ret tt | _ => Panicked PAssert end, run (ops ++ ins good)).
  Proof. exact (run_extend HO HV). Qed.
  Theorem C17_from_iter_is_inserts : forall good bad,
    (forall e, In e good -> valid (fst e) = true) ->
    match bad with [] => True | e :: _ => valid (fst e) = false end ->
    rm_from_iter cmp veqb (good ++ bad) =
      match bad with [] => Ret (run (ins good)) | _ => Panicked PAssert end.
  Proof. exact (from_iter_prefix HO HV). Qed.
  Theorem C17_from_array_is_inserts : forall good bad,
    (forall e, In e good -> valid (fst e) = true) ->
    match bad with [] => True | e :: _ => valid (fst e) = false end ->
    rm_from_array cmp veqb (good ++ bad) =
      match bad with [] => Ret (run (ins good)) | _ => Panicked PAssert end.
  Proof. exact (from_array_prefix HO HV). Qed.

  Example C17_example :
    rm_from_array Z.compare Z.eqb [(mkR 0 5, 1); (mkR 3 8, 2)] = Ret [(mkR 0 3, 1); (mkR 3 8, 2)] /\
    rm_from_iter Z.compare Z.eqb [(mkR 0 5, 1); (mkR 8 3, 2)] = Panicked PAssert.
  Proof. vm_compute. auto. Qed.

  (** ** C18, C19 *)
  Theorem C18_round_trip : forall (E : Type) ops,
    rm_deserialize (E := E) cmp veqb (map inr (snd (rm_serialize (run ops)))) = Ret (inr (run ops)) /\
    fst (rm_serialize (run ops)) = Some (length (snd (rm_serialize (run ops)))).
  Proof. exact (run_round_trip HO HV). Qed.
  Theorem C19_deserialize_any_input : forall (E : Type) good (rest : list (E + (K * K) * V)),
    (forall e, In e good -> valid (fst e) = true) ->
    match rest with inr ((s, e), v) :: _ => ltb cmp s e = false | _ => True end ->
    rm_deserialize cmp veqb (map (fun e => inr (r_start (fst e), r_end (fst e), snd e)) good ++ rest) =
    match rest with
    | [] => Ret (inr (run (ins good)))
    | inl err :: _ => Ret (inl err)
    | inr _ :: _ => Panicked PAssert
    end.
  Proof. exact (fun E => deserialize_prefix HO HV). Qed.

  Example C18_C19_example :
    snd (rm_serialize (zrun zops)) = [((0, 4), 1); ((4, 6), 2); ((6, 8), 1); ((12, 20), 2); ((40, 60), 3)] /\
    rm_deserialize Z.compare Z.eqb [inr ((0, 4), 1); inr ((2, 6), 2); inl true; inr ((9, 9), 1)] = Ret (inl true) /\
    rm_deserialize (E := bool) Z.compare Z.eqb [inr ((0, 4), 1); inr ((9, 9), 1); inl true] = Panicked PAssert.
  Proof. vm_compute. auto. Qed.

  (** ** C20, C21 *)
  Theorem C20_hash_consistent : forall (T : Type) (hk : K -> list T) (hv : V -> list T),
    (forall x y, eqb cmp x y = true -> hk x = hk y) ->
    (forall x y, veqb x y = true -> hv x = hv y) ->
    forall ops1 ops2, rm_eqb cmp veqb (run ops1) (run ops2) = true ->
      rm_hash hk hv (run ops1) = rm_hash hk hv (run ops2).
  Proof. exact (fun T hk hv Hk Hv ops1 ops2 => hash_eq hk hv _ _ Hk Hv). Qed.
  (** The writes are also prefix-free, whatever is hashed afterwards ([s], [t]):
      a map can itself be a key or a value, or a field of a larger structure. *)
  Theorem C20_hash_separates : forall (T : Type) (hk : K -> list T) (hv : V -> list T),
    (forall x y s t, hk x ++ s = hk y ++ t -> eqb cmp x y = true /\ hk x = hk y) ->
    (forall x y s t, hv x ++ s = hv y ++ t -> veqb x y = true /\ hv x = hv y) ->
    forall ops1 ops2 s t, rm_hash hk hv (run ops1) ++ s = rm_hash hk hv (run ops2) ++ t ->
      rm_eqb cmp veqb (run ops1) (run ops2) = true /\ rm_hash hk hv (run ops1) = rm_hash hk hv (run ops2).
  Proof. exact (fun T hk hv Hk Hv ops1 ops2 => hash_inj hk hv _ _ Hk Hv). Qed.
  Theorem C21_ord_lawful : forall vcmp : V -> V -> comparison, TotalOrd vcmp ->
    (forall x y, vcmp x y = Eq <-> veqb x y = true) ->
    TotalOrd (@rm_cmp K V cmp vcmp) /\
    (forall ops1 ops2, rm_cmp cmp vcmp (run ops1) (run ops2) = Eq <->
       forall k, same_opt veqb (spec ops1 k) (spec ops2 k)).
  Proof. exact (run_ord HO HV). Qed.
  Theorem C21_partial_cmp : forall (vcmp : V -> V -> comparison) pcmp vpcmp,
    (forall x y, pcmp x y = Some (cmp x y)) -> (forall x y, vpcmp x y = Some (vcmp x y)) ->
    forall ops1 ops2, rm_partial_cmp pcmp vpcmp (run ops1) (run ops2) =
      Some (rm_cmp cmp vcmp (run ops1) (run ops2)).
  Proof. exact (fun vcmp pcmp vpcmp H1 H2 ops1 ops2 => rm_partial_cmp_total vcmp pcmp vpcmp _ _ H1 H2). Qed.

  Example C20_C21_example :
    (forall x y s t, [x] ++ s = [y] ++ t -> eqb Z.compare x y = true /\ [x] = [y]) /\
    (forall x y, Z.compare x y = Eq <-> Z.eqb x y = true) /\
    rm_cmp Z.compare Z.compare (zrun zops) (zrun [OInsert (mkR 0 4) 1]) = Gt /\
    rm_cmp Z.compare Z.compare (zrun [OInsert (mkR 0 4) 1]) (zrun [OInsert (mkR 0 5) 0]) = Lt.
  Proof. exact hash_ord_example. Qed.

  (** ** C22 *)
  Theorem C22_sorted_by_both_ends : forall ops,
    sorted_by (cmp_start cmp) (rm_iter (run ops)) /\ sorted_by (cmp_end cmp) (rm_iter (run ops)).
  Proof. exact (fun ops => WF_sorted_by HO _ (run_WF HO HV ops)). Qed.
  Theorem C22_any_tree_shape : forall ops (t : tree (range K * V)), elems t = run ops ->
    forall c, c = cmp_start cmp \/ c = cmp_end cmp ->
    forall lo hi, bad_bounds c lo hi = false ->
      bt_range c lo hi (run ops) = Ret (tree_range c lo hi t).
  Proof. exact (fun ops t => tree_search HO _ t (run_WF HO HV ops)). Qed.

  Example C22_example :
    let e n := nth n (zrun zops) (mkR 0 0, 0) in
    let t := Node (More (Node (More Leaf (e 0%nat) (More Leaf (e 1%nat) (Last Leaf)))) (e 2%nat)
               (Last (Node (More (Node (More Leaf (e 3%nat) (Last Leaf))) (e 4%nat) (Last Leaf))))) in
    elems t = zrun zops /\
    tree_range (cmp_end Z.compare) (Excluded (mkR 7 7)) Unbounded t =
      [(mkR 6 8, 1); (mkR 12 20, 2); (mkR 40 60, 3)].
  Proof. vm_compute. auto. Qed.

  (** ** C23 *)
  Theorem C23_minimal : (forall v, veqb v v = true) -> forall ops l,
    describes covers veqb l (spec ops) -> (length (rm_iter (run ops)) <= length l)%nat.
  Proof. exact (run_minimal HO HV). Qed.
  Theorem C23_growth : forall ops r v,
    (rm_len (run (ops ++ [OInsert r v])) <= rm_len (run ops) + 2)%nat /\
    (rm_len (run (ops ++ [ORemove r])) <= rm_len (run ops) + 1)%nat.
  Proof. exact (run_growth HO HV). Qed.

  Example C23_example :
    rm_len (zrun ([OInsert (mkR 0 10) 1] ++ [OInsert (mkR 3 5) 2])) = 3%nat /\
    rm_len (zrun ([OInsert (mkR 0 10) 1] ++ [ORemove (mkR 3 5)])) = 2%nat /\
    describes (in_range Z.compare) Z.eqb [(mkR 0 5, 1); (mkR 5 10, 1)]
      (spec_run (valid_range Z.compare) (in_range Z.compare) [OInsert (mkR 0 10) 1]).
  Proof. exact minimal_example. Qed.

  (** ** C24 *)
  Theorem C24_insert_frame : forall ops r v e, valid r = true -> In e (rm_iter (run ops)) ->
    (leb cmp (r_end (fst e)) (r_start r) = true /\
       (eqb cmp (r_end (fst e)) (r_start r) = true -> veqb (snd e) v = false)) \/
    (leb cmp (r_end r) (r_start (fst e)) = true /\
       (eqb cmp (r_end r) (r_start (fst e)) = true -> veqb v (snd e) = false)) ->
    In e (rm_iter (run (ops ++ [OInsert r v]))).
  Proof. exact (insert_frame HO HV). Qed.
  Theorem C24_remove_frame : forall ops r e, valid r = true -> In e (rm_iter (run ops)) ->
    leb cmp (r_end (fst e)) (r_start r) = true \/ leb cmp (r_end r) (r_start (fst e)) = true ->
    In e (rm_iter (run (ops ++ [ORemove r]))).
  Proof. exact (remove_frame HO HV). Qed.

  Example C24_example :
    In (mkR 6 8, 1) (rm_iter (zrun zops)) /\
    In (mkR 6 8, 1) (rm_iter (zrun (zops ++ [OInsert (mkR 8 15) 4]))) /\
    ~ In (mkR 6 8, 1) (rm_iter (zrun (zops ++ [OInsert (mkR 8 15) 1]))).
  Proof. exact frame_example. Qed.
End Props.

(** ** C64: values with a non-reflexive [PartialEq] (0 plays [NaN]).  C01-C07
    above only assume [PartialEquiv]; [==] of maps is not reflexive. *)
Theorem C64_eq_reflexive_refuted :
  PartialEquiv nan_eqb /\
  exists ops, rm_eqb Z.compare nan_eqb (rm_run Z.compare nan_eqb ops) (rm_run Z.compare nan_eqb ops) = false.
Proof. exact (conj nan_per (ex_intro _ [OInsert (mkR 0 5) 0] eq_refl)). Qed.
Theorem C64_nan_not_coalesced_refuted :
  exists ops, rm_iter (rm_run Z.compare nan_eqb ops) = [(mkR 0 5, 0); (mkR 5 9, 0)] /\
    rm_iter (rm_run Z.compare nan_eqb (ops ++ [OInsert (mkR 3 7) 0])) =
      [(mkR 0 3, 0); (mkR 3 7, 0); (mkR 7 9, 0)].
Proof. exists [OInsert (mkR 0 5) 0; OInsert (mkR 5 9) 0]. vm_compute. auto. Qed.

Print Assumptions C01_last_writer_wins.
Print Assumptions C01_last_writer_wins_exact.
Print Assumptions C01_insert_read_back.
Print Assumptions C02_insert_outcome.
Print Assumptions C03_remove_outcome.
Print Assumptions C04_iter_valid_ascending.
Print Assumptions C05_iter_coalesced.
Print Assumptions C05_between_equal_values.
Print Assumptions C04_iter_describes.
Print Assumptions C06_lookup_iff_iter.
Print Assumptions C06_lookup_none.
Print Assumptions C06_lookups_agree.
Print Assumptions C06_unique.
Print Assumptions C07_maximal_run.
Print Assumptions C07_run_constant.
Print Assumptions C08_eq_extensional.
Print Assumptions C08_eq_observational.
Print Assumptions C09_insert_idempotent.
Print Assumptions C09_remove_idempotent.
Print Assumptions C09_insert_then_remove.
Print Assumptions C09_remove_then_insert.
Print Assumptions C09_covered_insert_invisible.
Print Assumptions C09_disjoint_inserts_commute.
Print Assumptions C09_disjoint_insert_remove_commute.
Print Assumptions C09_removes_commute.
Print Assumptions C09_laws_observed.
Print Assumptions C10_gaps_exact.
Print Assumptions C10_gaps_maximal.
Print Assumptions C11_gaps_of_empty.
Print Assumptions C11_doc_single_empty_gap_refuted.
Print Assumptions C13_overlapping_schedules.
Print Assumptions C12_overlapping_exact.
Print Assumptions C12_overlaps_exact.
Print Assumptions C14_overlaps_any_query.
Print Assumptions C14_empty_query_refuted.
Print Assumptions C15_first_last.
Print Assumptions C16_iter_schedules.
Print Assumptions C16_len_empty.
Print Assumptions C17_extend_is_inserts.
Print Assumptions C17_from_iter_is_inserts.
Print Assumptions C17_from_array_is_inserts.
Print Assumptions C18_round_trip.
Print Assumptions C19_deserialize_any_input.
Print Assumptions C20_hash_consistent.
Print Assumptions C20_hash_separates.
Print Assumptions C21_ord_lawful.
Print Assumptions C21_partial_cmp.
Print Assumptions C22_sorted_by_both_ends.
Print Assumptions C22_any_tree_shape.
Print Assumptions C23_minimal.
Print Assumptions C23_growth.
Print Assumptions C24_insert_frame.
Print Assumptions C24_remove_frame.
Print Assumptions C64_eq_reflexive_refuted.
Print Assumptions C64_nan_not_coalesced_refuted.
