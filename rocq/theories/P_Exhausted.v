(** Exhausted ranges in [RangeInclusiveSet] (C81), and two more facts on them in
    [RangeInclusiveMap] (C38).  [mem ops] (Spec.v) goes by the bounds of the
    ranges; [freshen] clears the flag. *)
From Coq Require Import List Bool Sorting.Sorted ZArith.
From Verif Require Import Order Outcome BTree Ranges History Spec MapModel IMapModel OpsModel SetModel ISetModel
  StepModel StepFacts IMapProps ISetProps Exhausted ExhaustedSet Tiling Instances.
Import ListNotations.

(** Example data: a stored exhausted range, one that is not in a set on its own,
    and one merged away *)
Local Open Scope Z_scope.
Notation zset := (is_run Z.compare zst).
Definition xa_ops : list (sop (rangei Z)) :=
  [SInsert (mkRI 0 5 true); SExtend [mkRI 20 25 true; incl 26 29]; SInsert (mkRI 40 49 true); SRemove (mkRI 43 44 true)].
Definition xb_ops : list (sop (rangei Z)) :=
  [SInsert (incl 5 9); SInsert (mkRI 12 12 true); SInsert (mkRI 22 29 true); SInsert (mkRI 9 8 true)].
Example xa_run : map fst (is_iter (zset xa_ops)) = [mkRI 0 5 true; incl 20 29; incl 40 42; incl 45 49].
Proof. reflexivity. Qed.
Example xb_run : map fst (is_iter (zset xb_ops)) = [incl 5 9; mkRI 12 12 true; mkRI 22 29 true].
Proof. reflexivity. Qed.

Section Props.
  Context {K : Type} {cmp : K -> K -> comparison} {st : stepfns K}.
  Context (HO : TotalOrd cmp) (HS : StepLaws cmp st).
  Notation run := (is_run cmp st).
  Notation valid := (valid_rangei cmp).
  Notation covers := (in_rangei cmp).
  Notation mem := (mem_run valid covers).
  Notation memx := (mem_sexp valid covers).
  Notation ranges s := (map fst (is_iter s)).

  (** updates: the same calls return, and the sets are the same up to the flags *)
  Theorem C81_updates_ignore_flag : forall ops o,
    run (map freshen_sop ops) = map freshen_entry (run ops) /\
    fst (is_exec cmp st (freshen_sop o) (run (map freshen_sop ops))) = fst (is_exec cmp st o (run ops)).
  Proof. exact (fun ops o => conj (xs_run ops) (xs_outcome ops o)). Qed.
  (** the stored bounds are the maximal runs of the members *)
  Theorem C81_maximal_runs : forall ops, runsi_of cmp (mem ops) (map freshen (ranges (run ops))).
  Proof. exact (xs_runs HO HS). Qed.
  (** lookups miss the last key of a range stored with the flag, and no other *)
  Theorem C81_contains : forall ops k, is_contains cmp (run ops) k =
    Ret (mem ops k && negb (existsb (fun r => ri_exhausted r && eqb cmp k (ri_end r)) (ranges (run ops)))).
  Proof. exact (xs_contains HO HS). Qed.
  Theorem C81_get : forall ops k r, is_get cmp (run ops) k = Ret (Some r) <->
    In r (ranges (run ops)) /\ covers r k = true /\ (ri_exhausted r = true -> eqb cmp k (ri_end r) = false).
  Proof. exact (xs_get_iff HO HS). Qed.
  (** [gaps], [overlapping] and [overlaps] go by the bounds *)
  Theorem C81_gaps : forall ops outer, exists g gs, is_gaps cmp (run ops) outer = Ret g /\
    (forall n, nexts_m (is_gaps_next cmp st) n g = map Ret (yields n gs)) /\
    runsi_of cmp (fun k => covers outer k && negb (mem ops k)) gs.
  Proof. exact (xs_gaps HO HS). Qed.
  Theorem C81_overlapping : forall ops q sched, exists o, is_overlapping cmp (run ops) q = Ret o /\
      map fst (sched_trace (both (is_ov_next cmp) (is_ov_next_back cmp)) (fun _ => tt) sched o) =
      deque_run sched (filter (meetsi cmp q) (ranges (run ops))).
  Proof. exact (iset_overlapping HO HS). Qed.
  Theorem C81_overlaps : forall ops q,
    is_overlaps cmp (run ops) q = Ret (existsb (meetsi cmp q) (ranges (run ops))).
  Proof. exact (xs_overlaps HO HS). Qed.
  (** intersection yields the maximal runs of the intersection, unexhausted *)
  Theorem C81_intersection : forall a b, exists us,
    (forall n, nexts_m (is_intersection_next cmp) n (is_intersection (run a) (run b)) = map Ret (yields n us)) /\
    runsi_of cmp (fun k => mem a k && mem b k) us /\
    (length us <= is_len (run a) + is_len (run b))%nat.
  Proof. exact (xs_intersection HO HS). Qed.
  (** union yields pieces covering exactly the union, each beginning after the
      end of the one before, or at it if that one is exhausted; an exhausted
      piece is one of the stored ranges *)
  Theorem C81_union : forall a b, exists us,
    (forall n, nexts_m (is_union_next cmp) n (is_union (run a) (run b)) = map Ret (yields n us)) /\
    (forall r, In r us -> valid r = true) /\
    StronglySorted (fun p q => ltb cmp (ri_end p) (ri_start q) = true \/
                               ri_exhausted p = true /\ eqb cmp (ri_end p) (ri_start q) = true) us /\
    (forall k, (exists r, In r us /\ covers r k = true) <-> mem a k || mem b k = true) /\
    (forall r, In r us -> ri_exhausted r = true -> In r (ranges (run a)) \/ In r (ranges (run b))) /\
    (length us <= is_len (run a) + is_len (run b))%nat.
  Proof. exact (xs_union HO HS). Qed.
  (** any program of calls, [|] and [&] gives a set that its operations denote,
      and [cmp] (unlike [==]) tells exactly the different ones apart *)
  Theorem C81_closed : forall x, exists ops,
    is_eval cmp st x = Ret (run ops) /\ forall k, mem ops k = memx x k.
  Proof. exact (xs_eval HO HS). Qed.
  Theorem C81_cmp_iff_boolean_identity : forall x y, exists a b,
    is_eval cmp st x = Ret a /\ is_eval cmp st y = Ret b /\
    (is_cmp cmp a b = Eq <-> forall k, memx x k = memx y k).
  Proof. exact (xs_eval_cmp HO HS). Qed.
  (** serde forgets the flag *)
  Theorem C81_round_trip : forall (E : Type) ops,
    is_deserialize (E := E) cmp st (map inr (snd (is_serialize (run ops)))) = Ret (inr (map freshen_entry (run ops))).
  Proof. exact (xs_round_trip HO HS). Qed.
  Theorem C38_round_trip_drops_flag : forall (V : Type) (veqb : V -> V -> bool), PartialEquiv veqb ->
    forall (E : Type) ops,
    im_deserialize (E := E) cmp veqb st (map inr (snd (im_serialize (im_run cmp veqb st ops)))) =
      Ret (inr (map freshen_entry (im_run cmp veqb st ops))).
  Proof. exact (fun V veqb HV => x_round_trip HO HS HV). Qed.
End Props.

Example C81_example : TotalOrd Z.compare /\ StepLaws Z.compare zst /\
  map (is_contains Z.compare (zset xa_ops)) [4; 5; 25; 29; 42; 45; 49] =
    map Ret [true; false; true; true; true; true; true] /\
  is_get Z.compare (zset xa_ops) 4 = Ret (Some (mkRI 0 5 true)) /\
  is_overlaps Z.compare (zset xa_ops) (incl 5 10) = Ret true /\
  omap (nexts_m (is_gaps_next Z.compare zst) 4) (is_gaps Z.compare (zset xa_ops) (mkRI 5 45 true)) =
    Ret (map Ret [Some (incl 6 19); Some (incl 30 39); Some (incl 43 44); None]) /\
  nexts_m (is_intersection_next Z.compare) 3 (is_intersection (zset xa_ops) (zset xb_ops)) =
    map Ret [Some (incl 5 5); Some (incl 22 29); None] /\
  nexts_m (is_union_next Z.compare) 7 (is_union (zset xa_ops) (zset xb_ops)) =
    map Ret [Some (mkRI 0 5 true); Some (incl 5 9); Some (mkRI 12 12 true); Some (incl 20 29);
             Some (incl 40 42); Some (incl 45 49); None] /\
  omap (fun s => map fst (is_iter s)) (is_bitor Z.compare zst (zset xa_ops) (zset xb_ops)) =
    Ret [incl 0 9; mkRI 12 12 true; incl 20 29; incl 40 42; incl 45 49] /\
  is_deserialize (E := unit) Z.compare zst (map inr (snd (is_serialize (zset xb_ops)))) =
    Ret (inr [(incl 5 9, tt); (incl 12 12, tt); (incl 22 29, tt)]).
Proof. split; [exact Z_order|]. split; [exact zst_laws|]. vm_compute. auto 10. Qed.

(** "the pieces of a union are disjoint" is false: both yield the key 5 *)
Theorem C81_union_disjoint_refuted : exists a b p q rest k,
  nexts_m (is_union_next Z.compare) 3 (is_union (zset a) (zset b)) = map Ret (Some p :: Some q :: rest) /\
  in_rangei Z.compare p k = true /\ in_rangei Z.compare q k = true.
Proof.
  exists [SInsert (mkRI 0 5 true)], [SInsert (incl 5 9)], (mkRI 0 5 true), (incl 5 9), [None], 5.
  vm_compute. auto.
Qed.
(** "[a | b] contains what [b] contains" is false *)
Theorem C81_bitor_contains_refuted : exists a b s k,
  is_contains Z.compare (zset b) k = Ret true /\
  is_bitor Z.compare zst (zset a) (zset b) = Ret s /\ is_contains Z.compare s k = Ret false.
Proof.
  exists [SInsert (mkRI 0 5 true)], [SInsert (incl 3 5)], [(mkRI 0 5 true, tt)], 5. vm_compute. auto.
Qed.
(** "[a & b] contains only what [a] and [b] contain" is false *)
Theorem C81_bitand_contains_refuted : exists a b s k,
  is_contains Z.compare (zset a) k = Ret false /\ is_contains Z.compare (zset b) k = Ret false /\
  is_bitand Z.compare zst (zset a) (zset b) = Ret s /\ is_contains Z.compare s k = Ret true.
Proof.
  exists [SInsert (mkRI 0 5 true)], [SInsert (mkRI 3 5 true)], [(incl 3 5, tt)], 5. vm_compute. auto.
Qed.
(** "[a | b == b | a]" is false *)
Theorem C81_bitor_commutes_refuted : exists a b s t,
  is_bitor Z.compare zst (zset a) (zset b) = Ret s /\ is_bitor Z.compare zst (zset b) (zset a) = Ret t /\
  is_eqb Z.compare s t = false.
Proof.
  exists [SInsert (mkRI 3 5 true)], [SInsert (incl 3 5)], [(incl 3 5, tt)], [(mkRI 3 5 true, tt)]. vm_compute. auto.
Qed.
Print Assumptions C81_updates_ignore_flag.
Print Assumptions C81_maximal_runs.
Print Assumptions C81_contains.
Print Assumptions C81_get.
Print Assumptions C81_gaps.
Print Assumptions C81_overlapping.
Print Assumptions C81_overlaps.
Print Assumptions C81_intersection.
Print Assumptions C81_union.
Print Assumptions C81_closed.
Print Assumptions C81_cmp_iff_boolean_identity.
Print Assumptions C81_round_trip.
Print Assumptions C38_round_trip_drops_flag.
Print Assumptions C81_union_disjoint_refuted.
Print Assumptions C81_bitor_contains_refuted.
Print Assumptions C81_bitand_contains_refuted.
Print Assumptions C81_bitor_commutes_refuted.
