(** Queries of the half-open and the inclusive maps and sets over integers
    agree (C91).  Statements only: every proof is a reference to a lemma. *)
From Coq Require Import List Bool ZArith Lia.
From Verif Require Import Order Outcome BTree Ranges History Spec MapModel IMapModel OpsModel SetModel ISetModel
  StepModel StepFacts Instances IMapProps SpecProg ProgModel ListLemmas CrossMore CrossProg.
Import ListNotations.
Local Open Scope Z_scope.

(** As in C60, [f] says which integer a key stands for; the step functions
    step by one wherever there is a key beyond.  [same_keys f (s..e') (s..=e)]
    says that [e'] is the integer after [e]; [same_call], [same_scall] and
    [same_sexp] that the calls differ in nothing but this. *)
Section C91.
  Context {K V : Type} {cmp : K -> K -> comparison} {veqb : V -> V -> bool} {st : stepfns K} (f : K -> Z).
  Context (Hc : forall a b, cmp a b = (f a ?= f b)).
  Context (Hs : forall a b, f a < f b -> exists s, add_one st a = Some s /\ f s = f a + 1).
  Context (Hp : forall a b, f b < f a -> exists p, sub_one st a = Some p /\ f p = f a - 1).
  Context (HV : PartialEquiv veqb).
  Notation run := (rm_run cmp veqb).
  Notation irun := (im_run cmp veqb st).
  Notation srun := (rs_run cmp).
  Notation isrun := (is_run cmp st).

  Theorem C91_gaps : forall ops iops q qi, Forall2 (same_call f) ops iops -> same_keys f q qi -> exists g gi gs gsi,
    rm_gaps cmp (run ops) q = Ret g /\ im_gaps cmp (irun iops) qi = Ret gi /\
    (forall n, nexts (gp_next cmp) n g = yields n gs) /\
    (forall n, nexts_m (gpi_next cmp st) n gi = map Ret (yields n gsi)) /\
    Forall2 (same_keys f) gs gsi.
  Proof. exact (x_gaps f Hc Hs Hp HV). Qed.
  (** queries need not be valid *)
  Theorem C91_overlapping : forall ops iops q qi, Forall2 (same_call f) ops iops -> same_keys f q qi -> exists o oi,
    rm_overlapping cmp (run ops) q = Ret o /\ im_overlapping cmp (irun iops) qi = Ret oi /\
    forall sched, Forall2 (matched (same_entry f))
      (map fst (sched_trace (both (ov_next cmp) (ov_next_back cmp)) (fun _ => tt) sched o))
      (map fst (sched_trace (both (ovi_next cmp) (ovi_next_back cmp)) (fun _ => tt) sched oi)).
  Proof. exact (x_overlapping f Hc Hs Hp HV). Qed.
  Theorem C91_overlaps : forall ops iops q qi, Forall2 (same_call f) ops iops -> same_keys f q qi ->
    rm_overlaps cmp (run ops) q = im_overlaps cmp (irun iops) qi.
  Proof. exact (x_overlaps f Hc Hs Hp HV). Qed.
  Theorem C91_get_key_value : forall ops iops k, Forall2 (same_call f) ops iops -> exists o oi,
    rm_get_key_value cmp (run ops) k = Ret o /\ im_get_key_value cmp (irun iops) k = Ret oi /\
    matched (same_entry f) o oi.
  Proof. exact (x_get_key_value f Hc Hs Hp HV). Qed.
  Theorem C91_first_last_len : forall ops iops, Forall2 (same_call f) ops iops ->
    matched (same_entry f) (rm_first_range_value (run ops)) (im_first_range_value (irun iops)) /\
    matched (same_entry f) (rm_last_range_value (run ops)) (im_last_range_value (irun iops)) /\
    rm_len (run ops) = im_len (irun iops).
  Proof. exact (x_first_last f Hc Hs Hp HV). Qed.

  Theorem C91_set_ranges : forall ops iops, Forall2 (same_scall f) ops iops ->
    Forall2 (same_keys f) (map fst (rs_iter (srun ops))) (map fst (is_iter (isrun iops))).
  Proof. exact (x_set_ranges f Hc Hs Hp). Qed.
  Theorem C91_set_contains : forall ops iops k, Forall2 (same_scall f) ops iops ->
    rs_contains cmp (srun ops) k = is_contains cmp (isrun iops) k.
  Proof. exact (x_set_contains f Hc Hs Hp). Qed.
  Theorem C91_set_gaps : forall ops iops q qi, Forall2 (same_scall f) ops iops -> same_keys f q qi -> exists g gi gs gsi,
    rs_gaps cmp (srun ops) q = Ret g /\ is_gaps cmp (isrun iops) qi = Ret gi /\
    (forall n, nexts (rs_gaps_next cmp) n g = yields n gs) /\
    (forall n, nexts_m (is_gaps_next cmp st) n gi = map Ret (yields n gsi)) /\
    Forall2 (same_keys f) gs gsi.
  Proof. exact (x_set_gaps f Hc Hs Hp). Qed.
  Theorem C91_set_overlapping : forall ops iops q qi, Forall2 (same_scall f) ops iops -> same_keys f q qi -> exists o oi,
    rs_overlapping cmp (srun ops) q = Ret o /\ is_overlapping cmp (isrun iops) qi = Ret oi /\
    forall sched, Forall2 (matched (same_keys f))
      (map fst (sched_trace (both (rs_ov_next cmp) (rs_ov_next_back cmp)) (fun _ => tt) sched o))
      (map fst (sched_trace (both (is_ov_next cmp) (is_ov_next_back cmp)) (fun _ => tt) sched oi)).
  Proof. exact (x_set_overlapping f Hc Hs Hp). Qed.
  Theorem C91_set_overlaps : forall ops iops q qi, Forall2 (same_scall f) ops iops -> same_keys f q qi ->
    rs_overlaps cmp (srun ops) q = is_overlaps cmp (isrun iops) qi.
  Proof. exact (x_set_overlaps f Hc Hs Hp). Qed.
  Theorem C91_set_get : forall ops iops k, Forall2 (same_scall f) ops iops -> exists o oi,
    rs_get cmp (srun ops) k = Ret o /\ is_get cmp (isrun iops) k = Ret oi /\ matched (same_keys f) o oi.
  Proof. exact (x_set_get f Hc Hs Hp). Qed.
  Theorem C91_set_first_last_len : forall ops iops, Forall2 (same_scall f) ops iops ->
    matched (same_keys f) (rs_first (srun ops)) (is_first (isrun iops)) /\
    matched (same_keys f) (rs_last (srun ops)) (is_last (isrun iops)) /\
    rs_len (srun ops) = is_len (isrun iops) /\ rs_is_empty (srun ops) = is_is_empty (isrun iops).
  Proof. exact (x_set_first_last f Hc Hs Hp). Qed.
  Theorem C91_set_union : forall a ai b bi, Forall2 (same_scall f) a ai -> Forall2 (same_scall f) b bi -> exists us usi,
    (forall n, nexts_m (rs_union_next cmp) n (rs_union (srun a) (srun b)) = map Ret (yields n us)) /\
    (forall n, nexts_m (is_union_next cmp) n (is_union (isrun ai) (isrun bi)) = map Ret (yields n usi)) /\
    Forall2 (same_keys f) us usi.
  Proof. exact (x_set_union f Hc Hs Hp). Qed.
  Theorem C91_set_intersection : forall a ai b bi, Forall2 (same_scall f) a ai -> Forall2 (same_scall f) b bi -> exists us usi,
    (forall n, nexts_m (rs_intersection_next cmp) n (rs_intersection (srun a) (srun b)) = map Ret (yields n us)) /\
    (forall n, nexts_m (is_intersection_next cmp) n (is_intersection (isrun ai) (isrun bi)) = map Ret (yields n usi)) /\
    Forall2 (same_keys f) us usi.
  Proof. exact (x_set_intersection f Hc Hs Hp). Qed.
  Theorem C91_set_programs : forall x xi, same_sexp f x xi -> exists s si,
    rs_eval cmp x = Ret s /\ is_eval cmp st xi = Ret si /\
    Forall2 (same_keys f) (map fst (rs_iter s)) (map fst (is_iter si)).
  Proof. exact (x_set_programs f Hc Hs Hp). Qed.
  (** programs that build maps and sets out of each other (SpecProg.v): the same
      entries with the very same values, and the same lookups.  The closures of
      the program need not respect [==] on values. *)
  Theorem C91_programs : forall x xi, same_mprog f x xi -> exists m mi,
    mrun cmp veqb x = Ret m /\ imrun cmp veqb st xi = Ret mi /\ Forall2 (same_entry f) (rm_iter m) (im_iter mi) /\
    forall k, rm_get cmp m k = im_get cmp mi k.
  Proof. exact (x_mprogs f Hc Hs Hp HV). Qed.
  Theorem C91_programs_sets : forall x xi, same_sprog f x xi -> exists s si,
    ProgModel.srun cmp veqb x = Ret s /\ ProgModel.isrun cmp veqb st xi = Ret si /\
    Forall2 (same_keys f) (map fst (rs_iter s)) (map fst (is_iter si)) /\
    forall k, rs_contains cmp s k = is_contains cmp si k.
  Proof. exact (x_sprogs f Hc Hs Hp HV). Qed.
End C91.

(** every primitive integer type qualifies, in both build modes *)
Theorem C91_integer_types : forall {V} {veqb : V -> V -> bool}, PartialEquiv veqb ->
  forall md t, 0 < i_bits t ->
  let f := fun x : ival t => proj1_sig x in
  (forall ops iops q qi, Forall2 (same_call f) ops iops -> same_keys f q qi -> exists g gi gs gsi,
     rm_gaps (icmp t) (rm_run (icmp t) veqb ops) q = Ret g /\
     im_gaps (icmp t) (im_run (icmp t) veqb (int_steps md t) iops) qi = Ret gi /\
     (forall n, nexts (gp_next (icmp t)) n g = yields n gs) /\
     (forall n, nexts_m (gpi_next (icmp t) (int_steps md t)) n gi = map Ret (yields n gsi)) /\
     Forall2 (same_keys f) gs gsi) /\
  (forall ops iops q qi, Forall2 (same_call f) ops iops -> same_keys f q qi ->
     rm_overlaps (icmp t) (rm_run (icmp t) veqb ops) q =
     im_overlaps (icmp t) (im_run (icmp t) veqb (int_steps md t) iops) qi) /\
  (forall x xi, same_sexp f x xi -> exists s si,
     rs_eval (icmp t) x = Ret s /\ is_eval (icmp t) (int_steps md t) xi = Ret si /\
     Forall2 (same_keys f) (map fst (rs_iter s)) (map fst (is_iter si))).
Proof. exact @x_int. Qed.
Theorem C91_integer_programs : forall {V} {veqb : V -> V -> bool}, PartialEquiv veqb ->
  forall md t, 0 < i_bits t ->
  let f := fun x : ival t => proj1_sig x in
  (forall x xi, same_mprog f x xi -> exists m mi,
     mrun (icmp t) veqb x = Ret m /\ imrun (icmp t) veqb (int_steps md t) xi = Ret mi /\
     Forall2 (same_entry f) (rm_iter m) (im_iter mi) /\ forall k, rm_get (icmp t) m k = im_get (icmp t) mi k) /\
  (forall x xi, same_sprog f x xi -> exists s si,
     ProgModel.srun (icmp t) veqb x = Ret s /\ ProgModel.isrun (icmp t) veqb (int_steps md t) xi = Ret si /\
     Forall2 (same_keys f) (map fst (rs_iter s)) (map fst (is_iter si)) /\
     forall k, rs_contains (icmp t) s k = is_contains (icmp t) si k).
Proof. exact @x_int_prog. Qed.

Definition ah_ops : list (op (range Z) Z) :=
  [OInsert (mkR 0 255) 1; OExtend [(mkR 250 255, 2); (mkR 7 7, 3)]; ORemove (mkR 0 4); ORemove (mkR 60 70); OInsert (mkR 100 111) 2].
Definition ai_ops : list (op (rangei Z) Z) :=
  [OInsert (incl 0 254) 1; OExtend [(incl 250 254, 2); (incl 7 6, 3)]; ORemove (incl 0 3); ORemove (incl 60 69); OInsert (incl 100 110) 2].
Example C91_example_hyp : Forall2 (same_call (fun x => x)) ah_ops ai_ops /\
  same_keys (fun x => x) (mkR 2 65) (incl 2 64) /\
  same_sexp (fun x => x)
    (XAnd (XOr (XOp XNew (SInsert (mkR 0 5))) (XOp XNew (SInsert (mkR 5 9)))) (XOp XNew (SInsert (mkR 3 20))))
    (XAnd (XOr (XOp XNew (SInsert (incl 0 4))) (XOp XNew (SInsert (incl 5 8)))) (XOp XNew (SInsert (incl 3 19)))).
Proof. unfold ah_ops, ai_ops, same_call, same_entry, same_keys, same_sexp, same_scall, same_keys. repeat (constructor; try reflexivity). Qed.
Example C91_example : exists g gi,
  rm_gaps Z.compare (rm_run Z.compare Z.eqb ah_ops) (mkR 2 65) = Ret g /\
  im_gaps Z.compare (im_run Z.compare Z.eqb zst ai_ops) (incl 2 64) = Ret gi /\
  nexts (gp_next Z.compare) 3 g = [Some (mkR 2 4); Some (mkR 60 65); None] /\
  nexts_m (gpi_next Z.compare zst) 3 gi = map Ret [Some (incl 2 3); Some (incl 60 64); None] /\
  (* touching pieces stay apart in both unions *)
  nexts_m (rs_union_next Z.compare) 3 (rs_union (rs_run Z.compare [SInsert (mkR 0 5)]) (rs_run Z.compare [SInsert (mkR 5 9)])) =
    map Ret [Some (mkR 0 5); Some (mkR 5 9); None] /\
  nexts_m (is_union_next Z.compare) 3 (is_union (is_run Z.compare zst [SInsert (incl 0 4)]) (is_run Z.compare zst [SInsert (incl 5 8)])) =
    map Ret [Some (incl 0 4); Some (incl 5 8); None].
Proof. do 2 eexists. vm_compute. auto 10. Qed.

Definition as_ops : list (sop (range Z)) := [SInsert (mkR 0 9); SRemove (mkR 3 5); SExtend [mkR 20 30; mkR 30 32]].
Definition asi_ops : list (sop (rangei Z)) := [SInsert (incl 0 8); SRemove (incl 3 4); SExtend [incl 20 29; incl 30 31]].
Example C91_set_example : Forall2 (same_scall (fun x => x)) as_ops asi_ops /\
  same_keys (fun x => x) (mkR 3 5) (incl 3 4) /\
  rs_overlaps Z.compare (rs_run Z.compare as_ops) (mkR 3 5) = Ret false /\
  is_overlaps Z.compare (is_run Z.compare zst asi_ops) (incl 3 4) = Ret false /\
  is_overlaps Z.compare (is_run Z.compare zst asi_ops) (incl 3 5) = Ret true /\
  rs_get Z.compare (rs_run Z.compare as_ops) 7 = Ret (Some (mkR 5 9)) /\
  is_get Z.compare (is_run Z.compare zst asi_ops) 7 = Ret (Some (incl 5 8)) /\
  rs_first (rs_run Z.compare as_ops) = Some (mkR 0 3) /\ is_first (is_run Z.compare zst asi_ops) = Some (incl 0 2) /\
  rs_last (rs_run Z.compare as_ops) = Some (mkR 20 32) /\ is_last (is_run Z.compare zst asi_ops) = Some (incl 20 31) /\
  rs_len (rs_run Z.compare as_ops) = 3%nat /\ is_len (is_run Z.compare zst asi_ops) = 3%nat.
Proof.
  splits; try (vm_compute; reflexivity). all: unfold as_ops, asi_ops, same_scall, same_keys; repeat (constructor; try reflexivity).
Qed.

(** a closure that tells apart what [==] does not *)
Definition pm (b : Z) : mprog (range Z) Z :=
  PApply (fun v => 10 * (v mod 10)) (PFill (PMinus (PExtend (PCall PNew (OInsert (mkR 0 20) 11)) (PCall PNew (OInsert (mkR 20 40) 12)))
    (QAnd (QCall QNew (SInsert (mkR 5 15))) (QGaps (QCall QNew (SInsert (mkR 8 9))) (mkR 0 b)))) (mkR 3 50) 27).
Definition pmi (b : Z) : mprog (rangei Z) Z :=
  PApply (fun v => 10 * (v mod 10)) (PFill (PMinus (PExtend (PCall PNew (OInsert (incl 0 19) 11)) (PCall PNew (OInsert (incl 20 39) 12)))
    (QAnd (QCall QNew (SInsert (incl 5 14))) (QGaps (QCall QNew (SInsert (incl 8 8))) (incl 0 b)))) (incl 3 49) 27).
Example C91_programs_example :
  same_mprog (fun x => x) (pm 30) (pmi 29) /\ PartialEquiv (fun a b => a / 10 =? b / 10) /\
  mrun Z.compare (fun a b => a / 10 =? b / 10) (pm 30) =
    Ret [(mkR 0 5, 20); (mkR 5 8, 70); (mkR 8 9, 20); (mkR 9 15, 70); (mkR 15 40, 20); (mkR 40 50, 70)] /\
  imrun Z.compare (fun a b => a / 10 =? b / 10) zst (pmi 29) =
    Ret [(incl 0 4, 20); (incl 5 7, 70); (incl 8 8, 20); (incl 9 14, 70); (incl 15 39, 20); (incl 40 49, 70)] /\
  same_sprog (fun x => x) (QFree (PPaint (QWhere (fun v => v =? 70) (pm 30)) 2) (mkR 0 12))
    (QFree (PPaint (QWhere (fun v => v =? 70) (pmi 29)) 2) (incl 0 11)) /\
  ProgModel.srun Z.compare Z.eqb (QFree (PPaint (QWhere (fun v => v =? 70) (pm 30)) 2) (mkR 0 12)) = Ret [(mkR 0 5, tt); (mkR 8 9, tt)] /\
  ProgModel.isrun Z.compare Z.eqb zst (QFree (PPaint (QWhere (fun v => v =? 70) (pmi 29)) 2) (incl 0 11)) = Ret [(incl 0 4, tt); (incl 8 8, tt)].
Proof.
  assert (PartialEquiv (fun a b => a / 10 =? b / 10)) as HE by (split; intros; rewrite Z.eqb_eq in *; congruence).
  splits; try exact HE; try (vm_compute; reflexivity); cbn; unfold same_keys; cbn; intuition auto.
Qed.

Print Assumptions C91_programs.
Print Assumptions C91_programs_sets.
Print Assumptions C91_integer_programs.
Print Assumptions C91_gaps.
Print Assumptions C91_overlapping.
Print Assumptions C91_overlaps.
Print Assumptions C91_get_key_value.
Print Assumptions C91_first_last_len.
Print Assumptions C91_set_ranges.
Print Assumptions C91_set_contains.
Print Assumptions C91_set_gaps.
Print Assumptions C91_set_overlapping.
Print Assumptions C91_set_overlaps.
Print Assumptions C91_set_get.
Print Assumptions C91_set_first_last_len.
Print Assumptions C91_set_union.
Print Assumptions C91_set_intersection.
Print Assumptions C91_set_programs.
Print Assumptions C91_integer_types.
