(** The crate's fuzz targets (C92): /repo/fuzz/fuzz_targets/*.rs, run on every input,
    never panic. *)
From Coq Require Import List Bool ZArith Lia.
From Verif Require Import Order Outcome Ranges History Spec MapModel IMapModel StepModel StepFacts IMapProps FuzzModel FuzzFacts Instances.
Import ListNotations.
Local Open Scope Z_scope.

Section C92.
  Context {K V : Type} {cmp : K -> K -> comparison} {veqb : V -> V -> bool} {st : stepfns K}.
  Context (HO : TotalOrd cmp) (HV : PartialEquiv veqb).

  (** The half-open targets accept any operations and any query.  (The fuel stands
      for the two [collect]s, which thus end.) *)
  Theorem C92_coalesce : forall ops, fuzz_coalesce cmp veqb ops = Ret tt.
  Proof. exact (coalesce_ok HO HV). Qed.

  Context (Hid : forall a b, cmp a b = Eq -> a = b).
  Theorem C92_gaps : forall ops outer, exists n, forall fuel, (n <= fuel)%nat ->
    fuzz_gaps cmp veqb fuel ops outer = Ret tt.
  Proof. exact (gaps_ok HO HV Hid). Qed.

  (** The inclusive targets pass every range on to the map, so they panic exactly
      when one of them is backward; the query may be anything. *)
  Context (HS : StepLaws cmp st).
  Theorem C92_inclusive_coalesce : forall ops,
    Forall (fun o => ri_exhausted (frange o) = false) ops ->
    fuzz_coalescei cmp veqb st ops =
      if forallb (fun o => valid_rangei cmp (frange o)) ops then Ret tt else Panicked PAssert.
  Proof. exact (coalescei_ok HO HS HV). Qed.
  Theorem C92_inclusive_gaps : forall ops outer,
    Forall (fun o => ri_exhausted (frange o) = false) ops -> ri_exhausted outer = false ->
    exists n, forall fuel, (n <= fuel)%nat ->
    fuzz_gapsi cmp veqb st fuel ops outer =
      if forallb (fun o => valid_rangei cmp (frange o)) ops then Ret tt else Panicked PAssert.
  Proof. exact (gapsi_ok HO HS HV Hid). Qed.
End C92.

(** The targets as written: keys and values are [u8]; with overflow checks or without. *)
Theorem C92_u8 : forall md,
  (forall ops, fuzz_coalesce (icmp u8) (eqb (icmp u8)) ops = Ret tt) /\
  (forall ops outer, exists n, forall fuel, (n <= fuel)%nat -> fuzz_gaps (icmp u8) (eqb (icmp u8)) fuel ops outer = Ret tt) /\
  (forall ops, Forall (fun o => ri_exhausted (frange o) = false /\ valid_rangei (icmp u8) (frange o) = true) ops ->
     fuzz_coalescei (icmp u8) (eqb (icmp u8)) (int_steps md u8) ops = Ret tt) /\
  (forall ops s e, Forall (fun o => ri_exhausted (frange o) = false /\ valid_rangei (icmp u8) (frange o) = true) ops ->
     exists n, forall fuel, (n <= fuel)%nat ->
     fuzz_gapsi (icmp u8) (eqb (icmp u8)) (int_steps md u8) fuel ops (incl s e) = Ret tt).
Proof. exact u8_targets. Qed.

(** Three inserts and a removal, one of them skipped by the half-open target and
    fatal to the inclusive one; queries cutting entries, past the ends of the map,
    at both extremes of [u8], and backward inside an entry. *)
Definition fz_ops : list (fop (range (ival u8)) (ival u8)) :=
  [FInsert (mkR (b8 0) (b8 90)) (b8 1); FInsert (mkR (b8 90) (b8 120)) (b8 2); FRemove (mkR (b8 10) (b8 101));
   FInsert (mkR (b8 7) (b8 3)) (b8 1); FInsert (mkR (b8 120) (b8 255)) (b8 2)].
Definition fzi_ops : list (fop (rangei (ival u8)) (ival u8)) :=
  [FInsert (incl (b8 0) (b8 90)) (b8 1); FInsert (incl (b8 91) (b8 120)) (b8 2); FRemove (incl (b8 10) (b8 100));
   FInsert (incl (b8 121) (b8 255)) (b8 2)].
Example C92_example : forall md,
  Forall (fun o => ri_exhausted (frange o) = false /\ valid_rangei (icmp u8) (frange o) = true) fzi_ops /\
  map (fun e => (proj1_sig (r_start (fst e)), proj1_sig (r_end (fst e)), proj1_sig (snd e)))
    (rm_iter (snd (for_each (fapply (icmp u8) (eqb (icmp u8))) fz_ops rm_new))) = [(0, 10, 1); (101, 255, 2)] /\
  map (fun e => (proj1_sig (ri_start (fst e)), proj1_sig (ri_end (fst e)), proj1_sig (snd e)))
    (im_iter (snd (for_each (fapplyi (icmp u8) (eqb (icmp u8)) (int_steps md u8)) fzi_ops im_new))) = [(0, 9, 1); (101, 255, 2)] /\
  map (fun q => fuzz_gaps (icmp u8) (eqb (icmp u8)) 9 fz_ops (mkR (b8 (fst q)) (b8 (snd q))))
    [(0, 255); (3, 102); (103, 100); (103, 103)] = repeat (Ret tt) 4 /\
  map (fun q => fuzz_gapsi (icmp u8) (eqb (icmp u8)) (int_steps md u8) 9 fzi_ops (incl (b8 (fst q)) (b8 (snd q))))
    [(0, 255); (3, 102); (103, 100); (103, 103)] = repeat (Ret tt) 4 /\
  fuzz_coalescei (icmp u8) (eqb (icmp u8)) (int_steps md u8) [FInsert (incl (b8 7) (b8 3)) (b8 1)] = Panicked PAssert.
Proof.
  intros md. split; [repeat constructor; destruct md; vm_compute; reflexivity|].
  destruct md; vm_compute; repeat split; reflexivity.
Qed.
(** What the targets are looking for does make them panic: neighbours left
    unmerged, a hole, an overlap; and too little fuel is no success. *)
Example C92_example_alarms :
  let co := windows (fun a b : range Z * Z => fassert (negb (eqb Z.compare (r_end (fst a)) (r_start (fst b)) && (snd a =? snd b)))) in
  let wi := windows (fun a b : range Z => fassert (eqb Z.compare (r_end a) (r_start b))) in
  co [(mkR 0 3, 1); (mkR 3 5, 1)] = Panicked PAssert /\ co [(mkR 0 3, 1); (mkR 3 5, 2); (mkR 6 7, 2)] = Ret tt /\
  wi (sort_by (fun a b => leb Z.compare (r_start a) (r_start b)) [mkR 5 9; mkR 0 3; mkR 3 5]) = Ret tt /\
  wi (sort_by (fun a b => leb Z.compare (r_start a) (r_start b)) [mkR 5 9; mkR 0 3]) = Panicked PAssert /\
  wi (sort_by (fun a b => leb Z.compare (r_start a) (r_start b)) [mkR 5 9; mkR 0 6]) = Panicked PAssert /\
  fuzz_gaps Z.compare Z.eqb 1 [FInsert (mkR 0 3) 1] (mkR 0 9) = OutOfFuel /\
  fuzz_gaps Z.compare Z.eqb 2 [FInsert (mkR 0 3) 1] (mkR 0 9) = Ret tt.
Proof. vm_compute. repeat split; reflexivity. Qed.
(** each assertion of the gaps targets can fail *)
Example C92_example_gaps_alarms :
  let f := fuzz_gaps_asserts Z.compare (mkR 0 9) in let g := fuzz_gapsi_asserts Z.compare zst (incl 0 8) in
  f [mkR 0 4; mkR 4 9] = Ret tt /\ f [] = Panicked PAssert /\ f [mkR 1 9] = Panicked PAssert /\
  f [mkR 0 8] = Panicked PAssert /\ f [mkR 0 4; mkR 5 9] = Panicked PAssert /\
  fuzz_gaps_asserts Z.compare (mkR 9 9) [] = Ret tt /\ fuzz_gaps_asserts Z.compare (mkR 9 9) [mkR 9 10] = Panicked PAssert /\
  g [incl 0 3; incl 4 8] = Ret tt /\ g [] = Panicked PAssert /\ g [incl 1 8] = Panicked PAssert /\
  g [incl 0 7] = Panicked PAssert /\ g [incl 0 3; incl 5 8] = Panicked PAssert /\
  fuzz_gapsi_asserts Z.compare zst (incl 9 8) [] = Ret tt /\ fuzz_gapsi_asserts Z.compare zst (incl 9 8) [incl 9 9] = Panicked PAssert.
Proof. vm_compute. auto 20. Qed.

(** The assumption on [==] is needed: with one that is not symmetric both coalescing
    targets find neighbours which [insert] compared the other way round. *)
Theorem C92_symmetry_needed_refuted : exists (veqb : Z -> Z -> bool) ops opsi,
  (forall a, veqb a a = true) /\ (forall a b c, veqb a b = true -> veqb b c = true -> veqb a c = true) /\
  Forall (fun o => valid_rangei Z.compare (frange o) = true /\ ri_exhausted (frange o) = false) opsi /\
  fuzz_coalesce Z.compare veqb ops = Panicked PAssert /\ fuzz_coalescei Z.compare veqb zst opsi = Panicked PAssert.
Proof.
  exists Z.geb, [FInsert (mkR 2 4) 1; FInsert (mkR 0 2) 2], [FInsert (incl 2 3) 1; FInsert (incl 0 1) 2].
  split; [|split].
  - intros a. rewrite Z.geb_leb. apply Z.leb_refl.
  - intros a b c. rewrite !Z.geb_leb, !Z.leb_le. lia.
  - vm_compute. repeat split; repeat constructor.
Qed.

Print Assumptions C92_coalesce.
Print Assumptions C92_gaps.
Print Assumptions C92_inclusive_coalesce.
Print Assumptions C92_inclusive_gaps.
Print Assumptions C92_u8.
Print Assumptions C92_symmetry_needed_refuted.
