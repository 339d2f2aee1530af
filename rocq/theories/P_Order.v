(** The order on maps and sets (C68): [Ord] and [PartialOrd] compare the entries
    from the lowest one up; the first pair of entries that differ decides, by
    start, then end, then value; a map that runs out of entries comes first.
    [total cmp] is [cmp] seen as a partial comparison (Spec.v).  The theorems
    about [partial_cmp] assume nothing about the comparisons. *)
From Coq Require Import List Bool Sorting.Sorted ZArith.
From Verif Require Import Order Outcome BTree Ranges History Spec MapModel IMapModel SetModel ISetModel
  StepModel StepFacts OrdFacts IMapProps Instances.
Import ListNotations.
Local Open Scope Z_scope.

Section Order.
  Context {K V : Type}.

  Theorem C68_map_cmp : forall (cmp : K -> K -> comparison) (vcmp : V -> V -> comparison) a b,
    let same := entry_same r_start r_end (total cmp) (total vcmp) in
    let first := entry_first r_start r_end (total cmp) (total vcmp) in
    (rm_cmp cmp vcmp a b = Eq <-> Forall2 same (rm_iter a) (rm_iter b)) /\
    (rm_cmp cmp vcmp a b = Lt <-> lex_before same (first (Some Lt)) (rm_iter a) (rm_iter b)) /\
    (rm_cmp cmp vcmp a b = Gt <->
     lex_before (fun y x => same x y) (fun y x => first (Some Gt) x y) (rm_iter b) (rm_iter a)).
  Proof. exact (fun cmp vcmp => expanded_cmp r_start r_end cmp vcmp). Qed.
  Theorem C68_map_partial_cmp : forall (kc : K -> K -> option comparison) (vc : V -> V -> option comparison) a b,
    let same := entry_same r_start r_end kc vc in
    let first := entry_first r_start r_end kc vc in
    (rm_partial_cmp kc vc a b = Some Eq <-> Forall2 same (rm_iter a) (rm_iter b)) /\
    (rm_partial_cmp kc vc a b = Some Lt <-> lex_before same (first (Some Lt)) (rm_iter a) (rm_iter b)) /\
    (rm_partial_cmp kc vc a b = Some Gt <->
     lex_before (fun y x => same x y) (fun y x => first (Some Gt) x y) (rm_iter b) (rm_iter a)) /\
    (rm_partial_cmp kc vc a b = None <-> lex_stuck same (first None) (rm_iter a) (rm_iter b)).
  Proof. exact (fun kc vc => expanded_pcmp r_start r_end kc vc). Qed.

  Theorem C68_inclusive_map_cmp : forall (cmp : K -> K -> comparison) (vcmp : V -> V -> comparison) a b,
    let same := entry_same ri_start ri_end (total cmp) (total vcmp) in
    let first := entry_first ri_start ri_end (total cmp) (total vcmp) in
    (im_cmp cmp vcmp a b = Eq <-> Forall2 same (im_iter a) (im_iter b)) /\
    (im_cmp cmp vcmp a b = Lt <-> lex_before same (first (Some Lt)) (im_iter a) (im_iter b)) /\
    (im_cmp cmp vcmp a b = Gt <->
     lex_before (fun y x => same x y) (fun y x => first (Some Gt) x y) (im_iter b) (im_iter a)).
  Proof. exact (fun cmp vcmp => expanded_cmp ri_start ri_end cmp vcmp). Qed.
  Theorem C68_inclusive_map_partial_cmp :
    forall (kc : K -> K -> option comparison) (vc : V -> V -> option comparison) a b,
    let same := entry_same ri_start ri_end kc vc in
    let first := entry_first ri_start ri_end kc vc in
    (im_partial_cmp kc vc a b = Some Eq <-> Forall2 same (im_iter a) (im_iter b)) /\
    (im_partial_cmp kc vc a b = Some Lt <-> lex_before same (first (Some Lt)) (im_iter a) (im_iter b)) /\
    (im_partial_cmp kc vc a b = Some Gt <->
     lex_before (fun y x => same x y) (fun y x => first (Some Gt) x y) (im_iter b) (im_iter a)) /\
    (im_partial_cmp kc vc a b = None <-> lex_stuck same (first None) (im_iter a) (im_iter b)).
  Proof. exact (fun kc vc => expanded_pcmp ri_start ri_end kc vc). Qed.

  (** Sets: the ranges, without values. *)
  Notation rs s := (map fst (rs_iter s)).
  Notation is s := (map fst (is_iter s)).
  Theorem C68_set_cmp : forall (cmp : K -> K -> comparison) a b,
    let same := range_same r_start r_end (total cmp) in
    let first := range_first r_start r_end (total cmp) in
    (rs_cmp cmp a b = Eq <-> Forall2 same (rs a) (rs b)) /\
    (rs_cmp cmp a b = Lt <-> lex_before same (first (Some Lt)) (rs a) (rs b)) /\
    (rs_cmp cmp a b = Gt <->
     lex_before (fun y x => same x y) (fun y x => first (Some Gt) x y) (rs b) (rs a)).
  Proof. exact (fun cmp => ranges_cmp r_start r_end cmp). Qed.
  Theorem C68_set_partial_cmp : forall (kc : K -> K -> option comparison) a b,
    let same := range_same r_start r_end kc in
    let first := range_first r_start r_end kc in
    (rs_partial_cmp kc a b = Some Eq <-> Forall2 same (rs a) (rs b)) /\
    (rs_partial_cmp kc a b = Some Lt <-> lex_before same (first (Some Lt)) (rs a) (rs b)) /\
    (rs_partial_cmp kc a b = Some Gt <->
     lex_before (fun y x => same x y) (fun y x => first (Some Gt) x y) (rs b) (rs a)) /\
    (rs_partial_cmp kc a b = None <-> lex_stuck same (first None) (rs a) (rs b)).
  Proof. exact (fun kc => ranges_pcmp r_start r_end kc). Qed.
  Theorem C68_inclusive_set_cmp : forall (cmp : K -> K -> comparison) a b,
    let same := range_same ri_start ri_end (total cmp) in
    let first := range_first ri_start ri_end (total cmp) in
    (is_cmp cmp a b = Eq <-> Forall2 same (is a) (is b)) /\
    (is_cmp cmp a b = Lt <-> lex_before same (first (Some Lt)) (is a) (is b)) /\
    (is_cmp cmp a b = Gt <->
     lex_before (fun y x => same x y) (fun y x => first (Some Gt) x y) (is b) (is a)).
  Proof. exact (fun cmp => ranges_cmp ri_start ri_end cmp). Qed.
  Theorem C68_inclusive_set_partial_cmp : forall (kc : K -> K -> option comparison) a b,
    let same := range_same ri_start ri_end kc in
    let first := range_first ri_start ri_end kc in
    (is_partial_cmp kc a b = Some Eq <-> Forall2 same (is a) (is b)) /\
    (is_partial_cmp kc a b = Some Lt <-> lex_before same (first (Some Lt)) (is a) (is b)) /\
    (is_partial_cmp kc a b = Some Gt <->
     lex_before (fun y x => same x y) (fun y x => first (Some Gt) x y) (is b) (is a)) /\
    (is_partial_cmp kc a b = None <-> lex_stuck same (first None) (is a) (is b)).
  Proof. exact (fun kc => ranges_pcmp ri_start ri_end kc). Qed.
End Order.

(** A value that compares with nothing ([f64::NAN]), played by 0. *)
Definition nan_pcmp (a b : Z) : option comparison :=
  if (a =? 0) || (b =? 0) then None else Some (Z.compare a b).
Notation zr := (rm_run Z.compare Z.eqb).
Notation zi := (im_run Z.compare Z.eqb zst).
Example C68_example :
  (* fewer entries come first; then starts, ends and values decide, in this order *)
  rm_cmp Z.compare Z.compare (zr [OInsert (mkR 0 4) 1]) (zr [OInsert (mkR 0 4) 1; OInsert (mkR 6 7) 1]) = Lt /\
  rm_cmp Z.compare Z.compare (zr [OInsert (mkR 1 2) 1]) (zr [OInsert (mkR 0 9) 9]) = Gt /\
  rm_cmp Z.compare Z.compare (zr [OInsert (mkR 0 3) 9]) (zr [OInsert (mkR 0 4) 1]) = Lt /\
  rm_cmp Z.compare Z.compare (zr [OInsert (mkR 0 4) 2]) (zr [OInsert (mkR 0 4) 1; OInsert (mkR 6 7) 1]) = Gt /\
  im_cmp Z.compare Z.compare (zi [OInsert (incl 0 4) 2]) (zi [OInsert (incl 0 4) 1; OInsert (incl 6 7) 1]) = Gt /\
  (* the first difference decides even when a later entry cannot be compared *)
  rm_partial_cmp (total Z.compare) nan_pcmp (zr [OInsert (mkR 0 4) 2; OInsert (mkR 5 6) 0])
    (zr [OInsert (mkR 0 4) 3; OInsert (mkR 5 6) 0]) = Some Lt /\
  rm_partial_cmp (total Z.compare) nan_pcmp (zr [OInsert (mkR 0 4) 3; OInsert (mkR 5 6) 0])
    (zr [OInsert (mkR 0 4) 3; OInsert (mkR 5 6) 0]) = None /\
  im_partial_cmp (total Z.compare) nan_pcmp (zi [OInsert (incl 0 4) 3; OInsert (incl 5 6) 0])
    (zi [OInsert (incl 0 4) 3; OInsert (incl 5 7) 0]) = Some Lt /\
  rs_cmp Z.compare (rs_run Z.compare [SInsert (mkR 0 4)]) (rs_run Z.compare [SInsert (mkR 0 3); SInsert (mkR 5 6)]) = Gt /\
  is_cmp Z.compare (is_run Z.compare zst [SInsert (incl 0 4)])
    (is_run Z.compare zst [SInsert (incl 0 4); SInsert (incl 6 6)]) = Lt /\
  rs_partial_cmp nan_pcmp (rs_run Z.compare [SInsert (mkR 1 4)]) (rs_run Z.compare [SInsert (mkR 0 4)]) = None /\
  is_partial_cmp nan_pcmp (is_run Z.compare zst [SInsert (incl 1 4)])
    (is_run Z.compare zst [SInsert (incl 1 5)]) = Some Lt.
Proof. vm_compute. repeat split. Qed.

Print Assumptions C68_map_cmp.
Print Assumptions C68_map_partial_cmp.
Print Assumptions C68_inclusive_map_cmp.
Print Assumptions C68_inclusive_map_partial_cmp.
Print Assumptions C68_set_cmp.
Print Assumptions C68_set_partial_cmp.
Print Assumptions C68_inclusive_set_cmp.
Print Assumptions C68_inclusive_set_partial_cmp.
