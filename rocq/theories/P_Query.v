(** Gaps and overlapping ranges, taken together (C70): what the fuzz targets
    fuzz/fuzz_targets/rangemap_gaps.rs:46-87 and
    fuzz/fuzz_targets/rangemap_inclusive_gaps.rs:45-86 assert of random maps.
    [gs] is what [gaps] yields, [es] what [overlapping] yields; [clip] cuts a
    range to the query, [tiles] says that the ranges fill it in order, without
    overlaps or holes (Spec.v). *)
From Coq Require Import List Bool Sorting.Sorted Sorting.Permutation ZArith Lia.
From Verif Require Import Order Outcome BTree Ranges History Spec MapModel IMapModel SetModel ISetModel
  StepModel StepFacts ListLemmas MapProps IMapProps Tiling Instances.
Import ListNotations.
Local Open Scope Z_scope.

Section Maps.
  Context {K V : Type} {cmp : K -> K -> comparison} {veqb : V -> V -> bool} {st : stepfns K}.
  Context (HO : TotalOrd cmp) (HV : PartialEquiv veqb).

  Theorem C70_map_tiles : forall ops outer, valid_range cmp outer = true ->
    exists g o gs es l,
      rm_gaps cmp (rm_run cmp veqb ops) outer = Ret g /\ (forall n, nexts (gp_next cmp) n g = yields n gs) /\
      rm_overlapping cmp (rm_run cmp veqb ops) outer = Ret o /\
      (forall n, nexts (ov_next cmp) n o = yields n es) /\
      Permutation l (gs ++ map (fun e => clip cmp outer (fst e)) es) /\
      tiles cmp (r_start outer) (r_end outer) l.
  Proof. exact (map_tiles HO HV). Qed.
  (** An empty query: no gaps, and nothing is left of the ranges. *)
  Theorem C70_map_empty_query : forall ops outer, valid_range cmp outer = false ->
    exists g o es,
      rm_gaps cmp (rm_run cmp veqb ops) outer = Ret g /\ (forall n, nexts (gp_next cmp) n g = repeat None n) /\
      rm_overlapping cmp (rm_run cmp veqb ops) outer = Ret o /\
      (forall n, nexts (ov_next cmp) n o = yields n es) /\
      forall e, In e es -> valid_range cmp (clip cmp outer (fst e)) = false.
  Proof. exact (map_no_tiles HO HV). Qed.

  Context (HS : StepLaws cmp st).
  Theorem C70_inclusive_map_tiles : forall ops outer, valid_rangei cmp outer = true ->
    exists g o gs es l,
      im_gaps cmp (im_run cmp veqb st ops) outer = Ret g /\
      (forall n, nexts_m (gpi_next cmp st) n g = map Ret (yields n gs)) /\
      im_overlapping cmp (im_run cmp veqb st ops) outer = Ret o /\
      (forall n, nexts (ovi_next cmp) n o = yields n es) /\
      Permutation l (gs ++ map (fun e => clipi cmp outer (fst e)) es) /\
      tilesi cmp (ri_start outer) (ri_end outer) l.
  Proof. exact (imap_tiles HO HS HV). Qed.
  Theorem C70_inclusive_map_backward_query : forall ops outer, valid_rangei cmp outer = false ->
    exists g o es,
      im_gaps cmp (im_run cmp veqb st ops) outer = Ret g /\
      (forall n, nexts_m (gpi_next cmp st) n g = repeat (Ret None) n) /\
      im_overlapping cmp (im_run cmp veqb st ops) outer = Ret o /\
      (forall n, nexts (ovi_next cmp) n o = yields n es) /\
      forall e, In e es -> valid_rangei cmp (clipi cmp outer (fst e)) = false.
  Proof. exact (imap_no_tiles HO HS HV). Qed.

  Theorem C70_set_tiles : forall ops outer, valid_range cmp outer = true ->
    exists g o gs es l,
      rs_gaps cmp (rs_run cmp ops) outer = Ret g /\ (forall n, nexts (rs_gaps_next cmp) n g = yields n gs) /\
      rs_overlapping cmp (rs_run cmp ops) outer = Ret o /\
      (forall n, nexts (rs_ov_next cmp) n o = yields n es) /\
      Permutation l (gs ++ map (clip cmp outer) es) /\
      tiles cmp (r_start outer) (r_end outer) l.
  Proof. exact (set_tiles HO). Qed.
  Theorem C70_set_empty_query : forall ops outer, valid_range cmp outer = false ->
    exists g o es,
      rs_gaps cmp (rs_run cmp ops) outer = Ret g /\ (forall n, nexts (rs_gaps_next cmp) n g = repeat None n) /\
      rs_overlapping cmp (rs_run cmp ops) outer = Ret o /\
      (forall n, nexts (rs_ov_next cmp) n o = yields n es) /\
      forall r, In r es -> valid_range cmp (clip cmp outer r) = false.
  Proof. exact (set_no_tiles HO). Qed.

  Theorem C70_inclusive_set_tiles : forall ops outer, valid_rangei cmp outer = true ->
    exists g o gs es l,
      is_gaps cmp (is_run cmp st ops) outer = Ret g /\
      (forall n, nexts_m (is_gaps_next cmp st) n g = map Ret (yields n gs)) /\
      is_overlapping cmp (is_run cmp st ops) outer = Ret o /\
      (forall n, nexts (is_ov_next cmp) n o = yields n es) /\
      Permutation l (gs ++ map (clipi cmp outer) es) /\
      tilesi cmp (ri_start outer) (ri_end outer) l.
  Proof. exact (iset_tiles HO HS). Qed.
  Theorem C70_inclusive_set_backward_query : forall ops outer, valid_rangei cmp outer = false ->
    exists g o es,
      is_gaps cmp (is_run cmp st ops) outer = Ret g /\
      (forall n, nexts_m (is_gaps_next cmp st) n g = repeat (Ret None) n) /\
      is_overlapping cmp (is_run cmp st ops) outer = Ret o /\
      (forall n, nexts (is_ov_next cmp) n o = yields n es) /\
      forall r, In r es -> valid_rangei cmp (clipi cmp outer r) = false.
  Proof. exact (iset_no_tiles HO HS). Qed.
End Maps.

(** A query cutting entries at both ends, with gaps in between; the map is
    {0..4: 1, 4..6: 2, 6..8: 1, 12..20: 2, 40..60: 3}. *)
Example C70_example :
  let m := rm_run Z.compare Z.eqb ex_ops in
  omap (nexts (gp_next Z.compare) 3) (rm_gaps Z.compare m (mkR 5 50)) =
    Ret [Some (mkR 8 12); Some (mkR 20 40); None] /\
  omap (fun o => map (option_map (fun e => clip Z.compare (mkR 5 50) (fst e))) (nexts (ov_next Z.compare) 5 o))
    (rm_overlapping Z.compare m (mkR 5 50)) =
    Ret [Some (mkR 5 6); Some (mkR 6 8); Some (mkR 12 20); Some (mkR 40 50); None] /\
  tiles Z.compare 5 50 [mkR 5 6; mkR 6 8; mkR 8 12; mkR 12 20; mkR 20 40; mkR 40 50] /\
  ~ tiles Z.compare 5 50 [mkR 5 6; mkR 6 8; mkR 8 12; mkR 13 20; mkR 20 40; mkR 40 50] /\
  (* a backward query inside an entry: [overlapping] yields it, clipped to nothing *)
  omap (nexts (ov_next Z.compare) 2) (rm_overlapping Z.compare m (mkR 16 14)) = Ret [Some (mkR 12 20, 2); None] /\
  clip Z.compare (mkR 16 14) (mkR 12 20) = mkR 16 14 /\
  let i := im_run Z.compare Z.eqb zst iex_ops in
  omap (nexts_m (gpi_next Z.compare zst) 3) (im_gaps Z.compare i (incl 5 49)) =
    Ret [Ret (Some (incl 8 11)); Ret (Some (incl 20 39)); Ret None] /\
  tilesi Z.compare 5 49 [incl 5 5; incl 6 7; incl 8 11; incl 12 19; incl 20 39; incl 40 49].
Proof.
  intros m. split; [vm_compute; reflexivity|]. split; [vm_compute; reflexivity|].
  split; [vm_compute; repeat split; reflexivity|]. split; [intros H; vm_compute in H; decompose [and] H; congruence|].
  split; [vm_compute; reflexivity|]. split; [vm_compute; reflexivity|]. intros i.
  split; [vm_compute; reflexivity|].
  assert (L : forall a b, ltb Z.compare a b = true -> a < b)
    by (intros a b; unfold ltb; destruct (Z.compare_spec a b); easy).
  cbn [tilesi ri_start ri_end incl].
  splits; try reflexivity; intros k H1%L H2%L; cbn in H1, H2; lia.
Qed.

(** also with ranges whose iteration was exhausted: they tile by their bounds *)
Example C70_example_exhausted :
  let i := im_run Z.compare Z.eqb zst [OInsert (mkRI 0 9 true) 1; OInsert (mkRI 20 29 true) 2; ORemove (mkRI 24 25 true)] in
  im_iter i = [(mkRI 0 9 true, 1); (incl 20 23, 2); (incl 26 29, 2)] /\
  omap (nexts_m (gpi_next Z.compare zst) 3) (im_gaps Z.compare i (mkRI 5 27 true)) =
    Ret [Ret (Some (incl 10 19)); Ret (Some (incl 24 25)); Ret None] /\
  omap (fun o => map (option_map (fun e => clipi Z.compare (mkRI 5 27 true) (fst e))) (nexts (ovi_next Z.compare) 4 o))
    (im_overlapping Z.compare i (mkRI 5 27 true)) = Ret [Some (incl 5 9); Some (incl 20 23); Some (incl 26 27); None].
Proof. repeat split. Qed.
Print Assumptions C70_map_tiles.
Print Assumptions C70_map_empty_query.
Print Assumptions C70_inclusive_map_tiles.
Print Assumptions C70_inclusive_map_backward_query.
Print Assumptions C70_set_tiles.
Print Assumptions C70_set_empty_query.
Print Assumptions C70_inclusive_set_tiles.
Print Assumptions C70_inclusive_set_backward_query.
