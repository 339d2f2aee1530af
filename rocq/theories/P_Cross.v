(** Properties relating several parts of the crate (C60, C61, C65, C67).
    Statements only: every proof is a reference to a lemma. *)
From Coq Require Import List Bool ZArith.
From Verif Require Import Order Outcome BTree Ranges History Spec MapModel IMapModel SetModel ISetModel
  StepModel StepFacts IterFacts Instances MapFacts MapMore MapProps ISim Cuts IFacts IMapProps SetFacts
  SetProps ISetProps Natural Cross DenseModel DenseFacts CrossProps
  CloneFacts RelabelIncl OpsNatural SpecProg ProgModel ProgSub ProgRuns.
Import ListNotations.
Local Open Scope Z_scope.

Definition b32 (z : Z) : ival u32 :=
  match to_ival u32 z with Some x => x | None => exist _ 0 eq_refl end.

(** ** C60: [s..e+1] in a [RangeMap] and [s..=e] in a [RangeInclusiveMap]

    [f] says which integer a key stands for; the step functions step by one
    wherever there is a key beyond. *)
Section C60.
  Context {K V : Type} {cmp : K -> K -> comparison} {veqb : V -> V -> bool} {st : stepfns K} (f : K -> Z).
  Context (Hc : forall a b, cmp a b = (f a ?= f b)).
  Context (Hs : forall a b, f a < f b -> exists s, add_one st a = Some s /\ f s = f a + 1).
  Context (Hp : forall a b, f b < f a -> exists p, sub_one st a = Some p /\ f p = f a - 1).
  Context (HV : PartialEquiv veqb).

  Theorem C60_same_lookups : forall ops iops k, Forall2 (same_call f) ops iops ->
    rm_get cmp (rm_run cmp veqb ops) k = im_get cmp (im_run cmp veqb st iops) k.
  Proof. exact (cross_get f Hc Hs Hp HV). Qed.
  Theorem C60_same_entries : forall ops iops, Forall2 (same_call f) ops iops ->
    Forall2 (same_entry f) (rm_iter (rm_run cmp veqb ops)) (im_iter (im_run cmp veqb st iops)).
  Proof. exact (cross_entries f Hc Hs Hp HV). Qed.
  (** ... and each call returns or panics alike *)
  Theorem C60_same_outcomes : forall ops iops o oi,
    Forall2 (same_call f) ops iops -> same_call f o oi ->
    fst (rm_exec cmp veqb o (rm_run cmp veqb ops)) = fst (im_exec cmp veqb st oi (im_run cmp veqb st iops)).
  Proof. exact (cross_outcome f Hc Hs Hp HV). Qed.
End C60.
(** every primitive integer type qualifies, in both build modes *)
Theorem C60_integer_types : forall {V} {veqb : V -> V -> bool}, PartialEquiv veqb ->
  forall md t, 0 < i_bits t -> forall ops iops, Forall2 (same_call (fun x : ival t => proj1_sig x)) ops iops ->
  Forall2 (same_entry (fun x : ival t => proj1_sig x))
    (rm_iter (rm_run (icmp t) veqb ops)) (im_iter (im_run (icmp t) veqb (int_steps md t) iops)).
Proof. exact @cross_int. Qed.

Definition h8_ops : list (op (range (ival u8)) Z) :=
  [OInsert (mkR (b8 0) (b8 255)) 1; OExtend [(mkR (b8 250) (b8 255), 2); (mkR (b8 7) (b8 7), 3); (mkR (b8 9) (b8 10), 3)];
   ORemove (mkR (b8 0) (b8 4)); OInsert (mkR (b8 100) (b8 111)) 2; OInsert (mkR (b8 90) (b8 100)) 2].
Definition i8_ops : list (op (rangei (ival u8)) Z) :=
  [OInsert (incl (b8 0) (b8 254)) 1; OExtend [(incl (b8 250) (b8 254), 2); (incl (b8 7) (b8 6), 3); (incl (b8 9) (b8 9), 3)];
   ORemove (incl (b8 0) (b8 3)); OInsert (incl (b8 100) (b8 110)) 2; OInsert (incl (b8 90) (b8 99)) 2].
Example C60_example_hyp : Forall2 (same_call (fun x : ival u8 => proj1_sig x)) h8_ops i8_ops.
Proof. unfold h8_ops, i8_ops, same_call, same_entry, same_keys. repeat constructor; vm_compute; reflexivity. Qed.
Example C60_example :
  map (fun e => (proj1_sig (r_start (fst e)), proj1_sig (r_end (fst e)), snd e))
      (rm_run (icmp u8) Z.eqb h8_ops) = [(4, 90, 1); (90, 111, 2); (111, 250, 1); (250, 255, 2)] /\
  u8_show (im_run (icmp u8) Z.eqb (int_steps Checked u8) i8_ops) =
    [(4, 89, 1); (90, 110, 2); (111, 249, 1); (250, 254, 2)].
Proof. vm_compute. auto. Qed.

(** ** C61: [Arbitrary] builds a map from any generated vector *)
Section C61.
  Context {K V : Type} {cmp : K -> K -> comparison} {veqb : V -> V -> bool} {st : stepfns K}.
  Context (HO : TotalOrd cmp) (HS : StepLaws cmp st) (HV : PartialEquiv veqb).

  (** the result is the map reached by inserting the non-empty ranges in order,
      so every theorem about [run] applies to it *)
  Theorem C61_map_arbitrary : forall l : list (range K * V),
    rm_arbitrary cmp veqb l =
    Ret (rm_run cmp veqb (map (fun e => OInsert (fst e) (snd e)) (filter (fun e => valid_range cmp (fst e)) l))).
  Proof. exact (map_arbitrary HO HV). Qed.
  Theorem C61_inclusive_map_arbitrary : forall l : list (rangei K * V),
    im_arbitrary cmp veqb st l =
    Ret (im_run cmp veqb st (map (fun e => OInsert (fst e) (snd e))
      (filter (fun e => negb (ri_exhausted (fst e)) && valid_rangei cmp (fst e)) l))).
  Proof. exact (imap_arbitrary HO HS HV). Qed.
  Theorem C61_set_arbitrary : forall l : list (range K * unit),
    rs_arbitrary cmp l =
    Ret (rs_run cmp (map SInsert (filter (valid_range cmp) (map fst l)))).
  Proof. exact (set_arbitrary HO). Qed.
  Theorem C61_inclusive_set_arbitrary : forall l : list (rangei K * unit),
    is_arbitrary cmp st l =
    Ret (is_run cmp st (map SInsert
      (filter (fun r => negb (ri_exhausted r) && valid_rangei cmp r) (map fst l)))).
  Proof. exact (iset_arbitrary HO HS). Qed.
End C61.

Example C61_example :
  rm_arbitrary Z.compare Z.eqb [(mkR 5 3, 1); (mkR 0 10, 2); (mkR 4 4, 3); (mkR 3 6, 4)] =
    Ret [(mkR 0 3, 2); (mkR 3 6, 4); (mkR 6 10, 2)] /\
  im_arbitrary Z.compare Z.eqb zst [(incl 5 3, 1); (incl 0 10, 2); (mkRI 4 4 true, 3); (incl 4 4, 4)] =
    Ret [(incl 0 3, 2); (incl 4 4, 4); (incl 5 10, 2)] /\
  rs_arbitrary Z.compare [(mkR 5 3, tt); (mkR 0 10, tt); (mkR 10 12, tt)] = Ret [(mkR 0 12, tt)] /\
  is_arbitrary Z.compare zst [(incl 5 3, tt); (incl 0 10, tt); (incl 11 12, tt)] = Ret [(incl 0 12, tt)].
Proof. vm_compute. auto. Qed.

(** ** C65: the dense oracle of the crate's own tests *)
Section C65.
  Context {V : Type} {veqb : V -> V -> bool} (HV : PartialEquiv veqb) (Hrefl : forall v, veqb v v = true).
  Notation val := (@proj1_sig Z (fun z => in_ity u32 z = true)).
  Notation irun := (im_run (icmp u32) veqb (int_steps Checked u32)).
  Notation hrun := (rm_run (icmp u32) veqb).
  Notation ins l := (map (fun e => OInsert (fst e) (snd e)) l).

  (** What inclusive_map.rs:1331-1340 asserts for some permutations of some
      ranges, for all sequences of inserts: the dense map, filled by the same
      inserts, iterates as the range map does. *)
  Theorem C65_inclusive_oracle : forall l : list (rangei (ival u32) * V),
    (forall e, In e l -> ri_exhausted (fst e) = false) ->
    exists D, (forall n, nexts_m (d_next veqb) n
                           (d_iter (d_insert_all (map (fun e => (d_range (fst e), snd e)) l) d_new)) =
                         map Ret (yields n D)) /\
      Forall2 (fun x y => fst x = d_range (fst y) /\ veqb (snd x) (snd y) = true) D (im_iter (irun (ins l))).
  Proof. exact (ioracle HV Hrefl). Qed.
  (** The same for map.rs:1209-1221: [s..=(e - 1)] against [s..e]. *)
  Theorem C65_oracle : forall l : list (range (ival u32) * V),
    exists D, (forall n, nexts_m (d_ee_next veqb) n
                 (d_iter (d_insert_all (map (fun e => (incl (val (r_start (fst e))) (val (r_end (fst e)) - 1), snd e)) l)
                            d_new)) = map Ret (yields n D)) /\
      Forall2 (fun x y => r_start (fst x) = val (r_start (fst y)) /\ r_end (fst x) = val (r_end (fst y)) /\
                          veqb (snd x) (snd y) = true) D (rm_iter (hrun (ins l))).
  Proof. exact (horacle HV Hrefl). Qed.
  (** The assertions themselves, on the [Vec]s. *)
  Theorem C65_to_vec : forall l : list (rangei (ival u32) * V),
    (forall e, In e l -> ri_exhausted (fst e) = false) ->
    exists D, d_to_vec veqb (d_insert_all (map (fun e => (d_range (fst e), snd e)) l) d_new) = Ret D /\
      Forall2 (fun x y => fst x = d_range (fst y) /\ veqb (snd x) (snd y) = true) D (im_iter (irun (ins l))).
  Proof.
    intros l H. destruct (ioracle HV Hrefl l H) as (D & H1 & H2). exists D. split; [|exact H2].
    apply to_vec_ok, H1.
  Qed.
  Theorem C65_to_end_exclusive_vec : forall l : list (range (ival u32) * V),
    exists D, d_to_end_exclusive_vec veqb
                (d_insert_all (map (fun e => (incl (val (r_start (fst e))) (val (r_end (fst e)) - 1), snd e)) l)
                   d_new) = Ret D /\
      Forall2 (fun x y => r_start (fst x) = val (r_start (fst y)) /\ r_end (fst x) = val (r_end (fst y)) /\
                          veqb (snd x) (snd y) = true) D (rm_iter (hrun (ins l))).
  Proof.
    intros l. destruct (horacle HV Hrefl l) as (D & H1 & H2). exists D. split; [|exact H2].
    apply to_ee_vec_ok, H1.
  Qed.
  (** Converting any reachable map never overflows, and iterating the result
      gives back exactly the map's entries, but for exhausted ones, which yield
      no keys. *)
  Theorem C65_from_inclusive_map : forall ops n,
    nexts_m (d_next veqb) n (d_iter (d_from_imap (irun ops))) =
    map Ret (yields n (map (fun e => (d_range (fst e), snd e))
                         (filter (fun e => negb (ri_exhausted (fst e))) (im_iter (irun ops))))).
  Proof. exact (fun ops => ifrom HV ops Hrefl). Qed.
  Theorem C65_from_map : forall ops,
    exists d, d_from_map (hrun ops) = Ret d /\ forall n,
    nexts_m (d_ee_next veqb) n (d_iter d) =
    map Ret (yields n (map (fun e => (mkR (val (r_start (fst e))) (val (r_end (fst e))), snd e)) (rm_iter (hrun ops)))).
  Proof. exact (fun ops => hfrom HV (int_order u32) ops Hrefl). Qed.
  (** The dense map filled by inserts [==] the one converted from the range map
      filled by the same inserts. *)
  Theorem C65_dense_eq : forall l : list (rangei (ival u32) * V),
    (forall e, In e l -> ri_exhausted (fst e) = false) ->
    d_eqb veqb (d_insert_all (map (fun e => (d_range (fst e), snd e)) l) d_new) (d_from_imap (irun (ins l))) = true.
  Proof. exact (ieq HV Hrefl). Qed.
  Theorem C65_dense_eq_half_open : forall l : list (range (ival u32) * V),
    exists d, d_from_map (hrun (ins l)) = Ret d /\
      d_eqb veqb (d_insert_all (map (fun e => (incl (val (r_start (fst e))) (val (r_end (fst e)) - 1), snd e)) l) d_new) d
      = true.
  Proof. exact (heq HV (int_order u32) Hrefl). Qed.
  (** so comparing dense maps is a test: it tells any two different functions apart *)
  Theorem C65_dense_eq_iff : forall l1 l2 : list (rangei Z * V),
    (forall e, In e (l1 ++ l2) -> ri_exhausted (fst e) = false) ->
    d_eqb veqb (d_insert_all l1 d_new) (d_insert_all l2 d_new) = true <->
    forall k, same_opt veqb
      (spec_run (valid_rangei Z.compare) (in_rangei Z.compare) (ins l1) k)
      (spec_run (valid_rangei Z.compare) (in_rangei Z.compare) (ins l2) k).
  Proof. exact (dense_eq_iff Hrefl). Qed.
End C65.
(** Nor is it with an exhausted range, which the range map stores. *)
Theorem C65_oracle_exhausted_refuted : exists (l : list (rangei (ival u32) * Z)),
  nexts_m (d_next Z.eqb) 1 (d_iter (d_insert_all (map (fun e => (d_range (fst e), snd e)) l) d_new)) = [Ret None] /\
  im_run (icmp u32) Z.eqb (int_steps Checked u32) (map (fun e => OInsert (fst e) (snd e)) l) <> [].
Proof. exists [(mkRI (b32 5) (b32 5) true, 0)]. split; [reflexivity|discriminate]. Qed.
(** With a value that is not [==] itself the oracle is not faithful: it never
    coalesces, while the range map keeps the range whole. *)
Theorem C65_oracle_nan_refuted : exists (l : list (rangei (ival u32) * Z)),
  (forall e, In e l -> ri_exhausted (fst e) = false) /\
  nexts_m (d_next nan_eqb) 4 (d_iter (d_insert_all (map (fun e => (d_range (fst e), snd e)) l) d_new)) =
    map Ret [Some (incl 5 5, 0); Some (incl 6 6, 0); Some (incl 7 7, 0); None] /\
  map (fun e => (d_range (fst e), snd e))
      (im_run (icmp u32) nan_eqb (int_steps Checked u32) (map (fun e => OInsert (fst e) (snd e)) l)) =
    [(incl 5 7, 0)].
Proof.
  exists [(incl (b32 5) (b32 7), 0)]. split; [intros e [<- | []]; reflexivity|]. vm_compute. auto.
Qed.

Example C65_from_exhausted_example :
  let m := im_run (icmp u32) Z.eqb (int_steps Checked u32)
             [OInsert (incl (b32 2) (b32 5)) 1; OInsert (mkRI (b32 7) (b32 7) true) 2; OInsert (incl (b32 8) (b32 9)) 1] in
  map (fun e => ri_exhausted (fst e)) m = [false; true; false] /\
  nexts_m (d_next Z.eqb) 3 (d_iter (d_from_imap m)) = map Ret [Some (incl 2 5, 1); Some (incl 8 9, 1); None].
Proof. vm_compute. auto. Qed.
Definition c65_ins : list (rangei (ival u32) * Z) :=
  [(incl (b32 2) (b32 5), 1); (incl (b32 7) (b32 9), 2); (incl (b32 6) (b32 6), 1); (incl (b32 8) (b32 8), 1);
   (incl (b32 4294967294) (b32 4294967295), 3); (incl (b32 3) (b32 2), 4)].
Example C65_example :
  nexts_m (d_next Z.eqb) 6 (d_iter (d_insert_all (map (fun e => (d_range (fst e), snd e)) c65_ins) d_new)) =
    map Ret [Some (incl 2 6, 1); Some (incl 7 7, 2); Some (incl 8 8, 1); Some (incl 9 9, 2);
             Some (incl 4294967294 4294967295, 3); None] /\
  map (fun e => (d_range (fst e), snd e))
      (im_run (icmp u32) Z.eqb (int_steps Checked u32) (map (fun e => OInsert (fst e) (snd e)) c65_ins)) =
    [(incl 2 6, 1); (incl 7 7, 2); (incl 8 8, 1); (incl 9 9, 2); (incl 4294967294 4294967295, 3)] /\
  d_to_vec Z.eqb (d_insert_all (map (fun e => (d_range (fst e), snd e)) c65_ins) d_new) =
    Ret [(incl 2 6, 1); (incl 7 7, 2); (incl 8 8, 1); (incl 9 9, 2); (incl 4294967294 4294967295, 3)] /\
  d_to_end_exclusive_vec Z.eqb
    (d_insert_all [(incl 2 4, 1); (incl 7 8, 2); (incl 5 5, 1); (incl 3 1, 4)] d_new) =
    Ret [(mkR 2 6, 1); (mkR 7 9, 2)].
Proof. vm_compute. auto. Qed.

Example C65_eq_example :
  d_eqb Z.eqb (d_insert_all [(incl 2 6, 1); (incl 4 4, 2)] d_new)
    (d_insert_all [(incl 4 5, 2); (incl 2 3, 1); (incl 5 6, 1); (incl 9 8, 3)] d_new) = true /\
  d_eqb Z.eqb (d_insert_all [(incl 2 6, 1)] d_new) (d_insert_all [(incl 2 5, 1)] d_new) = false /\
  d_eqb Z.eqb (d_insert_all [(incl 2 6, 1)] d_new) (d_insert_all [(incl 3 7, 1)] d_new) = false /\
  d_eqb Z.eqb (d_insert_all [(incl 2 6, 1)] d_new) (d_insert_all [(incl 2 6, 2)] d_new) = false.
Proof. vm_compute. auto. Qed.

(** ** C67: relabelling

    [f] embeds one key order in another and [g] the values, preserving and
    reflecting [==]: then every history gives the relabelled map, and every
    query the relabelled answer. *)
Section C67.
  Context {K K' V V' : Type} {cmp : K -> K -> comparison} {cmp' : K' -> K' -> comparison}.
  Context {veqb : V -> V -> bool} {veqb' : V' -> V' -> bool} (f : K -> K') (g : V -> V').
  Context (Hf : forall a b, cmp' (f a) (f b) = cmp a b).
  Context (Hg : forall a b, veqb' (g a) (g b) = veqb a b).
  Notation run := (rm_run cmp veqb).
  Notation run' := (rm_run cmp' veqb').

  Theorem C67_relabel_run : forall ops,
    rm_iter (run' (map (fop f g) ops)) = map (fe f g) (rm_iter (run ops)).
  Proof. exact (n_run f g Hf Hg). Qed.
  Theorem C67_relabel_outcome : forall ops o,
    fst (rm_exec cmp' veqb' (fop f g o) (run' (map (fop f g) ops))) = fst (rm_exec cmp veqb o (run ops)).
  Proof. exact (relabel_outcome f g Hf Hg). Qed.
  Theorem C67_relabel_get : forall ops k,
    rm_get cmp' (run' (map (fop f g) ops)) (f k) = omap (option_map g) (rm_get cmp (run ops) k) /\
    rm_get_key_value cmp' (run' (map (fop f g) ops)) (f k) =
      omap (option_map (fe f g)) (rm_get_key_value cmp (run ops) k).
  Proof. exact (relabel_lookup f g Hf Hg). Qed.
  Theorem C67_relabel_overlapping : forall ops q sched,
    omap (fun o => map fst (sched_trace (both (ov_next cmp') (ov_next_back cmp')) (fun _ => tt) sched o))
         (rm_overlapping cmp' (run' (map (fop f g) ops)) (fr f q)) =
    omap (fun o => map (option_map (fe f g))
           (map fst (sched_trace (both (ov_next cmp) (ov_next_back cmp)) (fun _ => tt) sched o)))
         (rm_overlapping cmp (run ops) q).
  Proof. exact (relabel_overlapping f g Hf Hg). Qed.
  Theorem C67_relabel_gaps : forall ops outer n,
    omap (nexts (gp_next cmp') n) (rm_gaps cmp' (run' (map (fop f g) ops)) (fr f outer)) =
    omap (fun x => map (option_map (fr f)) (nexts (gp_next cmp) n x)) (rm_gaps cmp (run ops) outer).
  Proof. exact (relabel_gaps f g Hf Hg). Qed.
  Theorem C67_relabel_eq : forall a b,
    rm_eqb cmp' veqb' (run' (map (fop f g) a)) (run' (map (fop f g) b)) = rm_eqb cmp veqb (run a) (run b).
  Proof. exact (relabel_eq f g Hf Hg). Qed.
End C67.
(** For [RangeInclusiveMap] the embedding must also respect the step functions
    between keys; bounds then correspond up to [==]. *)
Section C67i.
  Context {K K' V V' : Type} {cmp : K -> K -> comparison} {cmp' : K' -> K' -> comparison}.
  Context {st : stepfns K} {st' : stepfns K'}.
  Context {veqb : V -> V -> bool} {veqb' : V' -> V' -> bool} (f : K -> K') (g : V -> V').
  Context (HO' : TotalOrd cmp') (HS' : StepLaws cmp' st') (HV : PartialEquiv veqb) (HV' : PartialEquiv veqb').
  Context (Hf : forall a b, cmp' (f a) (f b) = cmp a b).
  Context (Hg : forall a b, veqb' (g a) (g b) = veqb a b).
  Context (Hadd : forall a b, ltb cmp a b = true ->
    exists s s', add_one st a = Some s /\ add_one st' (f a) = Some s' /\ cmp' s' (f s) = Eq).
  Context (Hsub : forall a b, ltb cmp b a = true ->
    exists s s', sub_one st a = Some s /\ sub_one st' (f a) = Some s' /\ cmp' s' (f s) = Eq).

  (** relabelled, up to [==] of the bounds; the exhausted flag is kept *)
  Definition relabels_range (r : rangei K) (r' : rangei K') : Prop :=
    cmp' (f (ri_start r)) (ri_start r') = Eq /\ cmp' (f (ri_end r)) (ri_end r') = Eq /\
    ri_exhausted r' = ri_exhausted r.
  Definition relabels (e : rangei K * V) (e' : rangei K' * V') : Prop :=
    relabels_range (fst e) (fst e') /\ snd e' = g (snd e).
  Notation irun := (im_run cmp veqb st).
  Notation irun' := (im_run cmp' veqb' st').

  Theorem C67_inclusive_relabel_run : forall ops,
    Forall2 relabels (im_iter (irun ops)) (im_iter (irun' (map (fopi f g) ops))).
  Proof. exact (rl_run f g HO' HS' HV HV' Hf Hg Hadd Hsub). Qed.
  Theorem C67_inclusive_relabel_outcome : forall ops o,
    fst (im_exec cmp' veqb' st' (fopi f g o) (irun' (map (fopi f g) ops))) = fst (im_exec cmp veqb st o (irun ops)).
  Proof. exact (rl_outcome f g HO' HS' HV HV' Hf Hadd Hsub). Qed.
  Theorem C67_inclusive_relabel_get : forall ops k,
    im_get cmp' (irun' (map (fopi f g) ops)) (f k) = omap (option_map g) (im_get cmp (irun ops) k) /\
    orel (optrel relabels) (im_get_key_value cmp (irun ops) k)
      (im_get_key_value cmp' (irun' (map (fopi f g) ops)) (f k)).
  Proof.
    exact (fun ops k => conj (rl_get f g HO' HS' HV HV' Hf Hg Hadd Hsub ops k)
                             (rl_get_kv f g HO' HS' HV HV' Hf Hg Hadd Hsub ops k)).
  Qed.
  Theorem C67_inclusive_relabel_overlapping : forall ops q,
    im_overlaps cmp' (irun' (map (fopi f g) ops)) (fri f q) = im_overlaps cmp (irun ops) q /\
    exists o o', im_overlapping cmp (irun ops) q = Ret o /\
      im_overlapping cmp' (irun' (map (fopi f g) ops)) (fri f q) = Ret o' /\
      forall sched, Forall2 (optrel relabels)
        (map fst (sched_trace (both (ovi_next cmp) (ovi_next_back cmp)) (fun _ => tt) sched o))
        (map fst (sched_trace (both (ovi_next cmp') (ovi_next_back cmp')) (fun _ => tt) sched o')).
  Proof.
    exact (fun ops q => conj (rl_overlaps f g HO' HS' HV HV' Hf Hg Hadd Hsub ops q)
                             (rl_overlapping f g HO' HS' HV HV' Hf Hg Hadd Hsub ops q)).
  Qed.
  Theorem C67_inclusive_relabel_gaps : forall ops outer,
    exists gp gp', im_gaps cmp (irun ops) outer = Ret gp /\
      im_gaps cmp' (irun' (map (fopi f g) ops)) (fri f outer) = Ret gp' /\
      forall n, exists xs xs', nexts_m (gpi_next cmp st) n gp = map Ret xs /\
        nexts_m (gpi_next cmp' st') n gp' = map Ret xs' /\ Forall2 (optrel relabels_range) xs xs'.
  Proof. exact (rl_gaps f g HO' HS' HV HV' Hf Hg Hadd Hsub). Qed.
  Theorem C67_inclusive_relabel_eq : forall a b,
    im_eqb cmp' veqb' (irun' (map (fopi f g) a)) (irun' (map (fopi f g) b)) = im_eqb cmp veqb (irun a) (irun b).
  Proof. exact (rl_eq f g HO' HS' HV HV' Hf Hg Hadd Hsub). Qed.
End C67i.

(** Sets: histories, the [union] and [intersection] iterators of any two sets,
    and programs combining sets with [|] and [&].  No law is needed. *)
Section C67s.
  Context {K K' : Type} {cmp : K -> K -> comparison} {cmp' : K' -> K' -> comparison} (f : K -> K').
  Context (Hf : forall a b, cmp' (f a) (f b) = cmp a b).
  Notation fset := (map (fe f (fun u : unit => u))).
  Theorem C67_set_relabel_run : forall ops, rs_run cmp' (map (fsop (fr f)) ops) = fset (rs_run cmp ops).
  Proof. exact (n_rs_run f Hf). Qed.
  Theorem C67_set_relabel_union : forall a b n,
    nexts_m (rs_union_next cmp') n (rs_union (fset a) (fset b)) =
    map (omap (option_map (fr f))) (nexts_m (rs_union_next cmp) n (rs_union a b)).
  Proof. exact (fun a b n => homs_nexts _ (fr f) _ _ n (n_rs_union_next f Hf) (rs_union a b)). Qed.
  Theorem C67_set_relabel_intersection : forall a b n,
    nexts_m (rs_intersection_next cmp') n (rs_intersection (fset a) (fset b)) =
    map (omap (option_map (fr f))) (nexts_m (rs_intersection_next cmp) n (rs_intersection a b)).
  Proof. exact (fun a b n => homs_nexts _ (fr f) _ _ n (n_rs_intersection_next f Hf) (rs_intersection a b)). Qed.
  Theorem C67_set_relabel_expressions : forall x, rs_eval cmp' (fsexp (fr f) x) = omap fset (rs_eval cmp x).
  Proof. exact (n_rs_eval f Hf). Qed.
End C67s.
(** For [RangeInclusiveSet] the iterators need nothing more; programs that
    also insert need lawful steps for the original keys, and the steps of the
    relabelled keys to be the same wherever the original ones return. *)
Section C67si.
  Context {K K' : Type} {cmp : K -> K -> comparison} {cmp' : K' -> K' -> comparison} (f : K -> K').
  Context (Hf : forall a b, cmp' (f a) (f b) = cmp a b).
  Notation fset := (map (fei f (fun u : unit => u))).
  Theorem C67_inclusive_set_relabel_union : forall a b n,
    nexts_m (is_union_next cmp') n (is_union (fset a) (fset b)) =
    map (omap (option_map (fri f))) (nexts_m (is_union_next cmp) n (is_union a b)).
  Proof. exact (fun a b n => homs_nexts _ (fri f) _ _ n (n_is_union_next f Hf) (is_union a b)). Qed.
  Theorem C67_inclusive_set_relabel_intersection : forall a b n,
    nexts_m (is_intersection_next cmp') n (is_intersection (fset a) (fset b)) =
    map (omap (option_map (fri f))) (nexts_m (is_intersection_next cmp) n (is_intersection a b)).
  Proof. exact (fun a b n => homs_nexts _ (fri f) _ _ n (n_is_intersection_next f Hf) (is_intersection a b)). Qed.
  Context {st : stepfns K} {st' : stepfns K'}.
  Context (Hadd : forall a, add_one st a = None \/ add_one st' (f a) = option_map f (add_one st a)).
  Context (Hsub : forall a, sub_one st a = None \/ sub_one st' (f a) = option_map f (sub_one st a)).
  Context (HO : TotalOrd cmp) (HS : StepLaws cmp st).
  Theorem C67_inclusive_set_relabel_run : forall ops,
    is_run cmp' st' (map (fsop (fri f)) ops) = fset (is_run cmp st ops).
  Proof. exact (n_is_run f Hf Hadd Hsub HO HS). Qed.
  Theorem C67_inclusive_set_relabel_expressions : forall x,
    is_eval cmp' st' (fsexp (fri f) x) = omap fset (is_eval cmp st x).
  Proof. exact (n_is_eval f Hf Hadd Hsub HO HS). Qed.
End C67si.

(** Programs that build maps and sets out of each other (C96, C97): [fm] and
    [fq] relabel every range of a program.  Its closures act on values only. *)
Section C67p.
  Context {K K' V : Type} {cmp : K -> K -> comparison} {cmp' : K' -> K' -> comparison} {veqb : V -> V -> bool} (f : K -> K').
  Context (Hf : forall a b, cmp' (f a) (f b) = cmp a b).
  Theorem C67_relabel_map_programs : forall x : mprog (range K) V,
    mrun cmp' veqb (fm (fr f) x) = omap (map (fe f (fun v => v))) (mrun cmp veqb x).
  Proof. exact (proj1 (h_prog f Hf)). Qed.
  Theorem C67_relabel_set_programs : forall x : sprog (range K) V,
    srun cmp' veqb (fq (fr f) x) = omap (map (fe f (fun u => u))) (srun cmp veqb x).
  Proof. exact (proj2 (h_prog f Hf)). Qed.
  Context {st : stepfns K} {st' : stepfns K'}.
  Context (Hadd : forall a, add_one st a = None \/ add_one st' (f a) = option_map f (add_one st a)).
  Context (Hsub : forall a, sub_one st a = None \/ sub_one st' (f a) = option_map f (sub_one st a)).
  Context (HO : TotalOrd cmp) (HS : StepLaws cmp st) (HV : PartialEquiv veqb).
  Theorem C67_inclusive_relabel_map_programs : forall x : mprog (rangei K) V,
    imrun cmp' veqb st' (fm (fri f) x) = omap (map (fei f (fun v => v))) (imrun cmp veqb st x).
  Proof. exact (relabel_iprog HO HS HV f Hf Hadd Hsub). Qed.
  Theorem C67_inclusive_relabel_set_programs : forall x : sprog (rangei K) V,
    isrun cmp' veqb st' (fq (fri f) x) = omap (map (fei f (fun u => u))) (isrun cmp veqb st x).
  Proof. exact (relabel_isprog HO HS HV f Hf Hadd Hsub). Qed.
End C67p.

(** keys stretched by [10 k - 7], values mapped to a type with a coarser [==] *)
Definition mod7_eqb (a b : Z) : bool := (a mod 7 =? b mod 7).
Example C67_example_hyp :
  (forall a b, Z.compare (10 * a - 7) (10 * b - 7) = Z.compare a b) /\
  (forall a b : bool, mod7_eqb (if a then 8 else 2) (if b then 8 else 2) = Bool.eqb a b).
Proof.
  split; [|intros [] []; reflexivity]. intros a b.
  destruct (Z.compare_spec a b), (Z.compare_spec (10 * a - 7) (10 * b - 7)); try reflexivity; exfalso; Lia.lia.
Qed.
Definition c67_ops : list (op (range Z) bool) :=
  [OInsert (mkR 0 10) true; OInsert (mkR 5 7) false; ORemove (mkR 2 3); OInsert (mkR 10 12) true].
Example C67_example :
  rm_run Z.compare Bool.eqb c67_ops =
    [(mkR 0 2, true); (mkR 3 5, true); (mkR 5 7, false); (mkR 7 12, true)] /\
  rm_run Z.compare mod7_eqb (map (fop (fun k => 10 * k - 7) (fun b : bool => if b then 8 else 2)) c67_ops) =
    [(mkR (-7) 13, 8); (mkR 23 43, 8); (mkR 43 63, 2); (mkR 63 113, 8)].
Proof. vm_compute. auto. Qed.
(** [u8] keys embedded in the unbounded integers *)
Example C67_inclusive_example_hyp :
  (forall a b : ival u8, Z.compare (proj1_sig a) (proj1_sig b) = icmp u8 a b) /\
  (forall a b : ival u8, ltb (icmp u8) a b = true -> exists s s', add_one (int_steps Wrapping u8) a = Some s /\
     add_one zst (proj1_sig a) = Some s' /\ Z.compare s' (proj1_sig s) = Eq) /\
  (forall a b : ival u8, ltb (icmp u8) b a = true -> exists s s', sub_one (int_steps Wrapping u8) a = Some s /\
     sub_one zst (proj1_sig a) = Some s' /\ Z.compare s' (proj1_sig s) = Eq).
Proof. exact u8_in_Z. Qed.
Example C67_inclusive_example :
  im_run Z.compare Z.eqb zst (map (fopi (fun x : ival u8 => proj1_sig x) (fun v => v)) u8_ops) =
    [(incl 4 99, 1); (incl 100 110, 2); (incl 111 249, 1); (incl 250 254, 2); (incl 255 255, 1)] /\
  let m := im_run Z.compare Z.eqb zst (map (fopi (fun x : ival u8 => proj1_sig x) (fun v => v))
             (u8_ops ++ [OInsert (mkRI (b8 250) (b8 255) true) 7; ORemove (incl (b8 0) (b8 99)); ORemove (incl (b8 120) (b8 130))])) in
  m = [(incl 100 110, 2); (incl 111 119, 1); (incl 131 249, 1); (mkRI 250 255 true, 7)] /\
  omap (nexts_m (gpi_next Z.compare zst) 3) (im_gaps Z.compare m (incl 0 255)) =
    Ret (map Ret [Some (incl 0 99); Some (incl 120 130); None]).
Proof. vm_compute. auto. Qed.
(** [0..4 + 6..9], met with [3..7] *)
Definition c67_x : sexp (range Z) :=
  XAnd (XOr (XOp XNew (SInsert (mkR 0 4))) (XOp XNew (SInsert (mkR 6 9)))) (XOp XNew (SInsert (mkR 3 7))).
Example C67_set_example :
  rs_eval Z.compare c67_x = Ret [(mkR 3 4, tt); (mkR 6 7, tt)] /\
  rs_eval Z.compare (fsexp (fr (fun k => 10 * k - 7)) c67_x) = Ret [(mkR 23 33, tt); (mkR 53 63, tt)].
Proof. vm_compute. auto. Qed.
(** [u8] keys, whose steps panic at the ends (overflow checks on), as integers *)
Example C67_inclusive_set_example_hyp :
  (forall a : ival u8, add_one (int_steps Checked u8) a = None \/
     add_one zst (proj1_sig a) = option_map (fun x : ival u8 => proj1_sig x) (add_one (int_steps Checked u8) a)) /\
  (forall a : ival u8, sub_one (int_steps Checked u8) a = None \/
     sub_one zst (proj1_sig a) = option_map (fun x : ival u8 => proj1_sig x) (sub_one (int_steps Checked u8) a)) /\
  StepLaws (icmp u8) (int_steps Checked u8).
Proof. exact u8_checked_in_Z. Qed.
Example C67_inclusive_set_example :
  let x := XOr (XOp XNew (SInsert (incl (b8 3) (b8 5)))) (XOp XNew (SInsert (incl (b8 6) (b8 255)))) in
  is_eval Z.compare zst (fsexp (fri (fun x : ival u8 => proj1_sig x)) (XAnd x (XOp x (SRemove (incl (b8 10) (b8 20)))))) =
    Ret [(incl 3 9, tt); (incl 21 255, tt)].
Proof. vm_compute. reflexivity. Qed.
(** a map with its gaps in [0..15] filled, less a set; and the keys then free *)
Definition c67_p {R} (r : Z -> Z -> R) : mprog R Z :=
  PMinus (PFill (PCall (PCall PNew (OInsert (r 3 6) 1)) (OInsert (r 9 12) 2)) (r 0 15) 7)
    (QWhere (Z.eqb 2) (PCall PNew (OInsert (r 10 11) 2))).
Example C67_programs_example :
  let f k := 10 * k - 7 in
  mrun Z.compare Z.eqb (c67_p mkR) =
    Ret [(mkR 0 3, 7); (mkR 3 6, 1); (mkR 6 9, 7); (mkR 9 10, 2); (mkR 11 12, 2); (mkR 12 15, 7)] /\
  mrun Z.compare Z.eqb (fm (fr f) (c67_p mkR)) =
    Ret [(mkR (-7) 23, 7); (mkR 23 53, 1); (mkR 53 83, 7); (mkR 83 93, 2); (mkR 103 113, 2); (mkR 113 143, 7)] /\
  srun Z.compare Z.eqb (fq (fr f) (QFree (c67_p mkR) (mkR 4 20))) = Ret [(mkR 93 103, tt); (mkR 143 193, tt)].
Proof. vm_compute. auto. Qed.
(** [u8] keys as integers; the hypotheses are [C67_inclusive_set_example_hyp] *)
Example C67_inclusive_programs_example :
  imrun Z.compare Z.eqb zst (fm (fri (fun x : ival u8 => proj1_sig x)) (c67_p (fun a b => incl (b8 a) (b8 b)))) =
    Ret [(incl 0 2, 7); (incl 3 6, 1); (incl 7 8, 7); (incl 9 9, 2); (incl 12 12, 2); (incl 13 15, 7)] /\
  isrun Z.compare Z.eqb zst (fq (fri (fun x : ival u8 => proj1_sig x))
      (QFree (c67_p (fun a b => incl (b8 a) (b8 b))) (incl (b8 4) (b8 255)))) =
    Ret [(incl 10 11, tt); (incl 16 255, tt)].
Proof. vm_compute. auto. Qed.

Print Assumptions C60_same_lookups.
Print Assumptions C60_same_entries.
Print Assumptions C60_same_outcomes.
Print Assumptions C60_integer_types.
Print Assumptions C61_map_arbitrary.
Print Assumptions C61_inclusive_map_arbitrary.
Print Assumptions C61_set_arbitrary.
Print Assumptions C61_inclusive_set_arbitrary.
Print Assumptions C65_inclusive_oracle.
Print Assumptions C65_oracle.
Print Assumptions C65_to_vec.
Print Assumptions C65_to_end_exclusive_vec.
Print Assumptions C65_from_inclusive_map.
Print Assumptions C65_from_map.
Print Assumptions C65_dense_eq.
Print Assumptions C65_dense_eq_half_open.
Print Assumptions C65_dense_eq_iff.
Print Assumptions C65_oracle_exhausted_refuted.
Print Assumptions C65_oracle_nan_refuted.
Print Assumptions C67_relabel_run.
Print Assumptions C67_relabel_outcome.
Print Assumptions C67_relabel_get.
Print Assumptions C67_relabel_overlapping.
Print Assumptions C67_relabel_gaps.
Print Assumptions C67_relabel_eq.
Print Assumptions C67_set_relabel_run.
Print Assumptions C67_set_relabel_union.
Print Assumptions C67_set_relabel_intersection.
Print Assumptions C67_set_relabel_expressions.
Print Assumptions C67_inclusive_set_relabel_union.
Print Assumptions C67_inclusive_set_relabel_intersection.
Print Assumptions C67_inclusive_set_relabel_run.
Print Assumptions C67_inclusive_set_relabel_expressions.
Print Assumptions C67_inclusive_relabel_run.
Print Assumptions C67_inclusive_relabel_outcome.
Print Assumptions C67_inclusive_relabel_overlapping.
Print Assumptions C67_inclusive_relabel_gaps.
Print Assumptions C67_inclusive_relabel_eq.
Print Assumptions C67_inclusive_relabel_get.
Print Assumptions C67_relabel_map_programs.
Print Assumptions C67_relabel_set_programs.
Print Assumptions C67_inclusive_relabel_map_programs.
Print Assumptions C67_inclusive_relabel_set_programs.
