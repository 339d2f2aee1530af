(** User-supplied [Clone] (C73, C74).
    [rmc_run kcl vcl cmp veqb ops] and [imc_run ...] run a history with every
    [.clone()] of the code a call of user code: the [n]-th clone made, on key
    [k], is [kcl n k], on value [v] it is [vcl n v] (CloneModel.v).  The first
    component of the result is the number of clones made, the second the map.
    The laws assumed: a cloned key compares [Equal] to the original, and [==]
    cannot tell a cloned value from the original. *)
From Coq Require Import List Bool ZArith Lia.
From Verif Require Import Order Outcome BTree Ranges History Spec MapModel IMapModel StepModel StepFacts
  CloneModel CloneFacts CloneProps Instances IMapProps.
Import ListNotations.

Section Half.
  Context {K V : Type} {cmp : K -> K -> comparison} {veqb : V -> V -> bool}.
  Context (HO : TotalOrd cmp) (HV : PartialEquiv veqb).
  Context {kcl : nat -> K -> K} {vcl : nat -> V -> V}.
  Context (CK : forall n k, alike_key cmp k (kcl n k)) (CV : forall n v, alike veqb v (vcl n v)).
  Notation run := (rm_run cmp veqb).
  Notation crun := (rmc_run kcl vcl cmp veqb).
  Notation spec := (spec_run (valid_range cmp) (in_range cmp)).
  Notation like := (alike_entry (alike_range cmp) veqb).

  (** ** C73 *)
  (** the same entries, up to the clones; also when the calls differ up to that *)
  Theorem C73_same_entries : forall ops ops', Forall2 (alike_op (alike_range cmp) veqb) ops ops' ->
    Forall2 like (run ops) (snd (crun ops')).
  Proof. exact (clone_run HO HV CK CV). Qed.
  (** each call returns or panics in the same way *)
  Theorem C73_same_outcomes : forall ops o,
    fst (rmc_exec kcl vcl cmp veqb o (crun ops)) = fst (rm_exec cmp veqb o (run ops)).
  Proof. exact (clone_outcome HO HV CK CV). Qed.
  (** so a lookup still returns the last value written, up to [==] *)
  Theorem C73_last_writer_wins : forall ops k, exists o,
    fst (rmc_get kcl cmp k (crun ops)) = Ret o /\
    snd (snd (rmc_get kcl cmp k (crun ops))) = snd (crun ops) /\
    optrel (alike veqb) (spec ops k) o.
  Proof. exact (clone_get HO HV CK CV). Qed.
  Theorem C73_overlapping : forall ops q sched, exists o,
    fst (rmc_overlapping kcl cmp q (crun ops)) = Ret o /\
    Forall2 (optrel like)
      (deque_run sched (filter (fun e => meets cmp q (fst e)) (run ops)))
      (map fst (sched_trace (both (ov_next cmp) (ov_next_back cmp)) (fun _ => tt) sched o)).
  Proof. exact (clone_overlapping HO HV CK CV). Qed.
  (** gaps, whose bounds are clones: the maximal uncovered ranges, up to the clones *)
  Theorem C73_gaps : forall ops outer, exists g gs,
    fst (rmc_gaps kcl cmp outer (crun ops)) = Ret g /\
    gaps_of cmp (spec ops) outer gs /\
    forall n c, Forall2 (fun x y => exists z, y = Ret z /\ optrel (alike_range cmp) x z)
                (yields n gs) (nexts_m (gpc_next kcl cmp) n (c, g)).
  Proof. exact (clone_gaps HO HV CK CV). Qed.
  (** [map.clone()]: a map alike, equal if [==] on values is reflexive *)
  Theorem C73_clone_of_map : forall ops, exists n m2,
    rmc_clone kcl vcl (crun ops) = (Ret m2, (n, snd (crun ops))) /\
    Forall2 like (snd (crun ops)) m2 /\
    ((forall v, veqb v v = true) -> rm_eqb cmp veqb (snd (crun ops)) m2 = true).
  Proof. exact (clone_clone HO HV CK CV). Qed.
End Half.
(** clones identical to their originals: the maps of all other theorems *)
Theorem C73_identity : forall (K V : Type) (cmp : K -> K -> comparison) (veqb : V -> V -> bool) ops,
  snd (rmc_run (fun _ k => k) (fun _ v => v) cmp veqb ops) = rm_run cmp veqb ops.
Proof. exact (fun K V => clone_identity (K := K) (V := V)). Qed.

(** Keys and values with a label that [cmp] and [==] do not see; a clone is
    labelled with its number. *)
Definition lk_cmp (a b : Z * nat) : comparison := Z.compare (fst a) (fst b).
Definition lk_eqb (a b : Z * nat) : bool := Z.eqb (fst a) (fst b).
Definition lk_cl (n : nat) (a : Z * nat) : Z * nat := (fst a, S n).
Lemma lk_order : TotalOrd lk_cmp.
Proof.
  split; unfold lk_cmp.
  - intros x. apply Z.compare_refl.
  - intros x y. apply Z.compare_antisym.
  - intros c x y z. apply (ord_trans _ Z_order).
Qed.
Lemma lk_per : PartialEquiv lk_eqb.
Proof.
  split; unfold lk_eqb.
  - intros a b. apply (veq_sym _ Z_per).
  - intros a b c. apply (veq_trans _ Z_per).
Qed.
Lemma lk_key n k : alike_key lk_cmp k (lk_cl n k).
Proof. apply Z.compare_refl. Qed.
Lemma lk_val n v : alike lk_eqb v (lk_cl n v).
Proof. intros w. reflexivity. Qed.
Notation orig z := (z%Z, 0).
Notation lrun := (rm_run lk_cmp lk_eqb).
Notation lcrun := (rmc_run lk_cl lk_cl lk_cmp lk_eqb).
Definition lk_ops : list (op (range (Z * nat)) (Z * nat)) :=
  [OInsert (mkR (orig 0) (orig 9)) (orig 1); OInsert (mkR (orig 3) (orig 5)) (orig 2);
   ORemove (mkR (orig 7) (orig 8)); OInsert (mkR (orig 9) (orig 12)) (orig 1)].
Example C73_example :
  lrun lk_ops =
    [(mkR (orig 0) (orig 3), orig 1); (mkR (orig 3) (orig 5), orig 2);
     (mkR (orig 5) (orig 7), orig 1); (mkR (orig 8) (orig 12), orig 1)] /\
  lcrun lk_ops =
    (25, [(mkR (0%Z, 3) (3%Z, 6), (1%Z, 7)); (mkR (orig 3) (orig 5), orig 2);
          (mkR (5%Z, 11) (7%Z, 14), (1%Z, 15)); (mkR (8%Z, 22) (12%Z, 23), orig 1)]) /\
  rmc_get lk_cl lk_cmp (orig 6) (lcrun lk_ops) = (Ret (Some (1%Z, 15)), (27, snd (lcrun lk_ops))) /\
  exists g, fst (rmc_gaps lk_cl lk_cmp (mkR (orig 2) (orig 14)) (lcrun lk_ops)) = Ret g /\
    nexts_m (gpc_next lk_cl lk_cmp) 3 (40, g) =
      [Ret (Some (mkR (7%Z, 41) (8%Z, 42))); Ret (Some (mkR (12%Z, 43) (14%Z, 44))); Ret None].
Proof. vm_compute. split; [reflexivity|]. split; [reflexivity|]. split; [reflexivity|]. eexists. split; reflexivity. Qed.

(** Without the law for keys the claim is false: clones one greater than their
    originals make a lookup miss what was inserted. *)
Theorem C73_unlawful_clone_refuted :
  exists (kcl : nat -> Z -> Z) (ops : list (op (range Z) Z)) (k : Z) o,
    fst (rmc_get kcl Z.compare k (rmc_run kcl (fun _ v => v) Z.compare Z.eqb ops)) = Ret o /\
    ~ optrel (alike Z.eqb) (spec_run (valid_range Z.compare) (in_range Z.compare) ops k) o.
Proof.
  exists (fun _ k => (k + 1)%Z), [OInsert (mkR 0 9)%Z 1%Z; ORemove (mkR 3 5)%Z], 3%Z. eexists. split; [vm_compute; reflexivity|].
  vm_compute. intros H. exact H.
Qed.

Section Incl.
  Context {K V : Type} {cmp : K -> K -> comparison} {veqb : V -> V -> bool} {st : stepfns K}.
  Context (HO : TotalOrd cmp) (HV : PartialEquiv veqb) (HS : StepLaws cmp st).
  Context {kcl : nat -> K -> K} {vcl : nat -> V -> V}.
  Context (CK : forall n k, alike_key cmp k (kcl n k)) (CV : forall n v, alike veqb v (vcl n v)).
  Notation run := (im_run cmp veqb st).
  Notation crun := (imc_run kcl vcl cmp veqb st).
  Notation spec := (spec_run (valid_rangei cmp) (in_rangei cmp)).
  Notation like := (alike_entry (alike_rangei cmp) veqb).

  (** ** C74 *)
  Theorem C74_same_entries : forall ops ops', Forall2 (alike_op (alike_rangei cmp) veqb) ops ops' ->
    Forall2 like (run ops) (snd (crun ops')).
  Proof. exact (iclone_run HO HV CK CV HS). Qed.
  Theorem C74_same_outcomes : forall ops o,
    fst (imc_exec kcl vcl cmp veqb st o (crun ops)) = fst (im_exec cmp veqb st o (run ops)).
  Proof. exact (iclone_outcome HO HV CK CV HS). Qed.
  Theorem C74_last_writer_wins : forall ops k, fresh_ops ops -> exists o,
    fst (imc_get kcl cmp k (crun ops)) = Ret o /\
    snd (snd (imc_get kcl cmp k (crun ops))) = snd (crun ops) /\
    optrel (alike veqb) (spec ops k) o.
  Proof. exact (iclone_get HO HV CK CV HS). Qed.
  (** with exhausted ranges, whose last key lookups miss (C38): as with identical clones *)
  Theorem C74_get_same : forall ops k, exists o o',
    im_get cmp (run ops) k = Ret o /\
    fst (imc_get kcl cmp k (crun ops)) = Ret o' /\
    snd (snd (imc_get kcl cmp k (crun ops))) = snd (crun ops) /\
    optrel (alike veqb) o o'.
  Proof. exact (iclone_get_same HO HV CK CV HS). Qed.
  Theorem C74_overlapping : forall ops q sched, exists o,
    fst (imc_overlapping kcl cmp q (crun ops)) = Ret o /\
    Forall2 (optrel like)
      (deque_run sched (filter (fun e => meetsi cmp q (fst e)) (run ops)))
      (map fst (sched_trace (both (ovi_next cmp) (ovi_next_back cmp)) (fun _ => tt) sched o)).
  Proof. exact (iclone_overlapping HO HV CK CV HS). Qed.
  Theorem C74_gaps : forall ops outer, exists g gs,
    fst (imc_gaps kcl cmp outer (crun ops)) = Ret g /\
    gapsi_of cmp (spec ops) outer gs /\
    forall n c, Forall2 (fun x y => exists z, y = Ret z /\ optrel (alike_rangei cmp) x z)
                (yields n gs) (nexts_m (gpic_next kcl cmp st) n (c, g)).
  Proof. exact (iclone_gaps HO HV CK CV HS). Qed.
  Theorem C74_clone_of_map : forall ops, exists n m2,
    imc_clone kcl vcl (crun ops) = (Ret m2, (n, snd (crun ops))) /\
    Forall2 like (snd (crun ops)) m2 /\
    ((forall v, veqb v v = true) -> im_eqb cmp veqb (snd (crun ops)) m2 = true).
  Proof. exact (iclone_clone HO HV CK CV HS). Qed.
End Incl.
Theorem C74_identity : forall (K V : Type) (cmp : K -> K -> comparison) (veqb : V -> V -> bool)
    (st : stepfns K) ops,
  snd (imc_run (fun _ k => k) (fun _ v => v) cmp veqb st ops) = im_run cmp veqb st ops.
Proof. exact (fun K V => iclone_identity (K := K) (V := V)). Qed.

(** steps that label the new key *)
Definition lk_st : stepfns (Z * nat) :=
  mkStep (fun a => Some ((fst a + 1)%Z, 99)) (fun a => Some ((fst a - 1)%Z, 99)).
Lemma lk_steps : StepLaws lk_cmp lk_st.
Proof. apply (steps_of_index lk_cmp lk_st fst); [reflexivity| |]; intros a b H; eexists; split; reflexivity. Qed.
Notation mkI a b := (mkRI a b false).
Notation lirun := (im_run lk_cmp lk_eqb lk_st).
Notation licrun := (imc_run lk_cl lk_cl lk_cmp lk_eqb lk_st).
Definition lki_ops : list (op (rangei (Z * nat)) (Z * nat)) :=
  [OInsert (mkI (orig 0) (orig 8)) (orig 1); OInsert (mkI (orig 3) (orig 4)) (orig 2);
   ORemove (mkI (orig 7) (orig 7)); OInsert (mkI (orig 9) (orig 11)) (orig 1)].
Example C74_example :
  fresh_ops lki_ops /\
  lirun lki_ops =
    [(mkI (orig 0) (2%Z, 99), orig 1); (mkI (orig 3) (orig 4), orig 2);
     (mkI (5%Z, 99) (6%Z, 99), orig 1); (mkI (8%Z, 99) (orig 11), orig 1)] /\
  licrun lki_ops =
    (26, [(mkI (0%Z, 7) (2%Z, 99), (1%Z, 8)); (mkI (orig 3) (orig 4), orig 2);
          (mkI (5%Z, 15) (6%Z, 99), (1%Z, 16)); (mkI (8%Z, 23) (11%Z, 24), orig 1)]) /\
  imc_get lk_cl lk_cmp (orig 6) (licrun lki_ops) = (Ret (Some (1%Z, 16)), (28, snd (licrun lki_ops))) /\
  exists g, fst (imc_gaps lk_cl lk_cmp (mkI (orig 2) (orig 14)) (licrun lki_ops)) = Ret g /\
    nexts_m (gpic_next lk_cl lk_cmp lk_st) 3 (40, g) =
      [Ret (Some (mkI (7%Z, 99) (7%Z, 99))); Ret (Some (mkI (12%Z, 99) (14%Z, 42))); Ret None].
Proof.
  split; [repeat constructor|].
  vm_compute. split; [reflexivity|]. split; [reflexivity|]. split; [reflexivity|]. eexists. split; reflexivity.
Qed.
(** an exhausted range keeps its flag when it is stored, and loses it when it is
    cut; [gaps] goes by the bounds *)
Definition lkx_ops : list (op (rangei (Z * nat)) (Z * nat)) :=
  [OInsert (mkRI (orig 0) (orig 5) true) (orig 1); OInsert (mkRI (orig 10) (orig 19) true) (orig 2);
   ORemove (mkRI (orig 12) (orig 13) true)].
Example C74_example_exhausted :
  lirun lkx_ops =
    [(mkRI (orig 0) (orig 5) true, orig 1); (mkI (orig 10) (11%Z, 99), orig 2); (mkI (14%Z, 99) (orig 19), orig 2)] /\
  licrun lkx_ops = (12, [(mkRI (orig 0) (orig 5) true, orig 1); (mkI (10%Z, 8) (11%Z, 99), (2%Z, 9));
    (mkI (14%Z, 99) (19%Z, 10), (2%Z, 7))]) /\
  fst (imc_get lk_cl lk_cmp (orig 5) (licrun lkx_ops)) = Ret None /\
  fst (imc_get lk_cl lk_cmp (orig 10) (licrun lkx_ops)) = Ret (Some (2%Z, 9)) /\
  exists g, fst (imc_gaps lk_cl lk_cmp (mkRI (orig 3) (orig 15) true) (licrun lkx_ops)) = Ret g /\
    nexts_m (gpic_next lk_cl lk_cmp lk_st) 3 (40, g) =
      [Ret (Some (mkI (6%Z, 99) (9%Z, 99))); Ret (Some (mkI (12%Z, 99) (13%Z, 99))); Ret None].
Proof.
  split; [vm_compute; reflexivity|]. split; [vm_compute; reflexivity|].
  split; [vm_compute; reflexivity|]. split; [vm_compute; reflexivity|]. eexists. split; vm_compute; reflexivity.
Qed.
Theorem C74_unlawful_clone_refuted :
  exists (kcl : nat -> Z -> Z) (ops : list (op (rangei Z) Z)) (k : Z) o,
    fresh_ops ops /\
    fst (imc_get kcl Z.compare k (imc_run kcl (fun _ v => v) Z.compare Z.eqb zst ops)) = Ret o /\
    ~ optrel (alike Z.eqb) (spec_run (valid_rangei Z.compare) (in_rangei Z.compare) ops k) o.
Proof.
  exists (fun _ k => (k + 1)%Z), [OInsert (mkI 0 9)%Z 1%Z; ORemove (mkI 3 5)%Z], 1%Z. eexists.
  split; [repeat constructor|]. split; [vm_compute; reflexivity|].
  vm_compute. intros H. exact H.
Qed.

(** The hypotheses of the two sections are met by [lk_order], [lk_per],
    [lk_steps], [lk_key] and [lk_val]. *)
Example C73_instance : forall ops, Forall2 (alike_entry (alike_range lk_cmp) lk_eqb) (lrun ops) (snd (lcrun ops)).
Proof. exact (clone_same lk_order lk_per lk_key lk_val). Qed.
Example C74_instance : forall ops, Forall2 (alike_entry (alike_rangei lk_cmp) lk_eqb) (lirun ops) (snd (licrun ops)).
Proof. exact (iclone_same lk_order lk_per lk_key lk_val lk_steps). Qed.

Print Assumptions C73_same_entries.
Print Assumptions C73_same_outcomes.
Print Assumptions C73_last_writer_wins.
Print Assumptions C73_overlapping.
Print Assumptions C73_gaps.
Print Assumptions C73_clone_of_map.
Print Assumptions C73_identity.
Print Assumptions C73_unlawful_clone_refuted.
Print Assumptions C74_same_entries.
Print Assumptions C74_same_outcomes.
Print Assumptions C74_last_writer_wins.
Print Assumptions C74_get_same.
Print Assumptions C74_overlapping.
Print Assumptions C74_gaps.
Print Assumptions C74_clone_of_map.
Print Assumptions C74_identity.
Print Assumptions C74_unlawful_clone_refuted.
