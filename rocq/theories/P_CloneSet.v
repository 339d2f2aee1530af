(** User-supplied [Clone] and the sets (C79, C80).
    [rsc_run kcl cmp ops] and [isc_run kcl cmp st ops] run a history on a set
    with every [.clone()] of the code a call of user code: the [n]-th clone made,
    on key [k], is [kcl n k] (CloneSetModel.v).  [rsc_union_next] and
    [rsc_intersection_next] do so for the iterators of operations.rs, started
    here with [c] clones made before; [rsc_eval kcl cmp x c] does for a program [x]
    that combines sets with [|] and [&].  The law assumed: a cloned key compares
    [Equal] to the original. *)
From Coq Require Import List Bool Sorting.Sorted ZArith Lia.
From Verif Require Import Order Outcome BTree Ranges History Spec MapModel IMapModel SetModel ISetModel
  OpsModel OpsProofs StepModel StepFacts Exhausted CloneModel CloneSetModel CloneSetProps Instances IMapProps SetProps ISetProps P_Clone.
Import ListNotations.

Section Half.
  Context {K : Type} {cmp : K -> K -> comparison} (HO : TotalOrd cmp).
  Context {kcl : nat -> K -> K} (CK : forall n k, alike_key cmp k (kcl n k)).
  Notation crun := (rsc_run kcl cmp).
  Notation mem := (mem_run (valid_range cmp) (in_range cmp)).
  Notation mem_of := (mem_sexp (valid_range cmp) (in_range cmp)).
  Notation ranges s := (map fst (rs_iter s)).

  (** ** C79 *)
  (** the stored ranges are the maximal runs of the members *)
  Theorem C79_histories : forall ops, runs_of cmp (mem ops) (ranges (snd (crun ops))).
  Proof. exact (sclone_runs HO CK). Qed.
  (** each call returns or panics as with identical clones *)
  Theorem C79_same_outcomes : forall ops o,
    fst (rsc_exec kcl cmp o (crun ops)) = fst (rs_exec cmp o (rs_run cmp ops)).
  Proof. exact (sclone_outcome HO CK). Qed.
  Theorem C79_contains : forall ops k,
    fst (rsc_contains kcl cmp k (crun ops)) = Ret (mem ops k) /\
    snd (snd (rsc_contains kcl cmp k (crun ops))) = snd (crun ops).
  Proof. exact (sclone_contains HO CK). Qed.
  (** [union] and [intersection], whose items are made of clones *)
  Theorem C79_union : forall a b c, exists us,
    pieces_of cmp (fun k => mem a k || mem b k) us /\
    forall n, nexts_m (rsc_union_next kcl cmp) n (c, rs_union (snd (crun a)) (snd (crun b))) =
              map Ret (yields n us).
  Proof. exact (sclone_union HO CK). Qed.
  Theorem C79_intersection : forall a b c, exists us,
    runs_of cmp (fun k => mem a k && mem b k) us /\
    forall n, nexts_m (rsc_intersection_next kcl cmp) n (c, rs_intersection (snd (crun a)) (snd (crun b))) =
              map Ret (yields n us).
  Proof. exact (sclone_intersection HO CK). Qed.
  (** programs that combine sets *)
  Theorem C79_expressions : forall x c, exists s,
    fst (rsc_eval kcl cmp x c) = Ret s /\
    runs_of cmp (mem_of x) (ranges s) /\
    forall n k, fst (rsc_contains kcl cmp k (n, s)) = Ret (mem_of x k).
  Proof. exact (sclone_eval HO CK). Qed.
End Half.
(** clones identical to their originals: the sets of all other theorems *)
Theorem C79_identity : forall (K : Type) (cmp : K -> K -> comparison) x c s,
  rs_eval cmp x = Ret s -> fst (rsc_eval (fun _ k => k) cmp x c) = Ret s.
Proof. exact (fun K => sclone_identity (K := K)). Qed.

(** [lk_cmp], [lk_cl] (P_Clone.v): keys with a label that [cmp] does not see; a
    clone is labelled with its number. *)
Notation lkR a b := (mkR (orig a) (orig b)).
Definition lk_a : list (sop (range (Z * nat))) := [SInsert (lkR 0 9); SRemove (lkR 4 5)].
Definition lk_b : list (sop (range (Z * nat))) := [SInsert (lkR 3 5); SInsert (lkR 8 12)].
Fixpoint xops {R} (ops : list (sop R)) (x : sexp R) : sexp R :=
  match ops with [] => x | o :: l => xops l (XOp x o) end.
Notation lkx ops := (xops ops XNew).
Example C79_example :
  rsc_run lk_cl lk_cmp lk_a =
    (10, [(mkR (0%Z, 3) (4%Z, 6), tt); (mkR (5%Z, 8) (9%Z, 4), tt)]) /\
  rsc_run lk_cl lk_cmp lk_b = (4, [(lkR 3 5, tt); (lkR 8 12, tt)]) /\
  nexts_m (rsc_union_next lk_cl lk_cmp) 3
    (100, rs_union (snd (rsc_run lk_cl lk_cmp lk_a)) (snd (rsc_run lk_cl lk_cmp lk_b))) =
    [Ret (Some (mkR (0%Z, 101) (5%Z, 103))); Ret (Some (mkR (5%Z, 104) (12%Z, 106))); Ret None] /\
  nexts_m (rsc_intersection_next lk_cl lk_cmp) 3
    (100, rs_intersection (snd (rsc_run lk_cl lk_cmp lk_a)) (snd (rsc_run lk_cl lk_cmp lk_b))) =
    [Ret (Some (mkR (3%Z, 101) (4%Z, 102))); Ret (Some (mkR (8%Z, 103) (9%Z, 104))); Ret None] /\
  rsc_eval lk_cl lk_cmp (XOr (lkx lk_a) (lkx lk_b)) 0 = (Ret [(mkR (0%Z, 26) (12%Z, 27), tt)], 29) /\
  rsc_eval lk_cl lk_cmp (XAnd (lkx lk_a) (lkx lk_b)) 0 =
    (Ret [(mkR (3%Z, 15) (4%Z, 16), tt); (mkR (8%Z, 19) (9%Z, 20), tt)], 22) /\
  rs_eval lk_cmp (XOr (lkx lk_a) (lkx lk_b)) = Ret [(lkR 0 12, tt)].
Proof. vm_compute. repeat split. Qed.
(** Without the law the claim is false: with clones one greater than their
    originals an intersection of [0..9] with itself lacks 0. *)
Theorem C79_unlawful_clone_refuted :
  exists (kcl : nat -> Z -> Z) (x : sexp (range Z)) (k : Z) s,
    fst (rsc_eval kcl Z.compare x 0) = Ret s /\
    fst (rsc_contains (fun _ k => k) Z.compare k (0, s)) <>
      Ret (mem_sexp (valid_range Z.compare) (in_range Z.compare) x k).
Proof.
  exists (fun _ k => (k + 1)%Z),
    (XAnd (XOp XNew (SInsert (mkR 0 9)%Z)) (XOp XNew (SInsert (mkR 0 9)%Z))), 0%Z. eexists.
  split; [vm_compute; reflexivity|]. vm_compute. discriminate.
Qed.

Section Incl.
  Context {K : Type} {cmp : K -> K -> comparison} {st : stepfns K} (HO : TotalOrd cmp) (HS : StepLaws cmp st).
  Context {kcl : nat -> K -> K} (CK : forall n k, alike_key cmp k (kcl n k)).
  Notation crun := (isc_run kcl cmp st).
  Notation mem := (mem_run (valid_rangei cmp) (in_rangei cmp)).
  Notation mem_of := (mem_sexp (valid_rangei cmp) (in_rangei cmp)).
  Notation ranges s := (map fst (is_iter s)).

  (** ** C80 *)
  Theorem C80_histories : forall ops, fresh_sops ops -> runsi_of cmp (mem ops) (ranges (snd (crun ops))).
  Proof. exact (isclone_runs HO HS CK). Qed.
  Theorem C80_same_outcomes : forall ops o,
    fst (isc_exec kcl cmp st o (crun ops)) = fst (is_exec cmp st o (is_run cmp st ops)).
  Proof. exact (isclone_outcome HO HS CK). Qed.
  Theorem C80_contains : forall ops k, fresh_sops ops ->
    fst (isc_contains kcl cmp k (crun ops)) = Ret (mem ops k) /\
    snd (snd (isc_contains kcl cmp k (crun ops))) = snd (crun ops).
  Proof. exact (isclone_contains HO HS CK). Qed.
  Theorem C80_union : forall a b c, fresh_sops a -> fresh_sops b -> exists us,
    piecesi_of cmp (fun k => mem a k || mem b k) us /\
    forall n, nexts_m (isc_union_next kcl cmp) n (c, is_union (snd (crun a)) (snd (crun b))) =
              map Ret (yields n us).
  Proof. exact (isclone_union HO HS CK). Qed.
  Theorem C80_intersection : forall a b c, exists us,
    runsi_of cmp (fun k => mem a k && mem b k) us /\
    forall n, nexts_m (isc_intersection_next kcl cmp) n (c, is_intersection (snd (crun a)) (snd (crun b))) =
              map Ret (yields n us).
  Proof. exact (isclone_intersection HO HS CK). Qed.
  Theorem C80_expressions : forall x c, fresh_sexp x = true -> exists s,
    fst (isc_eval kcl cmp st x c) = Ret s /\
    runsi_of cmp (mem_of x) (ranges s) /\
    forall n k, fst (isc_contains kcl cmp k (n, s)) = Ret (mem_of x k).
  Proof. exact (isclone_eval HO HS CK). Qed.

  (** with exhausted ranges: the stored ranges are those stored with identical
      clones, up to the clones (the flag is the same), and by their bounds they
      are the maximal runs of the members; lookups answer as with identical
      clones (so they miss the last key of a range stored with the flag, C81) *)
  Theorem C80_same_ranges : forall ops,
    Forall2 (alike_rangei cmp) (ranges (is_run cmp st ops)) (ranges (snd (crun ops))) /\
    runsi_of cmp (mem ops) (map freshen (ranges (snd (crun ops)))).
  Proof. exact (fun ops => conj (isclone_same HO HS CK ops) (isclone_any_runs HO HS CK ops)). Qed.
  Theorem C80_contains_same : forall ops k,
    fst (isc_contains kcl cmp k (crun ops)) = is_contains cmp (is_run cmp st ops) k /\
    snd (snd (isc_contains kcl cmp k (crun ops))) = snd (crun ops).
  Proof. exact (isclone_contains_same HO HS CK). Qed.
  (** the pieces of a union are those of C81, up to the clones *)
  Theorem C80_union_exhausted : forall a b c, exists us us',
    (forall n, nexts_m (is_union_next cmp) n (is_union (is_run cmp st a) (is_run cmp st b)) = map Ret (yields n us)) /\
    (forall n, nexts_m (isc_union_next kcl cmp) n (c, is_union (snd (crun a)) (snd (crun b))) =
               map Ret (yields n us')) /\
    Forall2 (alike_rangei cmp) us us' /\
    (forall r, In r us' -> valid_rangei cmp r = true) /\
    StronglySorted (fun p q => ltb cmp (ri_end p) (ri_start q) = true \/
                               ri_exhausted p = true /\ eqb cmp (ri_end p) (ri_start q) = true) us' /\
    (forall k, (exists r, In r us' /\ in_rangei cmp r k = true) <-> mem a k || mem b k = true).
  Proof. exact (isclone_any_union HO HS CK). Qed.
  Theorem C80_expressions_exhausted : forall x c, exists s s',
    is_eval cmp st x = Ret s /\ fst (isc_eval kcl cmp st x c) = Ret s' /\
    Forall2 (alike_rangei cmp) (ranges s) (ranges s') /\
    runsi_of cmp (mem_of x) (map freshen (ranges s')) /\
    forall n k, fst (isc_contains kcl cmp k (n, s')) = is_contains cmp s k.
  Proof. exact (isclone_any_eval HO HS CK). Qed.
End Incl.
Theorem C80_identity : forall (K : Type) (cmp : K -> K -> comparison) (st : stepfns K) x c s,
  is_eval cmp st x = Ret s -> fst (isc_eval (fun _ k => k) cmp st x c) = Ret s.
Proof. exact (fun K => isclone_identity (K := K)). Qed.

Notation lkI a b := (mkRI (orig a) (orig b) false).
Notation lkI' a i b j := (mkRI (a%Z, i) (b%Z, j) false).
Definition lki_a : list (sop (rangei (Z * nat))) := [SInsert (lkI 0 8); SRemove (lkI 4 5)].
Definition lki_b : list (sop (rangei (Z * nat))) := [SInsert (lkI 3 5); SInsert (lkI 7 12)].
Example C80_example :
  fresh_sops lki_a /\ fresh_sops lki_b /\
  isc_run lk_cl lk_cmp lk_st lki_a = (10, [(lkI' 0 6 3 99, tt); (lkI' 6 99 8 8, tt)]) /\
  isc_run lk_cl lk_cmp lk_st lki_b = (4, [(lkI 3 5, tt); (lkI 7 12, tt)]) /\
  nexts_m (isc_union_next lk_cl lk_cmp) 3
    (100, is_union (snd (isc_run lk_cl lk_cmp lk_st lki_a)) (snd (isc_run lk_cl lk_cmp lk_st lki_b))) =
    [Ret (Some (lkI' 0 103 5 104)); Ret (Some (lkI' 6 107 12 108)); Ret None] /\
  nexts_m (isc_intersection_next lk_cl lk_cmp) 3
    (100, is_intersection (snd (isc_run lk_cl lk_cmp lk_st lki_a)) (snd (isc_run lk_cl lk_cmp lk_st lki_b))) =
    [Ret (Some (lkI' 3 101 3 102)); Ret (Some (lkI' 7 103 8 104)); Ret None] /\
  isc_eval lk_cl lk_cmp lk_st (XOr (lkx lki_a) (lkx lki_b)) 0 = (Ret [(lkI' 0 28 12 29, tt)], 31) /\
  isc_eval lk_cl lk_cmp lk_st (XAnd (lkx lki_a) (lkx lki_b)) 0 =
    (Ret [(lkI' 3 15 3 16, tt); (lkI' 7 19 8 20, tt)], 22) /\
  is_eval lk_cmp lk_st (XOr (lkx lki_a) (lkx lki_b)) = Ret [(lkI 0 12, tt)].
Proof. vm_compute. repeat split. Qed.
(** exhausted ranges: one is stored, one is cut, one is a piece of the union *)
Definition lkx_a : list (sop (rangei (Z * nat))) :=
  [SInsert (mkRI (orig 0) (orig 3) true); SInsert (mkRI (orig 10) (orig 19) true); SRemove (lkI 12 13)].
Definition lkx_b : list (sop (rangei (Z * nat))) := [SInsert (mkRI (orig 3) (orig 5) true); SInsert (lkI 11 12)].
Example C80_example_exhausted :
  map fst (snd (isc_run lk_cl lk_cmp lk_st lkx_a)) =
    [mkRI (orig 0) (orig 3) true; lkI' 10 8 11 99; lkI' 14 99 19 10] /\
  map (fun k => fst (isc_contains lk_cl lk_cmp (orig k) (isc_run lk_cl lk_cmp lk_st lkx_a))) [2; 3; 10; 12; 19]%Z =
    map Ret [true; false; true; false; true] /\
  nexts_m (isc_union_next lk_cl lk_cmp) 5
    (100, is_union (snd (isc_run lk_cl lk_cmp lk_st lkx_a)) (snd (isc_run lk_cl lk_cmp lk_st lkx_b))) =
    map Ret [Some (mkRI (0%Z, 101) (3%Z, 102) true); Some (mkRI (3%Z, 103) (5%Z, 104) true);
             Some (lkI' 10 107 12 108); Some (lkI' 14 109 19 110); None].
Proof. vm_compute. repeat split. Qed.
Theorem C80_unlawful_clone_refuted :
  exists (kcl : nat -> Z -> Z) (x : sexp (rangei Z)) (k : Z) s,
    fresh_sexp x = true /\
    fst (isc_eval kcl Z.compare zst x 0) = Ret s /\
    fst (isc_contains (fun _ k => k) Z.compare k (0, s)) <>
      Ret (mem_sexp (valid_rangei Z.compare) (in_rangei Z.compare) x k).
Proof.
  exists (fun _ k => (k + 1)%Z),
    (XAnd (XOp XNew (SInsert (mkI 0 9)%Z)) (XOp XNew (SInsert (mkI 0 9)%Z))), 0%Z. eexists.
  split; [reflexivity|]. split; [vm_compute; reflexivity|]. vm_compute. discriminate.
Qed.

(** The hypotheses of the two sections are met by [lk_order], [lk_steps] and [lk_key]. *)
Example C79_instance : forall x, exists s, fst (rsc_eval lk_cl lk_cmp x 0) = Ret s.
Proof. intros x. destruct (sclone_eval lk_order lk_key x 0) as (s & H & _). exists s. exact H. Qed.
Example C80_instance : forall x, fresh_sexp x = true -> exists s, fst (isc_eval lk_cl lk_cmp lk_st x 0) = Ret s.
Proof. intros x Hx. destruct (isclone_eval lk_order lk_steps lk_key x 0 Hx) as (s & H & _). exists s. exact H. Qed.

Print Assumptions C79_histories.
Print Assumptions C79_same_outcomes.
Print Assumptions C79_contains.
Print Assumptions C79_union.
Print Assumptions C79_intersection.
Print Assumptions C79_expressions.
Print Assumptions C79_identity.
Print Assumptions C79_unlawful_clone_refuted.
Print Assumptions C80_histories.
Print Assumptions C80_same_outcomes.
Print Assumptions C80_contains.
Print Assumptions C80_union.
Print Assumptions C80_intersection.
Print Assumptions C80_expressions.
Print Assumptions C80_same_ranges.
Print Assumptions C80_contains_same.
Print Assumptions C80_union_exhausted.
Print Assumptions C80_expressions_exhausted.
Print Assumptions C80_identity.
Print Assumptions C80_unlawful_clone_refuted.
