(** Key wrappers (C75, C76) and [overlaps] / [touches] of ranges (C77, C78). *)
From Coq Require Import List Bool ZArith.
From Verif Require Import Order Outcome BTree Ranges History Spec SearchTree MapModel IMapModel
  IMapProps CrashModel WrapperModel WrapperFacts Instances.
Import ListNotations.

(** ** C75, C76: the wrappers' [==], [partial_cmp] and [cmp] satisfy [Ord]'s contract *)
Theorem C75_ord_contract : forall (K : Type) kcmp kpcmp keqb, ord_contract (K := K) kcmp kpcmp keqb ->
  ord_contract (sw_cmp kcmp) (sw_partial_cmp kpcmp) (sw_eq keqb) /\
  ord_contract (ew_cmp kcmp) (ew_partial_cmp kpcmp) (ew_eq keqb).
Proof. intros K kcmp kpcmp keqb H. destruct (wrappers_lawful H) as (H1 & H2 & _). split; assumption. Qed.
Theorem C76_ord_contract : forall (K : Type) kcmp kpcmp keqb, ord_contract (K := K) kcmp kpcmp keqb ->
  ord_contract (isw_cmp kcmp) (isw_partial_cmp kpcmp) (isw_eq keqb) /\
  ord_contract (iew_cmp kcmp) (iew_partial_cmp kpcmp) (iew_eq keqb).
Proof. intros K kcmp kpcmp keqb H. destruct (wrappers_lawful H) as (_ & _ & H1 & H2). split; assumption. Qed.
Example C75_contract_example : ord_contract Z.compare (fun a b => Some (Z.compare a b)) Z.eqb /\
  sw_cmp Z.compare (sw_new (mkR 3 9)%Z) (sw_new (mkR 3 5)%Z) = Eq /\
  ew_cmp Z.compare (sw_borrow (sw_new (mkR 3 9)%Z)) (sw_borrow (sw_new (mkR 3 5)%Z)) = Gt.
Proof.
  split; [|vm_compute; auto]. split; [exact Z_order|]. split; [reflexivity|].
  intros a b. rewrite Z.eqb_eq. split; [intros ->; apply Z.compare_refl|apply Z.compare_eq].
Qed.

(** [Borrow] demands that the borrowed form compares like the original.  It does
    not in general ... *)
Theorem C75_borrow_law_refuted : exists a b : range Z,
  valid_range Z.compare a = true /\ valid_range Z.compare b = true /\
  sw_cmp Z.compare (sw_new a) (sw_new b) <> ew_cmp Z.compare (sw_borrow (sw_new a)) (sw_borrow (sw_new b)).
Proof. exists (mkR 0 9)%Z, (mkR 3 5)%Z. vm_compute. repeat split; discriminate. Qed.
Theorem C76_borrow_law_refuted : exists a b : rangei Z,
  valid_rangei Z.compare a = true /\ valid_rangei Z.compare b = true /\
  isw_cmp Z.compare (isw_new a) (isw_new b) <>
  iew_cmp Z.compare (isw_borrow (isw_new a)) (isw_borrow (isw_new b)).
Proof. exists (mkRI 0 9 false)%Z, (mkRI 3 5 false)%Z. vm_compute. repeat split; discriminate. Qed.

Section Moments.
  Context {K V : Type} {cmp : K -> K -> comparison} {veqb : V -> V -> bool}.
  Context (HO : TotalOrd cmp) (HV : PartialEquiv veqb).

  (** ... but it does for the keys that are together in a map, at every moment
      of every call ([rmx_run xs]: calls may be cut off between any two
      modifications); and no two keys have the same start or the same end *)
  Theorem C75_borrow_law_at_every_moment : forall xs (a b : range K * V),
    In a (rmx_run cmp veqb xs) -> In b (rmx_run cmp veqb xs) ->
    let wa := sw_new (fst a) in let wb := sw_new (fst b) in
    sw_cmp cmp wa wb = ew_cmp cmp (sw_borrow wa) (sw_borrow wb) /\ (sw_cmp cmp wa wb = Eq -> a = b).
  Proof. exact (moment_borrow HO HV). Qed.
  (** so searches by either wrapper, within a call too, do not depend on the
      shape of the tree *)
  Theorem C75_search_at_every_moment : forall xs (t : tree (range K * V)), elems t = rmx_run cmp veqb xs ->
    forall c, c = cmp_start cmp \/ c = cmp_end cmp ->
    forall lo hi, bad_bounds c lo hi = false ->
      bt_range c lo hi (rmx_run cmp veqb xs) = Ret (tree_range c lo hi t).
  Proof. exact (moment_search HO HV). Qed.

  Context {st : stepfns K} (HS : StepLaws cmp st).
  Theorem C76_borrow_law_at_every_moment : forall xs (a b : rangei K * V),
    In a (imx_run cmp veqb st xs) -> In b (imx_run cmp veqb st xs) ->
    let wa := isw_new (fst a) in let wb := isw_new (fst b) in
    isw_cmp cmp wa wb = iew_cmp cmp (isw_borrow wa) (isw_borrow wb) /\ (isw_cmp cmp wa wb = Eq -> a = b).
  Proof. exact (fun xs a b => imoment_borrow HO HV HS xs a b). Qed.
  Theorem C76_search_at_every_moment : forall xs (t : tree (rangei K * V)),
    elems t = imx_run cmp veqb st xs ->
    forall c, c = cmpi_start cmp \/ c = cmpi_end cmp ->
    forall lo hi, bad_bounds c lo hi = false ->
      bt_range c lo hi (imx_run cmp veqb st xs) = Ret (tree_range c lo hi t).
  Proof. exact (imoment_search HO HV HS). Qed.
End Moments.

(** an insert cut off after it has taken out the middle of three entries *)
Example C75_example :
  let xs := [XDone (OInsert (mkR 0 4) 1); XDone (OInsert (mkR 4 8) 2); XDone (OInsert (mkR 8 9) 3);
             XCrash (OInsert (mkR 5 6) 7) 1]%Z in
  rmx_run Z.compare Z.eqb xs = [(mkR 0 4, 1); (mkR 8 9, 3)]%Z /\
  sw_cmp Z.compare (sw_new (mkR 0 4)%Z) (sw_new (mkR 8 9)%Z) = Lt.
Proof. vm_compute. auto. Qed.
Example C76_example :
  let xs := [XDone (OInsert (mkRI 0 3 true) 1); XDone (OInsert (mkRI 4 7 false) 2);
             XDone (OInsert (mkRI 8 9 false) 3); XCrash (ORemove (mkRI 5 6 false)) 2]%Z in
  imx_run Z.compare Z.eqb zst xs = [(mkRI 0 3 true, 1); (mkRI 4 4 false, 2); (mkRI 8 9 false, 3)]%Z.
Proof. vm_compute. auto. Qed.

(** ** C77: [RangeExt] *)
Section Ext.
  Context {K : Type} {cmp : K -> K -> comparison} (HO : TotalOrd cmp).
  (** for all ranges, empty and backward ones included *)
  Theorem C77_overlaps : forall a b : range K, r_overlaps cmp a b = true <-> share (in_range cmp) a b.
  Proof. exact (overlaps_share HO). Qed.
  Theorem C77_touches : forall a b : range K, valid_range cmp a = true -> valid_range cmp b = true ->
    r_touches cmp a b = true <-> exists c, joined (in_range cmp) a b c.
  Proof. exact (touches_joined HO). Qed.
  Theorem C77_symmetric : forall a b : range K,
    r_overlaps cmp a b = r_overlaps cmp b a /\ r_touches cmp a b = r_touches cmp b a /\
    (r_overlaps cmp a b = true -> r_touches cmp a b = true).
  Proof. exact (fun a b => conj (overlaps_sym HO a b) (conj (touches_sym HO a b) (overlaps_touches HO a b))). Qed.

  (** ** C78: [RangeInclusiveExt] *)
  Theorem C78_overlaps : forall a b : rangei K, ri_overlaps cmp a b = true <-> share (in_rangei cmp) a b.
  Proof. exact (ioverlaps_share HO). Qed.
  Context {st : stepfns K} (HS : StepLaws cmp st).
  (** never asks for the successor of the greatest key *)
  Theorem C78_touches_returns : forall a b : rangei K, exists t, ri_touches cmp st a b = Ret t.
  Proof. exact (itouches_ret HS). Qed.
  Theorem C78_touches : forall a b : rangei K, valid_rangei cmp a = true -> valid_rangei cmp b = true ->
    ri_touches cmp st a b = Ret true <-> exists c, joined (in_rangei cmp) a b c.
  Proof. exact (itouches_joined HO HS). Qed.
  Theorem C78_symmetric : forall a b : rangei K,
    ri_overlaps cmp a b = ri_overlaps cmp b a /\ ri_touches cmp st a b = ri_touches cmp st b a /\
    (ri_overlaps cmp a b = true -> ri_touches cmp st a b = Ret true).
  Proof. exact (fun a b => conj (ioverlaps_sym HO a b) (conj (itouches_sym HO HS a b) (ioverlaps_touches HO HS a b))). Qed.
End Ext.
Example C77_example :
  r_touches Z.compare (mkR 1 3)%Z (mkR 3 5)%Z = true /\ r_overlaps Z.compare (mkR 1 3)%Z (mkR 3 5)%Z = false /\
  r_overlaps Z.compare (mkR 1 4)%Z (mkR 3 5)%Z = true /\ r_touches Z.compare (mkR 1 3)%Z (mkR 4 5)%Z = false.
Proof. vm_compute. auto. Qed.
(** with an empty range [touches] is not about joining *)
Theorem C77_touches_empty_refuted : exists a b : range Z, valid_range Z.compare b = true /\
  r_touches Z.compare a b = false /\ exists c, joined (in_range Z.compare) a b c.
Proof.
  exists (mkR 20 20)%Z, (mkR 0 9)%Z. split; [reflexivity|]. split; [reflexivity|]. exists (mkR 0 9)%Z.
  intros k. split; [auto|]. intros [H|H]; [|exact H]. exfalso.
  unfold in_range in H. cbn [r_start r_end] in H. destruct (ltb Z.compare k 20%Z); discriminate.
Qed.
Example C78_example :
  ri_touches Z.compare zst (mkRI 1 3 false)%Z (mkRI 4 5 false)%Z = Ret true /\
  ri_overlaps Z.compare (mkRI 1 3 false)%Z (mkRI 4 5 false)%Z = false /\
  ri_touches Z.compare zst (mkRI 1 3 false)%Z (mkRI 5 5 false)%Z = Ret false /\
  ri_overlaps Z.compare (mkRI 1 3 false)%Z (mkRI 3 5 false)%Z = true.
Proof. vm_compute. auto. Qed.
(** the flag of an exhausted range, which then contains no key, is not looked at *)
Theorem C78_overlaps_exhausted_refuted : exists a b : rangei Z,
  ri_overlaps Z.compare a b = true /\ forall k, ri_contains Z.compare a k = false.
Proof.
  exists (mkRI 5 5 true)%Z, (mkRI 5 5 false)%Z. split; [reflexivity|]. intros k.
  unfold ri_contains, leb, ltb. cbn [ri_start ri_end ri_exhausted].
  rewrite (Z.compare_antisym k 5). destruct (Z.compare k 5); reflexivity.
Qed.

Print Assumptions C75_ord_contract.
Print Assumptions C76_ord_contract.
Print Assumptions C75_borrow_law_refuted.
Print Assumptions C76_borrow_law_refuted.
Print Assumptions C75_borrow_law_at_every_moment.
Print Assumptions C75_search_at_every_moment.
Print Assumptions C76_borrow_law_at_every_moment.
Print Assumptions C76_search_at_every_moment.
Print Assumptions C77_overlaps.
Print Assumptions C77_touches.
Print Assumptions C77_symmetric.
Print Assumptions C78_overlaps.
Print Assumptions C78_touches_returns.
Print Assumptions C78_touches.
Print Assumptions C78_symmetric.
Print Assumptions C77_touches_empty_refuted.
Print Assumptions C78_overlaps_exhausted_refuted.
