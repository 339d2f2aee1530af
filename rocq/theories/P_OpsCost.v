(** C102: the number of comparisons the iterators [Union] and [Intersection]
    make, for ANY answers the keys' comparison methods give.

    OpsCostModel.v models operations.rs with each comparison of two keys made
    explicit; the answers are an arbitrary function [kc] of the number of the
    comparison and the two keys, so nothing of [Ord]'s contract is used, except
    where the count is forgotten ([C102_half_open_model], [C102_inclusive_model]). *)
From Coq Require Import List Bool Lia ZArith.
From Verif Require Import Order Outcome BTree Ranges History MapModel IMapModel OpsModel SetModel ISetModel CloneModel CloneSetModel
  WorkModel WorkFacts StepModel StepFacts OpsCostModel ListLemmas MapProps IMapProps Tiling OpsCost OpsClones Spec SpecOps Instances P_Clone P_CloneCost.
Import ListNotations.
Open Scope nat_scope.

(** how many ranges the two underlying iterators have still to give, those
    already peeked included *)
Definition items {R E} (u : pair_iter R (list E)) : nat :=
  let side (p : peekable (list E) R) :=
    match pk_peeked p with Some (Some _) => 1 | _ => 0 end + length (pk_iter p) in
  side (op_left u) + side (op_right u).

Lemma ex_empty_or {A} (a b : list A) : (a = [] \/ b = []) \/ (a <> [] /\ b <> []).
Proof. destruct a, b; auto; right; split; discriminate. Qed.

Section Half.
  Context {K : Type}.
  Notation union_next := rsq_union_next.
  Notation intersection_next := rsq_intersection_next.

  (** Forgetting the count, and with comparisons that obey [Ord]'s contract, the
      counting model is the model of the other properties. *)
  Theorem C102_half_open_model (cmp : K -> K -> comparison) (HO : TotalOrd cmp) : forall n u,
    (fst (union_next (fun _ => cmp) (n, u)), snd (snd (union_next (fun _ => cmp) (n, u)))) = rs_union_next cmp u /\
    (fst (intersection_next (fun _ => cmp) (n, u)), snd (snd (intersection_next (fun _ => cmp) (n, u)))) = rs_intersection_next cmp u.
  Proof. intros n u. split; [exact (er_rs_union cmp HO (n, u))|exact (er_rs_intersection cmp HO (n, u))]. Qed.

  Context (kc : nat -> K -> K -> comparison).
  (** One call of [next], from any state of the iterator: it returns, without a
      panic and without looping for ever, and makes at most five comparisons
      (four for the intersection) per range it takes from the two sides.  A call
      that yields a range takes one or more. *)
  Theorem C102_half_open_union_next n u : exists o n' u', union_next kc (n, u) = (Ret o, (n', u')) /\
    n <= n' /\ items u' <= items u /\ n' - n <= 5 * (items u - items u') /\ (o <> None -> items u' < items u).
  Proof.
    destruct (ct_union rs_iter_next (@length _) nx_half 1 1 3 0 2 3 5 ltac:(lia) ltac:(lia) ltac:(lia) _ _ (fun x y => ak_order kc (r_start x) (r_start y)) (ak_merge kc) n u) as [o [n' [u' [E [H1 [H2 H3]]]]]].
    exists o, n', u'. unfold items, pk_len in *. destruct o; (split; [exact E|]; splits; try lia; congruence).
  Qed.
  Theorem C102_half_open_intersection_next n u : exists o n' u', intersection_next kc (n, u) = (Ret o, (n', u')) /\
    n <= n' /\ items u' <= items u /\ n' - n <= 4 * (items u - items u') /\ (o <> None -> items u' < items u).
  Proof.
    destruct (ct_intersection rs_iter_next (@length _) nx_half 0 1 3 0 0 0 4 ltac:(lia) ltac:(lia) ltac:(lia) _ _ (fun x y => ak_order kc (r_end x) (r_end y)) (ak_intersect kc) n u) as [o [n' [u' [E [H1 [H2 [H3 H4]]]]]]].
    exists o, n', u'. unfold items, pk_len in *. destruct o; (split; [exact E|]; splits; try lia; congruence).
  Qed.

  (** A whole run, over two sets (or any two lists of ranges): linear in the
      number of ranges, both in what is yielded and in the comparisons made. *)
  Theorem C102_half_open_union (a b : rset K) : exists l n u,
    drain (union_next kc) (length a + length b + 1) (0, op_new (rs_iter a) (rs_iter b)) = (Ret l, (n, u)) /\
    length l <= length a + length b /\ n <= 5 * (length a + length b).
  Proof.
    destruct (ct_drain (@length _) 1 1 3 0 2 3 5 ltac:(lia) ltac:(lia) ltac:(lia) _ (ct_union rs_iter_next (@length _) nx_half 1 1 3 0 2 3 5 ltac:(lia) ltac:(lia) ltac:(lia) _ _ (fun x y => ak_order kc (r_start x) (r_start y)) (ak_merge kc))
      (length a + length b + 1) 0 (op_new (rs_iter a) (rs_iter b))) as [l [n [u [E [H1 H2]]]]]; [unfold rs_iter, rm_iter, rset, rmap in *; cbn; lia|].
    exists l, n, u. split; [exact E|]. unfold rs_iter, rm_iter, rset, rmap in *; cbn in H1, H2. lia.
  Qed.
  Theorem C102_half_open_intersection (a b : rset K) : exists l n u,
    drain (intersection_next kc) (length a + length b + 1) (0, op_new (rs_iter a) (rs_iter b)) = (Ret l, (n, u)) /\
    length l <= length a + length b - 1 /\ n <= 4 * (length a + length b - 1) /\
    (a = [] \/ b = [] -> l = [] /\ n = 0).
  Proof.
    destruct (ex_empty_or a b) as [H|[Ha Hb]].
    - exists [], 0. destruct H as [-> | ->].
      + destruct b as [|[r []] b]; (eexists; split; [reflexivity|]; splits; auto; cbn; lia).
      + destruct a as [|[r []] a]; (eexists; split; [reflexivity|]; splits; auto; cbn; lia).
    - destruct (ct_drain_in rs_iter_next (@length _) nx_half 0 1 3 0 0 0 4 ltac:(lia) ltac:(lia) ltac:(lia) _ _ (fun x y => ak_order kc (r_end x) (r_end y)) (ak_intersect kc)
        (length a + length b + 1) 0 (op_new (rs_iter a) (rs_iter b))) as [l [n [u [E [H1 H2]]]]];
        [unfold rs_iter, rm_iter, rset, rmap in *; cbn; lia|unfold rs_iter, rm_iter, rset, rmap in *; destruct a; [congruence|cbn; lia]|].
      exists l, n, u. split; [exact E|]. unfold rs_iter, rm_iter, rset, rmap in *; cbn in H1, H2. splits; try lia. intros [H|H]; congruence.
  Qed.
End Half.

Section Incl.
  Context {K : Type}.
  Notation union_next := isq_union_next.
  Notation intersection_next := isq_intersection_next.

  (** Forgetting the count, and with comparisons that obey [Ord]'s contract, the
      counting model is the model of the other properties. *)
  Theorem C102_inclusive_model (cmp : K -> K -> comparison) (HO : TotalOrd cmp) : forall n u,
    (fst (union_next (fun _ => cmp) (n, u)), snd (snd (union_next (fun _ => cmp) (n, u)))) = is_union_next cmp u /\
    (fst (intersection_next (fun _ => cmp) (n, u)), snd (snd (intersection_next (fun _ => cmp) (n, u)))) = is_intersection_next cmp u.
  Proof. intros n u. split; [exact (er_is_union cmp HO (n, u))|exact (er_is_intersection cmp HO (n, u))]. Qed.

  Context (kc : nat -> K -> K -> comparison).
  (** One call of [next], from any state of the iterator: it returns, without a
      panic and without looping for ever, and makes at most five comparisons
      (four for the intersection) per range it takes from the two sides.  A call
      that yields a range takes one or more. *)
  Theorem C102_inclusive_union_next n u : exists o n' u', union_next kc (n, u) = (Ret o, (n', u')) /\
    n <= n' /\ items u' <= items u /\ n' - n <= 5 * (items u - items u') /\ (o <> None -> items u' < items u).
  Proof.
    destruct (ct_union is_iter_next (@length _) nx_incl 1 1 3 0 2 3 5 ltac:(lia) ltac:(lia) ltac:(lia) _ _ (fun x y => ak_order kc (ri_start x) (ri_start y)) (ak_imerge kc) n u) as [o [n' [u' [E [H1 [H2 H3]]]]]].
    exists o, n', u'. unfold items, pk_len in *. destruct o; (split; [exact E|]; splits; try lia; congruence).
  Qed.
  Theorem C102_inclusive_intersection_next n u : exists o n' u', intersection_next kc (n, u) = (Ret o, (n', u')) /\
    n <= n' /\ items u' <= items u /\ n' - n <= 4 * (items u - items u') /\ (o <> None -> items u' < items u).
  Proof.
    destruct (ct_intersection is_iter_next (@length _) nx_incl 0 1 3 0 0 0 4 ltac:(lia) ltac:(lia) ltac:(lia) _ _ (fun x y => ak_order kc (ri_end x) (ri_end y)) (ak_iintersect kc) n u) as [o [n' [u' [E [H1 [H2 [H3 H4]]]]]]].
    exists o, n', u'. unfold items, pk_len in *. destruct o; (split; [exact E|]; splits; try lia; congruence).
  Qed.

  (** A whole run, over two sets (or any two lists of ranges): linear in the
      number of ranges, both in what is yielded and in the comparisons made. *)
  Theorem C102_inclusive_union (a b : iset K) : exists l n u,
    drain (union_next kc) (length a + length b + 1) (0, op_new (is_iter a) (is_iter b)) = (Ret l, (n, u)) /\
    length l <= length a + length b /\ n <= 5 * (length a + length b).
  Proof.
    destruct (ct_drain (@length _) 1 1 3 0 2 3 5 ltac:(lia) ltac:(lia) ltac:(lia) _ (ct_union is_iter_next (@length _) nx_incl 1 1 3 0 2 3 5 ltac:(lia) ltac:(lia) ltac:(lia) _ _ (fun x y => ak_order kc (ri_start x) (ri_start y)) (ak_imerge kc))
      (length a + length b + 1) 0 (op_new (is_iter a) (is_iter b))) as [l [n [u [E [H1 H2]]]]]; [unfold is_iter, im_iter, iset, imap in *; cbn; lia|].
    exists l, n, u. split; [exact E|]. unfold is_iter, im_iter, iset, imap in *; cbn in H1, H2. lia.
  Qed.
  Theorem C102_inclusive_intersection (a b : iset K) : exists l n u,
    drain (intersection_next kc) (length a + length b + 1) (0, op_new (is_iter a) (is_iter b)) = (Ret l, (n, u)) /\
    length l <= length a + length b - 1 /\ n <= 4 * (length a + length b - 1) /\
    (a = [] \/ b = [] -> l = [] /\ n = 0).
  Proof.
    destruct (ex_empty_or a b) as [H|[Ha Hb]].
    - exists [], 0. destruct H as [-> | ->].
      + destruct b as [|[r []] b]; (eexists; split; [reflexivity|]; splits; auto; cbn; lia).
      + destruct a as [|[r []] a]; (eexists; split; [reflexivity|]; splits; auto; cbn; lia).
    - destruct (ct_drain_in is_iter_next (@length _) nx_incl 0 1 3 0 0 0 4 ltac:(lia) ltac:(lia) ltac:(lia) _ _ (fun x y => ak_order kc (ri_end x) (ri_end y)) (ak_iintersect kc)
        (length a + length b + 1) 0 (op_new (is_iter a) (is_iter b))) as [l [n [u [E [H1 H2]]]]];
        [unfold is_iter, im_iter, iset, imap in *; cbn; lia|unfold is_iter, im_iter, iset, imap in *; destruct a; [congruence|cbn; lia]|].
      exists l, n, u. split; [exact E|]. unfold is_iter, im_iter, iset, imap in *; cbn in H1, H2. splits; try lia. intros [H|H]; congruence.
  Qed.
End Incl.

(** ** C103: clones and [BTreeMap] calls *)
(** [Union::next] and [Intersection::next] clone at most two keys for each range
    they take from the two sides, whatever the comparisons and the clones give. *)
Theorem C103_next : forall (K : Type) (kcl : nat -> K -> K) (cmp : K -> K -> comparison) n u,
  (exists o n' u', rsc_union_next kcl cmp (n, u) = (Ret o, (n', u')) /\
     n <= n' /\ items u' <= items u /\ n' - n <= 2 * (items u - items u') /\ (o <> None -> items u' < items u)) /\
  (exists o n' u', rsc_intersection_next kcl cmp (n, u) = (Ret o, (n', u')) /\
     n <= n' /\ items u' <= items u /\ n' - n <= 2 * (items u - items u') /\ (o <> None -> items u' < items u)).
Proof.
  intros K kcl cmp n u. split.
  - destruct (cl_union kcl cmp n u) as [o [n' [u' [E [H1 [H2 H3]]]]]].
    exists o, n', u'. unfold items, pk_len in *. destruct o; (split; [exact E|]; splits; try lia; congruence).
  - destruct (cl_intersection kcl cmp n u) as [o [n' [u' [E [H1 [H2 H3]]]]]].
    exists o, n', u'. unfold items, pk_len in *. destruct o; (split; [exact E|]; splits; try lia; congruence).
Qed.
Section ClonesHalf.
  Context {K : Type} {cmp : K -> K -> comparison} (HO : TotalOrd cmp).
  (** [|] and [&] (iterating, and inserting every piece into a new set): linearly
      many keys and values cloned; less five for each range of the result *)
  Theorem C103_clones {kcl : nat -> K -> K} (CK : forall n k, alike_key cmp k (kcl n k)) : forall (a b : rset K) n,
    (let '(o, n') := rsc_bitor kcl cmp a b n in
     n' <= n + 35 * (length a + length b) /\ forall s, o = Ret s -> n' + 5 * length s <= n + 35 * (length a + length b)) /\
    (let '(o, n') := rsc_bitand kcl cmp a b n in
     n' <= n + 35 * (length a + length b) /\ forall s, o = Ret s -> n' + 5 * length s <= n + 35 * (length a + length b)).
  Proof. intros a b n. exact (conj (cl_bitor HO CK a b n) (cl_bitand HO CK a b n)). Qed.
  (** and linearly many calls on the [BTreeMap] of the new set: the pieces [us]
      are at most as many as the ranges given, and inserting them makes at most 21
      calls for each *)
  Theorem C103_calls : forall (a b : rset K), exists us vs,
    rs_bitor cmp a b = rs_from_iter cmp us /\ length us <= length a + length b /\
    length (bt_calls (rmt_exec cmp unit_eqb) (map (fun r => OInsert r tt) us) rm_new) <= 21 * (length a + length b) /\
    rs_bitand cmp a b = rs_from_iter cmp vs /\ length vs <= length a + length b - 1 /\
    length (bt_calls (rmt_exec cmp unit_eqb) (map (fun r => OInsert r tt) vs) rm_new) <= 21 * (length a + length b - 1).
  Proof.
    intros a b.
    destruct (C102_half_open_union (fun _ => cmp) a b) as [us [n [u [E [H1 _]]]]].
    destruct (C102_half_open_intersection (fun _ => cmp) a b) as [vs [n' [u' [E' [H1' _]]]]].
    exists us, vs.
    pose proof (er_drain _ _ (er_rs_union cmp HO) (length a + length b + 1) (0, op_new (rs_iter a) (rs_iter b))) as D.
    pose proof (er_drain _ _ (er_rs_intersection cmp HO) (length a + length b + 1) (0, op_new (rs_iter a) (rs_iter b))) as D'.
    rewrite E in D. rewrite E' in D'. cbn [fst snd] in D, D'. apply (f_equal fst) in D, D'. cbn [fst] in D, D'.
    pose proof (wk_history HO unit_per (map (fun r => OInsert r tt) us)) as W. pose proof (wk_history HO unit_per (map (fun r => OInsert r tt) vs)) as W'.
    rewrite work_inserts in W, W'.
    split; [|split; [exact H1|split; [lia|split; [|split; [exact H1'|lia]]]]].
    - exact (eq_sym (f_equal (fun o => obind o (rs_from_iter cmp)) D)).
    - exact (eq_sym (f_equal (fun o => obind o (rs_from_iter cmp)) D')).
  Qed.
End ClonesHalf.

(** ** C104: clones and [BTreeMap] calls *)
(** [Union::next] and [Intersection::next] clone at most two keys for each range
    they take from the two sides, whatever the comparisons and the clones give. *)
Theorem C104_next : forall (K : Type) (kcl : nat -> K -> K) (cmp : K -> K -> comparison) n u,
  (exists o n' u', isc_union_next kcl cmp (n, u) = (Ret o, (n', u')) /\
     n <= n' /\ items u' <= items u /\ n' - n <= 2 * (items u - items u') /\ (o <> None -> items u' < items u)) /\
  (exists o n' u', isc_intersection_next kcl cmp (n, u) = (Ret o, (n', u')) /\
     n <= n' /\ items u' <= items u /\ n' - n <= 2 * (items u - items u') /\ (o <> None -> items u' < items u)).
Proof.
  intros K kcl cmp n u. split.
  - destruct (cl_iunion kcl cmp n u) as [o [n' [u' [E [H1 [H2 H3]]]]]].
    exists o, n', u'. unfold items, pk_len in *. destruct o; (split; [exact E|]; splits; try lia; congruence).
  - destruct (cl_iintersection kcl cmp n u) as [o [n' [u' [E [H1 [H2 H3]]]]]].
    exists o, n', u'. unfold items, pk_len in *. destruct o; (split; [exact E|]; splits; try lia; congruence).
Qed.
Section ClonesIncl.
  Context {K : Type} {cmp : K -> K -> comparison} (HO : TotalOrd cmp) {st : stepfns K} (HS : StepLaws cmp st).
  (** [|] and [&] (iterating, and inserting every piece into a new set): linearly
      many keys and values cloned; less five for each range of the result *)
  Theorem C104_clones {kcl : nat -> K -> K} (CK : forall n k, alike_key cmp k (kcl n k)) : forall (a b : iset K) n,
    (let '(o, n') := isc_bitor kcl cmp st a b n in
     n' <= n + 37 * (length a + length b) /\ forall s, o = Ret s -> n' + 5 * length s <= n + 37 * (length a + length b)) /\
    (let '(o, n') := isc_bitand kcl cmp st a b n in
     n' <= n + 37 * (length a + length b) /\ forall s, o = Ret s -> n' + 5 * length s <= n + 37 * (length a + length b)).
  Proof. intros a b n. exact (conj (cl_ibitor HO HS CK a b n) (cl_ibitand HO HS CK a b n)). Qed.
  (** and linearly many calls on the [BTreeMap] of the new set: the pieces [us]
      are at most as many as the ranges given, and inserting them makes at most 21
      calls for each *)
  Theorem C104_calls : forall (a b : iset K), exists us vs,
    is_bitor cmp st a b = is_from_iter cmp st us /\ length us <= length a + length b /\
    length (bt_calls (imt_exec cmp unit_eqb st) (map (fun r => OInsert r tt) us) im_new) <= 21 * (length a + length b) /\
    is_bitand cmp st a b = is_from_iter cmp st vs /\ length vs <= length a + length b - 1 /\
    length (bt_calls (imt_exec cmp unit_eqb st) (map (fun r => OInsert r tt) vs) im_new) <= 21 * (length a + length b - 1).
  Proof.
    intros a b.
    destruct (C102_inclusive_union (fun _ => cmp) a b) as [us [n [u [E [H1 _]]]]].
    destruct (C102_inclusive_intersection (fun _ => cmp) a b) as [vs [n' [u' [E' [H1' _]]]]].
    exists us, vs.
    pose proof (er_drain _ _ (er_is_union cmp HO) (length a + length b + 1) (0, op_new (is_iter a) (is_iter b))) as D.
    pose proof (er_drain _ _ (er_is_intersection cmp HO) (length a + length b + 1) (0, op_new (is_iter a) (is_iter b))) as D'.
    rewrite E in D. rewrite E' in D'. cbn [fst snd] in D, D'. apply (f_equal fst) in D, D'. cbn [fst] in D, D'.
    pose proof (iwk_history HO HS unit_per (map (fun r => OInsert r tt) us)) as W. pose proof (iwk_history HO HS unit_per (map (fun r => OInsert r tt) vs)) as W'.
    rewrite work_inserts in W, W'.
    split; [|split; [exact H1|split; [lia|split; [|split; [exact H1'|lia]]]]].
    - exact (eq_sym (f_equal (fun o => obind o (is_from_iter cmp st)) D)).
    - exact (eq_sym (f_equal (fun o => obind o (is_from_iter cmp st)) D')).
  Qed.
End ClonesIncl.

(** ** Instances *)
Open Scope Z_scope.
Notation zkc := (fun _ : nat => Z.compare).
Definition cha : rset Z := [(mkR 0 1, tt); (mkR 4 5, tt); (mkR 8 9, tt); (mkR 12 13, tt)].
Definition chb : rset Z := [(mkR 2 3, tt); (mkR 6 7, tt); (mkR 10 11, tt); (mkR 14 15, tt)].
(** the bounds are nearly attained: 33 = 5 * 8 - 7 and 28 = 4 * (8 - 1) *)
Example C102_half_open_example :
  TotalOrd Z.compare /\
  let u := op_new (rs_iter cha) (rs_iter chb) in
  let '(o, (n, _)) := drain (rsq_union_next zkc) 9 (O, u) in
  let '(o', (n', _)) := drain (rsq_intersection_next zkc) 9 (O, u) in
  o = Ret [mkR 0 1; mkR 2 3; mkR 4 5; mkR 6 7; mkR 8 9; mkR 10 11; mkR 12 13; mkR 14 15] /\
  n = 33%nat /\ o' = Ret [] /\ n' = 28%nat.
Proof. split; [exact Z_order|]. vm_compute. auto. Qed.
Definition cia : iset Z := [(mkRI 0 5 false, tt); (mkRI 8 20 false, tt); (mkRI 25 25 true, tt)].
Definition cib : iset Z := [(mkRI 3 9 false, tt); (mkRI 11 12 false, tt); (mkRI 30 31 false, tt)].
Example C102_inclusive_example :
  let u := op_new (is_iter cia) (is_iter cib) in
  let '(o, (n, _)) := drain (isq_union_next zkc) 7 (O, u) in
  let '(o', (n', _)) := drain (isq_intersection_next zkc) 7 (O, u) in
  o = Ret [mkRI 0 20 false; mkRI 25 25 true; mkRI 30 31 false] /\ n = 21%nat /\
  o' = Ret [mkRI 3 5 false; mkRI 8 9 false; mkRI 11 12 false] /\ n' = 20%nat.
Proof. vm_compute. auto. Qed.
(** comparisons that contradict themselves: whether [a < b] depends on how many
    were made before *)
Definition fickle (n : nat) (a b : Z) : comparison :=
  match Nat.modulo n 3 with O => Lt | 1%nat => Gt | _ => Eq end.
Example C102_fickle_example :
  let u := op_new (rs_iter cha) (rs_iter chb) in
  let '(o, (n, _)) := drain (rsq_union_next fickle) 9 (O, u) in
  let '(o', (n', _)) := drain (rsq_intersection_next fickle) 9 (O, u) in
  (exists l, o = Ret l) /\ (0 < n <= 40)%nat /\ (exists l, o' = Ret l) /\ (0 < n' <= 28)%nat.
Proof. vm_compute. repeat split; eauto; lia. Qed.

Definition cja : rset Z := [(mkR 0 4, tt); (mkR 10 14, tt); (mkR 20 24, tt)].
Definition cjb : rset Z := [(mkR 2 12, tt); (mkR 24 30, tt)].
Definition pcs (l : list (range Z)) := map (fun r => OInsert r tt) l.
(** 0..14 and 20..24 and 24..30 are inserted: the second and third are joined *)
Example C103_example :
  TotalOrd Z.compare /\ (forall (n : nat) k, alike_key Z.compare k (kid n k)) /\
  (let '(o, (n, _)) := drain (rsc_union_next kid Z.compare) 6 (O, op_new (rs_iter cja) (rs_iter cjb)) in
   o = Ret [mkR 0 14; mkR 20 24; mkR 24 30] /\ n = 8%nat) /\
  rsc_bitor kid Z.compare cja cjb O = (Ret [(mkR 0 14, tt); (mkR 20 30, tt)], 19%nat) /\
  rsc_bitand kid Z.compare cja cjb O = (Ret [(mkR 2 4, tt); (mkR 10 12, tt)], 8%nat) /\
  length (bt_calls (rmt_exec Z.compare unit_eqb) (pcs [mkR 0 14; mkR 20 24; mkR 24 30]) rm_new) = 13%nat.
Proof. split; [exact Z_order|]. split; [exact kid_alike|]. vm_compute. auto 6. Qed.
Definition pcsi (l : list (rangei Z)) := map (fun r => OInsert r tt) l.
Example C104_example :
  StepLaws Z.compare zst /\
  (let '(o, (n, _)) := drain (isc_union_next kid Z.compare) 7 (O, op_new (is_iter cia) (is_iter cib)) in
   o = Ret [mkRI 0 20 false; mkRI 25 25 true; mkRI 30 31 false] /\ n = 10%nat) /\
  isc_bitor kid Z.compare zst cia cib O = (Ret [(mkRI 0 20 false, tt); (mkRI 25 25 true, tt); (mkRI 30 31 false, tt)], 16%nat) /\
  isc_bitand kid Z.compare zst cia cib O = (Ret [(mkRI 3 5 false, tt); (mkRI 8 9 false, tt); (mkRI 11 12 false, tt)], 12%nat) /\
  length (bt_calls (imt_exec Z.compare unit_eqb zst) (pcsi [mkRI 3 5 false; mkRI 8 9 false; mkRI 11 12 false]) im_new) = 12%nat.
Proof. split; [exact zst_laws|]. vm_compute. auto 6. Qed.

Print Assumptions C102_half_open_model.
Print Assumptions C102_half_open_union_next.
Print Assumptions C102_half_open_intersection_next.
Print Assumptions C102_half_open_union.
Print Assumptions C102_half_open_intersection.
Print Assumptions C102_inclusive_model.
Print Assumptions C102_inclusive_union_next.
Print Assumptions C102_inclusive_intersection_next.
Print Assumptions C102_inclusive_union.
Print Assumptions C102_inclusive_intersection.
Print Assumptions C103_next.
Print Assumptions C103_clones.
Print Assumptions C103_calls.
Print Assumptions C104_next.
Print Assumptions C104_clones.
Print Assumptions C104_calls.
