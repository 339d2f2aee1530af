(** The number of clones the set operations make (C103). *)
From Coq Require Import List Bool Lia.
From Verif Require Import Order Outcome BTree Ranges History Spec SpecOps MapModel IMapModel OpsModel SetModel ISetModel
  ListLemmas MapProofs MapFacts MapProps IMapProps Exhausted Tiling CloneModel CloneFacts CloneProps CloneCount CloneBound CloneSetModel
  OpsCostModel OpsCost.
Import ListNotations.

(** the clone model's intersection is the counting one, with comparisons that
    are not counted *)
Lemma inc_inq {R I} (inext : I -> option R * I) ilen oe is_ :
  inc_next inext ilen oe is_ = inq_next inext ilen (fun a b => ret (oe a b)) is_.
Proof. reflexivity. Qed.

Section Asks.
  Context {K : Type} (kcl : nat -> K -> K) (cmp : K -> K -> comparison).
  Lemma ac_clone {R I} (r : range K) : asks (R := R) (I := I) (fun _ k => k <= 2) (r_clone kcl r).
  Proof. intros n u. eexists _, 2. rewrite <- (plus2 n). split; [reflexivity|lia]. Qed.
  Lemma ac_iclone {R I} (r : rangei K) : asks (R := R) (I := I) (fun _ k => k <= 2) (ri_clone kcl r).
  Proof. intros n u. eexists _, 2. rewrite <- (plus2 n). split; [reflexivity|lia]. Qed.
  Lemma ac_none {R I A} (x : A) : asks (R := R) (I := I) (fun _ k => k <= 0) (ret x).
  Proof. intros n u. exists x, 0. rewrite PeanoNat.Nat.add_0_r. split; [reflexivity|lia]. Qed.
  Lemma ac_merge {I} a b : asks (R := range K) (I := I) (fun (x : bool * range K) k => k <= if fst x then 2 else 0) (r_mergec kcl cmp a b).
  Proof.
    intros n u. unfold r_mergec. destruct (r_contains cmp a (r_start b)); cbn [negb].
    - destruct (gtb cmp (r_end b) (r_end a)).
      + eexists _, 1. rewrite <- (plus1 n). split; [reflexivity|cbn; lia].
      + eexists _, 0. rewrite PeanoNat.Nat.add_0_r. split; [reflexivity|cbn; lia].
    - eexists _, 0. rewrite PeanoNat.Nat.add_0_r. split; [reflexivity|cbn; lia].
  Qed.
  Lemma ac_imerge {I} a b : asks (R := rangei K) (I := I) (fun (x : bool * rangei K) k => k <= if fst x then 2 else 0) (ri_mergec kcl cmp a b).
  Proof.
    intros n u. unfold ri_mergec. destruct (ri_contains cmp a (ri_start b)); cbn [negb].
    - destruct (gtb cmp (ri_end b) (ri_end a)).
      + eexists _, 2. rewrite <- (plus2 n). split; [reflexivity|cbn; lia].
      + eexists _, 0. rewrite PeanoNat.Nat.add_0_r. split; [reflexivity|cbn; lia].
    - eexists _, 0. rewrite PeanoNat.Nat.add_0_r. split; [reflexivity|cbn; lia].
  Qed.
  Lemma ac_intersect {I} a b : asks (R := range K) (I := I) (fun _ k => k <= 2) (r_intersectc kcl cmp a b).
  Proof.
    intros n u. unfold r_intersectc. cbv zeta. destruct (geb cmp _ _).
    - eexists _, 0. rewrite PeanoNat.Nat.add_0_r. split; [reflexivity|lia].
    - eexists _, 2. rewrite <- (plus2 n). split; [reflexivity|lia].
  Qed.
  Lemma ac_iintersect {I} a b : asks (R := rangei K) (I := I) (fun _ k => k <= 2) (ri_intersectc kcl cmp a b).
  Proof.
    intros n u. unfold ri_intersectc. cbv zeta. destruct (gtb cmp _ _).
    - eexists _, 0. rewrite PeanoNat.Nat.add_0_r. split; [reflexivity|lia].
    - eexists _, 2. rewrite <- (plus2 n). split; [reflexivity|lia].
  Qed.
  Lemma cl_union : next_post (@length _) 2 (rsc_union_next kcl cmp).
  Proof.
    exact (ct_unionc rs_iter_next (@length _) nx_half 0 0 2 2 0 2 2 ltac:(lia) ltac:(lia) ltac:(lia) _ ac_merge _ _ ac_clone).
  Qed.
  Lemma cl_iunion : next_post (@length _) 2 (isc_union_next kcl cmp).
  Proof.
    exact (ct_unionc is_iter_next (@length _) nx_incl 0 0 2 2 0 2 2 ltac:(lia) ltac:(lia) ltac:(lia) _ ac_imerge _ _ ac_iclone).
  Qed.
  Lemma cl_intersection : next_post (@length _) 2 (rsc_intersection_next kcl cmp).
  Proof.
    intros n u. unfold rsc_intersection_next. rewrite inc_inq.
    destruct (ct_intersection rs_iter_next (@length _) nx_half 0 0 2 0 0 0 2 ltac:(lia) ltac:(lia) ltac:(lia) _ _
      (fun a b => ac_none (r_order_end cmp a b)) ac_intersect n u) as [o [n' [u' [E [H1 [H2 [H3 _]]]]]]].
    exists o, n', u'. auto.
  Qed.
  Lemma cl_iintersection : next_post (@length _) 2 (isc_intersection_next kcl cmp).
  Proof.
    intros n u. unfold isc_intersection_next. rewrite inc_inq.
    destruct (ct_intersection is_iter_next (@length _) nx_incl 0 0 2 0 0 0 2 ltac:(lia) ltac:(lia) ltac:(lia) _ _
      (fun a b => ac_none (ri_order_end cmp a b)) ac_iintersect n u) as [o [n' [u' [E [H1 [H2 [H3 _]]]]]]].
    exists o, n', u'. auto.
  Qed.
End Asks.

(** ** Collecting into a set *)
Section Collect.
  Context {R E : Type} (next : M (counted (pair_iter R (list E))) (option R)).
  Context (insert : R -> M (counted (list E)) unit) (Inv : list E -> Prop) (i : nat).
  Context (Hn : next_post (@length _) 2 next).
  Context (Hi : forall r n s, Inv s -> Inv (snd (snd (insert r (n, s)))) /\
    potential (snd (insert r (n, s))) <= potential (n, s) + i).
  Notation len u := (pk_len (@length E) (op_left u) + pk_len (@length E) (op_right u)).
  Lemma cc_collect fuel : forall n u s, Inv s ->
    let '(_, (n', (u', s'))) := collectc next insert fuel (n, (u, s)) in
    n' + 5 * length s' + (2 + i) * len u' <= n + 5 * length s + (2 + i) * len u.
  Proof.
    induction fuel as [|fuel IH]; intros n u s Hs; cbn [collectc]; [unfold nofuel; lia|].
    unfold bind at 1. unfold on_fst. cbn [fst snd]. destruct (Hn n u) as [o [n1 [u1 [E1 [H1 [H2 H3]]]]]]. rewrite E1. cbn [fst snd].
    destruct o as [r|]; [|unfold ret; pose proof (PeanoNat.Nat.mul_le_mono_l _ _ i H3); lia].
    pose proof (PeanoNat.Nat.mul_le_mono_l _ _ i H3) as H4. unfold lt in H3.
    unfold bind at 1. unfold on_snd. cbn [fst snd]. destruct (Hi r n1 s Hs) as [G1 G2].
    destruct (insert r (n1, s)) as [x [n2 s2]] eqn:E2. unfold potential in G2. cbn [fst snd] in *.
    destruct x as [[]|p|]; [|lia|lia].
    specialize (IH n2 u1 s2 G1). destruct (collectc next insert fuel (n2, (u1, s2))) as [y [n' [u' s']]]. lia.
  Qed.
End Collect.

Lemma uclone : forall (n : nat) (v : unit), alike unit_eqb v v.
Proof. intros n v w. reflexivity. Qed.

Section Half.
  Context {K : Type} {cmp : K -> K -> comparison} (HO : TotalOrd cmp) {kcl : nat -> K -> K}.
  Context (CK : forall n k, alike_key cmp k (kcl n k)).
  Notation like := (alike_entry (alike_range cmp) unit_eqb).
  Notation reached s := (exists ops, Forall2 like (rm_run cmp unit_eqb ops) s).
  Lemma cl_insert r n s : reached s -> reached (snd (snd (rsc_insert kcl cmp r (n, s)))) /\
    potential (snd (rsc_insert kcl cmp r (n, s))) <= potential (n, s) + 33.
  Proof.
    intros [ops Hs]. split.
    - exists (ops ++ [OInsert r tt]). rewrite run_snoc.
      exact (cn_sim HO unit_per CK uclone (OInsert r tt) _ n s Hs).
    - exact (cn_pot_insert HO unit_per CK uclone ops r tt (n, s) Hs).
  Qed.
  Lemma cl_collect next (Hn : next_post (@length _) 2 next) (a b : rset K) n :
    let '(o, n') := rsc_collect kcl cmp next a b n in
    n' <= n + 35 * (length a + length b) /\ forall s, o = Ret s -> n' + 5 * length s <= n + 35 * (length a + length b).
  Proof.
    unfold rsc_collect.
    pose proof (cc_collect next (rsc_insert kcl cmp) (fun s => reached s) 33 Hn cl_insert
      (rs_len a + rs_len b + 1) n (op_new (rs_iter a) (rs_iter b)) [] (ex_intro _ [] (Forall2_nil _))) as H.
    destruct (collectc _ _ _ _) as [o [n' [u' s']]]. unfold rset, rmap in *. cbn [length] in H.
    change (pk_len (@length _) (op_left (op_new (rs_iter a) (rs_iter b)))) with (length a) in H.
    change (pk_len (@length _) (op_right (op_new (rs_iter a) (rs_iter b)))) with (length b) in H.
    split; [lia|]. intros s Hs. destruct o; cbn in Hs; try discriminate Hs. injection Hs as <-. lia.
  Qed.
  Lemma cl_bitor (a b : rset K) n :
    let '(o, n') := rsc_bitor kcl cmp a b n in
    n' <= n + 35 * (length a + length b) /\ forall s, o = Ret s -> n' + 5 * length s <= n + 35 * (length a + length b).
  Proof. exact (cl_collect _ (cl_union kcl cmp) a b n). Qed.
  Lemma cl_bitand (a b : rset K) n :
    let '(o, n') := rsc_bitand kcl cmp a b n in
    n' <= n + 35 * (length a + length b) /\ forall s, o = Ret s -> n' + 5 * length s <= n + 35 * (length a + length b).
  Proof. exact (cl_collect _ (cl_intersection kcl cmp) a b n). Qed.
End Half.

Section Incl.
  Context {K : Type} {cmp : K -> K -> comparison} (HO : TotalOrd cmp) {st : stepfns K} (HS : StepLaws cmp st) {kcl : nat -> K -> K}.
  Context (CK : forall n k, alike_key cmp k (kcl n k)).
  Notation like := (alike_entry (alike_rangei cmp) unit_eqb).
  Notation reached s := (exists ops, Forall2 like (im_run cmp unit_eqb st ops) s).
  Lemma cl_iinsert r n s : reached s -> reached (snd (snd (isc_insert kcl cmp st r (n, s)))) /\
    potential (snd (isc_insert kcl cmp st r (n, s))) <= potential (n, s) + 35.
  Proof.
    intros [ops Hs]. split.
    - exists (ops ++ [OInsert r tt]). rewrite irun_snoc_.
      exact (icn_sim HO unit_per HS CK uclone (OInsert r tt) _ n s Hs).
    - exact (icn_pot_insert HO unit_per HS CK uclone ops r tt (n, s) Hs).
  Qed.
  Lemma cl_icollect next (Hn : next_post (@length _) 2 next) (a b : iset K) n :
    let '(o, n') := isc_collect kcl cmp st next a b n in
    n' <= n + 37 * (length a + length b) /\ forall s, o = Ret s -> n' + 5 * length s <= n + 37 * (length a + length b).
  Proof.
    unfold isc_collect.
    pose proof (cc_collect next (isc_insert kcl cmp st) (fun s => reached s) 35 Hn cl_iinsert
      (is_len a + is_len b + 1) n (op_new (is_iter a) (is_iter b)) [] (ex_intro _ [] (Forall2_nil _))) as H.
    destruct (collectc _ _ _ _) as [o [n' [u' s']]]. unfold iset, imap in *. cbn [length] in H.
    change (pk_len (@length _) (op_left (op_new (is_iter a) (is_iter b)))) with (length a) in H.
    change (pk_len (@length _) (op_right (op_new (is_iter a) (is_iter b)))) with (length b) in H.
    split; [lia|]. intros s Hs. destruct o; cbn in Hs; try discriminate Hs. injection Hs as <-. lia.
  Qed.
  Lemma cl_ibitor (a b : iset K) n :
    let '(o, n') := isc_bitor kcl cmp st a b n in
    n' <= n + 37 * (length a + length b) /\ forall s, o = Ret s -> n' + 5 * length s <= n + 37 * (length a + length b).
  Proof. exact (cl_icollect _ (cl_iunion kcl cmp) a b n). Qed.
  Lemma cl_ibitand (a b : iset K) n :
    let '(o, n') := isc_bitand kcl cmp st a b n in
    n' <= n + 37 * (length a + length b) /\ forall s, o = Ret s -> n' + 5 * length s <= n + 37 * (length a + length b).
  Proof. exact (cl_icollect _ (cl_iintersection kcl cmp) a b n). Qed.
End Incl.

(** ** The calls on the [BTreeMap] *)
Lemma er_drain {S A} (q : M (counted S) (option A)) c : erases q c -> forall fuel, erases (drain q fuel) (drain c fuel).
Proof.
  intros H fuel. induction fuel as [|fuel IH]; cbn [drain]; [apply er_nofuel|].
  apply er_bind; [exact H|]. intros [x|]; [|apply er_ret]. apply er_bind; [exact IH|]. intros l. apply er_ret.
Qed.
Lemma work_inserts {R} (l : list R) : history_work (map (fun r => OInsert r tt) l) = 21 * length l.
Proof. induction l as [|r l IH]; [reflexivity|]. unfold history_work, list_sum in *. cbn [map length fold_right op_work]. lia. Qed.
