(** The crate's property tests pass (lemmas behind P_Prop.v). *)
From Coq Require Import List Bool Sorting.Sorted Lia Arith ZArith SpecFloat.
From Verif Require Import Order Outcome BTree Ranges History Spec ListLemmas OrdFacts IterFacts SearchTree
  MapModel IMapModel OpsModel OpsProofs SetModel ISetModel MapFacts MapIter MapMore MapProps IFacts IMapProps
  SetFacts SetProps ISetProps Cross CrossProps Tiling StepModel StepFacts FuzzModel FuzzFacts PropModel.
Import ListNotations.

(** ** Backward iteration *)
Lemma deque_back {A} n : forall l : list A, deque_run (repeat Back n) l = yields n (rev l).
Proof.
  induction n as [|n IH]; intros l; [reflexivity|]. unfold deque_run in *. cbn [repeat sched_trace].
  destruct l as [|x l]; cbn [deque_step map fst].
  - rewrite IH. cbn [rev]. rewrite !yields_nil. reflexivity.
  - rewrite IH. destruct (exists_last (l := x :: l)) as (l' & y & E); [discriminate|]. rewrite E.
    rewrite removelast_last, last_last, rev_app_distr. cbn [rev app]. rewrite yields_cons. reflexivity.
Qed.
Lemma sched_back {S A} (next nb : S -> option A * S) n : forall s,
  map fst (sched_trace (both next nb) (fun _ => tt) (repeat Back n) s) = nexts nb n s.
Proof.
  induction n as [|n IH]; intros s; [reflexivity|]. cbn [repeat sched_trace both nexts].
  destruct (nb s) as [o s']. cbn [map fst]. rewrite IH. reflexivity.
Qed.
Lemma schedules_both {S A} (next nb : S -> option A * S) (r : outcome S) l :
  (forall sched, exists o, r = Ret o /\
     map fst (sched_trace (both next nb) (fun _ => tt) sched o) = deque_run sched l) ->
  exists o, r = Ret o /\ (forall n, nexts next n o = yields n l) /\ (forall n, nexts nb n o = yields n (rev l)).
Proof.
  intros H. destruct (H []) as (o & Ho & _). exists o. split; [exact Ho|].
  split; intros n; [destruct (H (repeat Front n)) as (o' & Ho' & E)|destruct (H (repeat Back n)) as (o' & Ho' & E)];
    rewrite Ho in Ho'; injection Ho' as <-.
  - rewrite sched_front, deque_front in E. exact E.
  - rewrite sched_back, deque_back in E. exact E.
Qed.
(** the observed [size_hint]s do not matter here *)
Lemma obs_out {S A B} (f : side -> S -> option A * S) (obs : S -> B) sched : forall s,
  map fst (sched_trace f obs sched s) = map fst (sched_trace f (fun _ => tt) sched s).
Proof.
  induction sched as [|d sched IH]; intros s; [reflexivity|]. cbn [sched_trace].
  destruct (f d s) as [o s']. cbn [map fst]. rewrite IH. reflexivity.
Qed.
Lemma schedules_list {S A} (next nb : S -> option A * S) hint (s : S) l :
  (forall sched, sched_trace (both next nb) hint sched s =
     sched_trace deque_step (fun r => (length r, Some (length r))) sched l) ->
  (forall n, nexts next n s = yields n l) /\ (forall n, nexts nb n s = yields n (rev l)).
Proof.
  intros H. destruct (schedules_both next nb (Ret s) l) as (o & E & H1 & H2).
  - intros sched. exists s. split; [reflexivity|]. rewrite <- (obs_out (both next nb) hint), H. unfold deque_run.
    apply obs_out.
  - injection E as <-. auto.
Qed.

(** ** The extreme elements of an ascending list *)
Lemma min_by_first {A} (c : A -> A -> comparison) l :
  StronglySorted (fun a b => c a b = Lt) l -> min_by c l = first_opt l.
Proof.
  destruct l as [|a l]; [reflexivity|]. intros H. apply StronglySorted_inv in H as [_ H].
  unfold min_by, first_opt, it_next. cbn [fst]. f_equal. induction l as [|b l IH]; [reflexivity|].
  cbn [fold_left]. apply Forall_inv in H as Hb. rewrite Hb. apply IH, (Forall_inv_tail H).
Qed.
Lemma max_by_last {A} (c : A -> A -> comparison) l :
  StronglySorted (fun a b => c a b = Lt) l -> max_by c l = last_opt l.
Proof.
  destruct l as [|a l]; [reflexivity|]. intros H.
  assert (G : forall l a, StronglySorted (fun a b => c a b = Lt) (a :: l) ->
    Some (fold_left (fun x y => match c x y with Gt => x | _ => y end) l a) = last_opt (a :: l)); [|exact (G l a H)].
  clear. induction l as [|b l IH]; intros a H; [reflexivity|]. cbn [fold_left].
  apply StronglySorted_inv in H as [H1 H2]. apply Forall_inv in H2. rewrite H2. rewrite (IH b H1).
  unfold last_opt, it_next_back. cbn [rev]. destruct (rev l ++ [b]) as [|z r] eqn:E.
  - destruct (rev l); discriminate.
  - reflexivity.
Qed.
Lemma sorted_by_SS {Q V} (c : Q -> Q -> comparison) (l : list (Q * V)) :
  sorted_by c l -> StronglySorted (fun a b => c (fst a) (fst b) = Lt) l.
Proof.
  induction l as [|a l IH]; intros H; constructor.
  - apply IH. intros l1 x l2 y l3 E. apply (H (a :: l1) x l2 y l3). cbn. congruence.
  - apply Forall_forall. intros b Hb. apply in_split in Hb as (l2 & l3 & E). apply (H [] a l2 b l3). cbn. congruence.
Qed.
Lemma first_opt_map {A B} (f : A -> B) l : first_opt (map f l) = option_map f (first_opt l).
Proof. destruct l; reflexivity. Qed.
Lemma last_opt_map {A B} (f : A -> B) l : last_opt (map f l) = option_map f (last_opt l).
Proof. unfold last_opt, it_next_back. rewrite <- map_rev. destruct (rev l); reflexivity. Qed.

(** ** The shared bodies *)
Lemma fassert_true b : b = true -> fassert b = Ret tt.
Proof. intros ->. reflexivity. Qed.
Lemma option_eqb_refl {A} (e : A -> A -> bool) : (forall x, e x x = true) -> forall o, option_eqb e o o = true.
Proof. intros H [x|]; cbn; auto. Qed.
Lemma list_eqb_refl {A} (e : A -> A -> bool) : (forall x, e x x = true) -> forall l, list_eqb e l l = true.
Proof. intros H l. induction l as [|x l IH]; cbn; [reflexivity|]. rewrite H, IH. reflexivity. Qed.

Section Bodies.
  Context {T I E K : Type} {e : E -> E -> bool}.
  Lemma collect_ok (next : I -> option E * I) i l fuel :
    (forall n, nexts next n i = yields n l) -> length l < fuel -> collect next fuel i = Ret l.
  Proof. apply drain_pure. Qed.
  Lemma extreme_ok (He : forall x, e x x = true) pick found (iter : T -> I) next fuel t l :
    (forall n, nexts next n (iter t) = yields n l) -> length l < fuel -> found t = pick l ->
    t_extreme e pick found iter next fuel t = Ret tt.
  Proof.
    intros H1 H2 H3. unfold t_extreme. rewrite (collect_ok _ _ l) by assumption. cbn [obind].
    rewrite H3. apply fassert_true, option_eqb_refl, He.
  Qed.
  Lemma len_ok len is_empty clear (iter : T -> I) (next : I -> option E * I) fuel t t' l :
    (forall n, nexts next n (iter t) = yields n l) -> length l < fuel ->
    (forall n, nexts next n (iter t') = yields n []) ->
    len t = length l -> (is_empty t = true <-> length l = 0) ->
    clear t = (Ret tt, t') -> len t' = 0 -> is_empty t' = true ->
    t_len len is_empty clear iter next fuel t = Ret tt.
  Proof.
    intros H1 H2 H3 H4 H5 H6 H7 H8. unfold t_len. rewrite (collect_ok _ _ l) by assumption. cbn [obind].
    rewrite H4, Nat.eqb_refl. cbn [fassert obind].
    assert (G : Bool.eqb (is_empty t) (length l =? 0) = true).
    { apply eqb_true_iff. apply eq_iff_eq_true. rewrite Nat.eqb_eq. exact H5. }
    rewrite G, H6, H7, H8. cbn [fassert obind Nat.eqb]. rewrite (collect_ok _ _ []) by (try exact H3; cbn; lia).
    reflexivity.
  Qed.
  Lemma reversible_ok (He : forall x, e x x = true) mk i (next nb : I -> option E * I) fuel l :
    mk = Ret i -> (forall n, nexts next n i = yields n l) -> (forall n, nexts nb n i = yields n (rev l)) ->
    length l < fuel -> t_reversible e mk next nb fuel = Ret tt.
  Proof.
    intros -> H1 H2 H3. unfold t_reversible. cbn [obind]. rewrite (collect_ok _ _ l) by assumption. cbn [obind].
    rewrite (collect_ok _ _ (rev l)) by (rewrite ?rev_length; assumption). cbn [obind]. rewrite rev_involutive.
    apply fassert_true, list_eqb_refl, He.
  Qed.
  Lemma hash_ok {H} (heqb : H -> H -> bool) (Hh : forall h, heqb h h = true) eq (hash : T -> H) l r :
    (eq l r = true -> hash l = hash r) -> t_hash heqb eq hash l r = Ret tt.
  Proof.
    intros G. unfold t_hash. destruct (eq l r).
    - rewrite <- (G eq_refl), Hh. reflexivity.
    - cbn [obind]. destruct (negb _); reflexivity.
  Qed.
  Lemma ord_ok eq cmp pcmp (l r : T) :
    (cmp l r = Eq <-> eq l r = true) -> pcmp l r = Some (cmp l r) -> t_ord eq cmp pcmp l r = Ret tt.
  Proof.
    intros G H. unfold t_ord. rewrite H.
    assert (B : Bool.eqb (eq l r) (is_eq (cmp l r)) = true).
    { apply eqb_true_iff, eq_iff_eq_true. rewrite <- G. destruct (cmp l r); cbn; split; intros; congruence. }
    rewrite B. cbn. destruct (cmp l r); reflexivity.
  Qed.
  Lemma for_keys_ok (f : K -> outcome unit) ks : (forall k, f k = Ret tt) -> for_keys f ks = Ret tt.
  Proof. intros H. induction ks as [|k ks IH]; cbn; [reflexivity|]. rewrite H. exact IH. Qed.
  Lemma combine_ok op contains f ks (l r : T) c (x y z : K -> bool) :
    op l r = Ret c -> (forall k, contains c k = Ret (x k)) -> (forall k, contains l k = Ret (y k)) ->
    (forall k, contains r k = Ret (z k)) -> (forall k, x k = f (y k) (z k)) ->
    t_combine op contains f ks l r = Ret tt.
  Proof.
    intros H1 H2 H3 H4 H5. unfold t_combine. rewrite H1. cbn [obind]. apply for_keys_ok. intros k.
    rewrite H2, H3, H4. cbn [obind]. rewrite H5. apply fassert_true, eqb_true_iff. reflexivity.
  Qed.
  Lemma disjoint_ok {P O R} (pieces : M P (option R)) overlapping (ov : O -> option R * O) insert (state : list R -> T) :
    forall us done fuel p, drains pieces p us -> length us < fuel ->
    (forall d r rest, us = d ++ r :: rest -> exists o,
       overlapping (state (done ++ d)) r = Ret o /\ fst (ov o) = None /\
       insert r (state (done ++ d)) = (Ret tt, state ((done ++ d) ++ [r]))) ->
    t_disjoint pieces overlapping ov insert fuel p (state done) = Ret tt.
  Proof.
    induction us as [|r us IH]; intros done fuel p Hd Hf H; (destruct fuel as [|fuel]; [cbn in Hf; lia|]); cbn [t_disjoint].
    - pose proof (Hd 1) as H1. unfold nexts_m in H1. cbn in H1. destruct (pieces p) as [[[x|]|q|] p']; cbn in H1; try discriminate.
      reflexivity.
    - pose proof (Hd 1) as H1. cbn in H1. destruct (pieces p) as [o p'] eqn:Ep. cbn in H1.
      assert (Ho : o = Ret (Some r)). { destruct o as [[x|]|q|]; cbn in H1; congruence. }
      subst o. cbn [obind]. destruct (H [] r us eq_refl) as (o & G1 & G2 & G3). rewrite app_nil_r in *.
      rewrite G1. cbn [obind]. rewrite G2. cbn [fassert obind]. rewrite G3. cbn [obind]. apply IH; [|cbn in Hf; lia|].
      + intros n. specialize (Hd (S n)). cbn [nexts_m] in Hd. rewrite Ep in Hd. rewrite yields_cons in Hd. cbn [map] in Hd.
        injection Hd as Hd. exact Hd.
      + intros d x rest ->. destruct (H (r :: d) x rest eq_refl) as (o' & K1 & K2 & K3).
        replace ((done ++ [r]) ++ d) with (done ++ r :: d) by (rewrite <- app_assoc; reflexivity).
        exists o'. auto.
  Qed.
End Bodies.

(** every list splits at its first bad element *)
Lemma prefix_split {A} (p : A -> bool) l : exists good bad, l = good ++ bad /\
  (forall x, In x good -> p x = true) /\ match bad with [] => True | x :: _ => p x = false end /\
  forallb p l = match bad with [] => true | _ => false end.
Proof.
  induction l as [|x l (good & bad & -> & H1 & H2 & H3)].
  - exists [], []. cbn. auto.
  - destruct (p x) eqn:E.
    + exists (x :: good), bad. cbn. rewrite E, H3. splits; auto. intros y [<- | Hy]; auto.
    + exists [], (x :: good ++ bad). cbn. rewrite E. splits; auto.
Qed.
Lemma filter_le {A} (p : A -> bool) l : length (filter p l) <= length l.
Proof. induction l as [|x l IH]; cbn; [lia|]. destruct (p x); cbn; lia. Qed.
Lemma existsb_same {A} (p q : A -> bool) l : (forall x, In x l -> p x = q x) -> existsb p l = existsb q l.
Proof.
  induction l as [|x l IH]; intros H; cbn; [reflexivity|].
  rewrite IH by (intros; apply H; right; assumption). rewrite (H x) by (left; reflexivity). reflexivity.
Qed.
Lemma if_and {A} (a b : bool) (x y : A) : (if a then if b then x else y else y) = if a && b then x else y.
Proof. destruct a; reflexivity. Qed.

(** ** map.rs *)
Section Map.
  Context {K V : Type} {cmp : K -> K -> comparison} {veqb : V -> V -> bool}.
  Context (HO : TotalOrd cmp) (HV : PartialEquiv veqb) (Hr : forall v, veqb v v = true).
  Notation run := (rm_run cmp veqb).
  Notation ins l := (map (fun e : range K * V => OInsert (fst e) (snd e)) l).
  Notation allvalid l := (forallb (fun e : range K * V => valid_range cmp (fst e)) l).
  Notation pass l := (if allvalid l then Ret tt else Panicked PAssert).
  Notation pass2 l r := (if allvalid l && allvalid r then Ret tt else Panicked PAssert).

  Lemma given_map_ok l f : given_map cmp veqb l f = if allvalid l then f (run (ins l)) else Panicked PAssert.
  Proof.
    unfold given_map. destruct (prefix_split (fun e : range K * V => valid_range cmp (fst e)) l)
      as (good & bad & -> & H1 & H2 & H3).
    rewrite (from_iter_prefix HO HV _ _ H1 H2), H3. destruct bad; [rewrite app_nil_r|]; reflexivity.
  Qed.
  Lemma given_map_pass l f : f (run (ins l)) = Ret tt -> given_map cmp veqb l f = pass l.
  Proof. intros H. rewrite given_map_ok, H. reflexivity. Qed.
  Lemma given_map_pass2 l r f : f (run (ins l)) (run (ins r)) = Ret tt ->
    given_map cmp veqb l (fun a => given_map cmp veqb r (f a)) = pass2 l r.
  Proof. intros H. rewrite !given_map_ok, H. apply if_and. Qed.
  Lemma e_eqb_refl x : e_eqb cmp veqb x x = true.
  Proof. unfold e_eqb, r_eqb. rewrite Hr, andb_true_r. ord. Qed.

  Lemma map_tests l : exists n, forall fuel, n <= fuel ->
    map_first cmp veqb fuel l = pass l /\ map_last cmp veqb fuel l = pass l /\ map_len cmp veqb fuel l = pass l /\
    map_iter_reversible cmp veqb fuel l = pass l /\ map_into_iter_reversible cmp veqb fuel l = pass l /\
    forall q, map_overlapping_reversible cmp veqb fuel l q = pass l.
  Proof.
    exists (S (length (run (ins l)))). intros fuel Hf.
    destruct (WF_sorted_by HO _ (run_WF HO HV (ins l))) as [S1 S2]. apply sorted_by_SS in S1, S2.
    destruct (schedules_list it_next it_next_back it_size_hint (run (ins l)) (run (ins l)) (iter_schedule _)) as [N1 N2].
    refine (conj _ (conj _ (conj _ (conj _ (conj _ (fun q => _)))))); apply given_map_pass.
    - apply (extreme_ok e_eqb_refl _ _ _ _ _ _ (run (ins l))); auto. symmetry. apply min_by_first, S1.
    - apply (extreme_ok e_eqb_refl _ _ _ _ _ _ (run (ins l))); auto. symmetry. apply max_by_last, S2.
    - apply (len_ok _ _ _ _ _ _ _ [] (run (ins l))); auto.
      + intros n. apply (schedules_list it_next it_next_back it_size_hint [] [] (iter_schedule _)).
      + apply (len_empty HO HV).
    - apply (reversible_ok e_eqb_refl _ (run (ins l)) _ _ _ (run (ins l))); auto.
    - apply (reversible_ok e_eqb_refl _ (run (ins l)) _ _ _ (run (ins l))); auto.
    - destruct (schedules_both _ _ _ _ (fun sched => overlapping_schedule HO _ q sched (run_WF HO HV (ins l))))
        as (o & E & M1 & M2).
      apply (reversible_ok e_eqb_refl _ o _ _ _ _ E M1 M2). eapply Nat.le_lt_trans; [apply filter_le|exact Hf].
  Qed.
  Lemma spec_inserts l k : allvalid l = true ->
    spec_run (valid_range cmp) (in_range cmp) (ins l) k =
    option_map snd (find (fun e => r_contains cmp (fst e) k) (rev l)).
  Proof.
    rewrite <- (rev_involutive l). set (l' := rev l). rewrite rev_involutive. clearbody l'. clear l. rename l' into l.
    induction l as [|e l IH]; [reflexivity|]. cbn [rev find]. rewrite forallb_app, map_app. intros H.
    apply andb_prop in H as [H1 H2]. cbn in H2. apply andb_prop in H2 as [H2 _].
    unfold spec_run in *. rewrite fold_left_app. cbn [map fold_left spec_op]. rewrite H2. unfold put.
    replace (r_contains cmp (fst e) k) with (in_range cmp (fst e) k)
      by (unfold in_range, r_contains; f_equal; ord).
    destruct (in_range cmp (fst e) k); [reflexivity|]. apply IH, H1.
  Qed.
  Lemma same_option_eqb a b : same_opt veqb a b -> option_eqb veqb a b = true.
  Proof. destruct a, b; cbn; try tauto. intros [-> | H]; auto. Qed.
  Lemma map_arbitrary_ok ks l : map_arbitrary_test cmp veqb ks l =
    if forallb (fun e => leb cmp (r_start (fst e)) (r_end (fst e))) l then Ret tt else Panicked PAssert.
  Proof.
    unfold map_arbitrary_test. set (l' := filter _ l).
    assert (E : allvalid l' = forallb (fun e => leb cmp (r_start (fst e)) (r_end (fst e))) l).
    { unfold l'. induction l as [|e l IH]; [reflexivity|]. cbn [filter forallb].
      destruct (eqb cmp (r_start (fst e)) (r_end (fst e))) eqn:Ee; cbn [negb forallb]; rewrite IH; [|f_equal; unfold valid_range; ord].
      replace (leb cmp (r_start (fst e)) (r_end (fst e))) with true by ord. reflexivity. }
    rewrite <- E. clearbody l'. clear E l. rename l' into l.
    destruct (prefix_split (fun e : range K * V => valid_range cmp (fst e)) l) as (good & bad & -> & H1 & H2 & H3).
    rewrite H3.
    assert (G : for_each (fun e => rm_insert cmp veqb (fst e) (snd e)) (good ++ bad) rm_new =
      (match bad with [] => Ret tt | _ => Panicked PAssert end, run (ins good)))
      by exact (extend_prefix HO HV good bad [] H1 H2 (run_WF HO HV [])).
    rewrite G. destruct bad as [|b bad]; [|reflexivity]. cbn [obind]. rewrite app_nil_r in *. apply for_keys_ok. intros k.
    destruct (run_get_spec HO HV (ins good) k) as (o & Ho & Hs). rewrite Ho. cbn [obind].
    rewrite <- (spec_inserts good k H3). apply fassert_true, same_option_eqb, Hs.
  Qed.
  Lemma map_hash_ok W H (heqb : H -> H -> bool) (hk : K -> list W) hv sip l r :
    (forall h, heqb h h = true) -> (forall x y, eqb cmp x y = true -> hk x = hk y) ->
    (forall x y, veqb x y = true -> hv x = hv y) -> map_hash cmp veqb heqb hk hv sip l r = pass2 l r.
  Proof.
    intros Hh H1 H2. apply given_map_pass2. apply (hash_ok heqb Hh). intros E. f_equal. apply (hash_eq hk hv _ _ H1 H2 E).
  Qed.
  Lemma map_ord_ok vcmp pcmp vpcmp l r :
    (forall x y, vcmp x y = Eq <-> veqb x y = true) ->
    (forall x y, pcmp x y = Some (cmp x y)) -> (forall x y, vpcmp x y = Some (vcmp x y)) ->
    map_ord cmp veqb vcmp pcmp vpcmp l r = pass2 l r.
  Proof.
    intros H1 H2 H3. apply given_map_pass2. apply ord_ok; [apply rm_cmp_Eq, H1|apply rm_partial_cmp_total; assumption].
  Qed.
  Lemma map_self_ok l : map_self cmp veqb l = Ret tt.
  Proof.
    unfold map_self. rewrite (map_arbitrary HO HV). cbn [obind]. apply fassert_true, list_eqb_refl, e_eqb_refl.
  Qed.
End Map.

(** ** inclusive_map.rs *)
Section IMap.
  Context {K V : Type} {cmp : K -> K -> comparison} {veqb : V -> V -> bool} {st : stepfns K}.
  Context (HO : TotalOrd cmp) (HS : StepLaws cmp st) (HV : PartialEquiv veqb) (Hr : forall v, veqb v v = true).
  Notation run := (im_run cmp veqb st).
  Notation ins l := (map (fun e : rangei K * V => OInsert (fst e) (snd e)) l).
  Notation allvalid l := (forallb (fun e : rangei K * V => valid_rangei cmp (fst e)) l).
  Notation pass l := (if allvalid l then Ret tt else Panicked PAssert).
  Notation pass2 l r := (if allvalid l && allvalid r then Ret tt else Panicked PAssert).
  Notation allfresh l := (forall e : rangei K * V, In e l -> ri_exhausted (fst e) = false).

  Lemma fresh_inserts l : allfresh l -> fresh_ops (ins l).
  Proof.
    intros H. apply forallb_forall. intros o Ho. apply in_map_iff in Ho as (e & <- & He). cbn. rewrite (H e He). reflexivity.
  Qed.
  Lemma given_imap_ok l f : allfresh l ->
    given_imap cmp veqb st l f = if allvalid l then f (run (ins l)) else Panicked PAssert.
  Proof.
    intros Hf. unfold given_imap. destruct (prefix_split (fun e : rangei K * V => valid_rangei cmp (fst e)) l)
      as (good & bad & -> & H1 & H2 & H3).
    rewrite (irun_from_iter HO HS HV good bad), H3; auto; [destruct bad; [rewrite app_nil_r|]; reflexivity|].
    intros e He. apply Hf, in_or_app. auto.
  Qed.
  Lemma given_imap_pass l f : allfresh l -> f (run (ins l)) = Ret tt -> given_imap cmp veqb st l f = pass l.
  Proof. intros Hf H. rewrite given_imap_ok, H by exact Hf. reflexivity. Qed.
  Lemma given_imap_pass2 l r f : allfresh l -> allfresh r -> f (run (ins l)) (run (ins r)) = Ret tt ->
    given_imap cmp veqb st l (fun a => given_imap cmp veqb st r (f a)) = pass2 l r.
  Proof. intros Hl Hr' H. rewrite !given_imap_ok, H by assumption. apply if_and. Qed.
  Lemma ei_eqb_refl x : ei_eqb cmp veqb x x = true.
  Proof.
    unfold ei_eqb, ri_eqb. rewrite Hr, andb_true_r, Bool.eqb_reflx, andb_true_r. ord.
  Qed.

  Lemma imap_tests l : allfresh l -> exists n, forall fuel, n <= fuel ->
    imap_first cmp veqb st fuel l = pass l /\ imap_last cmp veqb st fuel l = pass l /\ imap_len cmp veqb st fuel l = pass l /\
    imap_iter_reversible cmp veqb st fuel l = pass l /\ imap_into_iter_reversible cmp veqb st fuel l = pass l /\
    forall q, imap_overlapping_reversible cmp veqb st fuel l q = pass l.
  Proof.
    intros Hl. pose proof (fresh_inserts l Hl) as Hi.
    exists (S (length (run (ins l)))). intros fuel Hf.
    destruct (irun_sorted HO HS HV (ins l) Hi) as [S1 S2]. apply sorted_by_SS in S1, S2.
    destruct (schedules_list it_next it_next_back it_size_hint (run (ins l)) (run (ins l)) (iter_schedule _)) as [N1 N2].
    refine (conj _ (conj _ (conj _ (conj _ (conj _ (fun q => _)))))); (apply given_imap_pass; [exact Hl|]).
    - apply (extreme_ok ei_eqb_refl _ _ _ _ _ _ (run (ins l))); auto. symmetry. apply min_by_first, S1.
    - apply (extreme_ok ei_eqb_refl _ _ _ _ _ _ (run (ins l))); auto. symmetry. apply max_by_last, S2.
    - apply (len_ok _ _ _ _ _ _ _ [] (run (ins l))); auto.
      + intros n. apply (schedules_list it_next it_next_back it_size_hint [] [] (iter_schedule _)).
      + apply (ilen_empty HO HS HV _ Hi).
    - apply (reversible_ok ei_eqb_refl _ (run (ins l)) _ _ _ (run (ins l))); auto.
    - apply (reversible_ok ei_eqb_refl _ (run (ins l)) _ _ _ (run (ins l))); auto.
    - destruct (schedules_both _ _ _ _ (fun sched => ioverlapping HO HS HV (ins l) q sched Hi))
        as (o & E & M1 & M2).
      apply (reversible_ok ei_eqb_refl _ o _ _ _ _ E M1 M2). eapply Nat.le_lt_trans; [apply filter_le|exact Hf].
  Qed.
  Lemma ispec_inserts l k : allfresh l -> allvalid l = true ->
    spec_run (valid_rangei cmp) (in_rangei cmp) (ins l) k =
    option_map snd (find (fun e => ri_contains cmp (fst e) k) (rev l)).
  Proof.
    rewrite <- (rev_involutive l). set (l' := rev l). rewrite rev_involutive. clearbody l'. clear l. rename l' into l.
    induction l as [|e l IH]; [reflexivity|]. cbn [rev find]. rewrite forallb_app, map_app. intros Hf H.
    apply andb_prop in H as [H1 H2]. cbn in H2. apply andb_prop in H2 as [H2 _].
    unfold spec_run in *. rewrite fold_left_app. cbn [map fold_left spec_op]. rewrite H2. unfold put.
    replace (ri_contains cmp (fst e) k) with (in_rangei cmp (fst e) k).
    - destruct (in_rangei cmp (fst e) k); [reflexivity|]. apply IH; [|exact H1]. intros x Hx. apply Hf, in_or_app. auto.
    - unfold in_rangei, ri_contains. rewrite (Hf e) by (apply in_or_app; right; left; reflexivity). f_equal; ord.
  Qed.
  Lemma imap_arbitrary_ok ks l : allfresh l -> imap_arbitrary_test cmp veqb st ks l =
    if forallb (fun e => leb cmp (ri_start (fst e)) (ri_end (fst e))) l then Ret tt else Panicked PAssert.
  Proof.
    intros Hl. unfold imap_arbitrary_test. set (l' := filter _ l).
    assert (E : allvalid l' = forallb (fun e => leb cmp (ri_start (fst e)) (ri_end (fst e))) l).
    { unfold l'. clear Hl. clear l'. induction l as [|e l IH]; [reflexivity|]. cbn [filter forallb].
      destruct (eqb cmp (ri_start (fst e)) (ri_end (fst e))) eqn:Ee; cbn [negb forallb]; rewrite IH; [|f_equal; unfold valid_rangei; ord].
      replace (leb cmp (ri_start (fst e)) (ri_end (fst e))) with true by ord. reflexivity. }
    assert (Hl' : allfresh l') by (intros e He; apply Hl; apply filter_In in He; tauto).
    rewrite <- E. clearbody l'. clear E Hl l. rename l' into l. rename Hl' into Hl.
    destruct (prefix_split (fun e : rangei K * V => valid_rangei cmp (fst e)) l) as (good & bad & -> & H1 & H2 & H3).
    rewrite H3. assert (Hg : allfresh good) by (intros e He; apply Hl, in_or_app; auto).
    assert (G : for_each (fun e => im_insert cmp veqb st (fst e) (snd e)) (good ++ bad) im_new =
      (match bad with [] => Ret tt | _ => Panicked PAssert end, run (ins good)))
      by exact (irun_extend HO HS HV [] good bad eq_refl Hg H1 H2).
    rewrite G. destruct bad as [|b bad]; [|reflexivity]. cbn [obind]. rewrite app_nil_r in *. apply for_keys_ok. intros k.
    destruct (irun_get_spec HO HS HV (ins good) (fresh_inserts good Hg) k) as (o & Ho & Hs). rewrite Ho. cbn [obind].
    rewrite <- (ispec_inserts good k Hg H3). apply fassert_true, (same_option_eqb Hr), Hs.
  Qed.
  Lemma imap_hash_ok W H (heqb : H -> H -> bool) (hk : K -> list W) hb hv sip l r : allfresh l -> allfresh r ->
    (forall h, heqb h h = true) -> (forall x y, eqb cmp x y = true -> hk x = hk y) ->
    (forall x y, veqb x y = true -> hv x = hv y) -> imap_hash cmp veqb st heqb hk hb hv sip l r = pass2 l r.
  Proof.
    intros Hl Hr' Hh H1 H2. apply given_imap_pass2; try assumption. apply (hash_ok heqb Hh). intros E. f_equal.
    apply (ihash_eq hk hb hv _ _ H1 H2 E).
  Qed.
  Lemma imap_ord_ok vcmp pcmp vpcmp l r : allfresh l -> allfresh r -> TotalOrd vcmp ->
    (forall x y, vcmp x y = Eq <-> veqb x y = true) ->
    (forall x y, pcmp x y = Some (cmp x y)) -> (forall x y, vpcmp x y = Some (vcmp x y)) ->
    imap_ord cmp veqb st vcmp pcmp vpcmp l r = pass2 l r.
  Proof.
    intros Hl Hr' HVO H1 H2 H3. apply given_imap_pass2; try assumption.
    apply ord_ok; [|apply im_partial_cmp_total; assumption].
    apply (irun_ord HO HS HV vcmp HVO H1); apply fresh_inserts; assumption.
  Qed.
  Lemma imap_self_ok l : imap_self cmp veqb st l = Ret tt.
  Proof.
    unfold imap_self. rewrite (imap_arbitrary HO HS HV). cbn [obind]. apply fassert_true, list_eqb_refl, ei_eqb_refl.
  Qed.
End IMap.

(** ** set.rs *)
Section RSet.
  Context {K : Type} {cmp : K -> K -> comparison} (HO : TotalOrd cmp).
  Notation run := (rs_run cmp).
  Notation mem := (mem_run (valid_range cmp) (in_range cmp)).
  (** what is left after [filter_ranges] is non-empty if nothing was backward *)
  Notation forward l := (forallb (fun r : range K => leb cmp (r_start r) (r_end r)) l).
  Notation pass l := (if forward l then Ret tt else Panicked PAssert).
  Notation pass2 l r := (if forward l && forward r then Ret tt else Panicked PAssert).
  Notation sins l := (map SInsert (filter_ranges cmp l)).

  Lemma filter_ranges_valid l : forallb (valid_range cmp) (filter_ranges cmp l) = forward l.
  Proof.
    unfold filter_ranges. induction l as [|r l IH]; [reflexivity|]. cbn [filter forallb].
    destruct (eqb cmp (r_start r) (r_end r)) eqn:Ee; cbn [negb forallb]; rewrite IH; [|f_equal; unfold valid_range; ord].
    replace (leb cmp (r_start r) (r_end r)) with true by ord. reflexivity.
  Qed.
  Lemma given_set_ok l f : given_set cmp l f = if forward l then f (run (sins l)) else Panicked PAssert.
  Proof.
    unfold given_set. rewrite <- filter_ranges_valid. generalize (filter_ranges cmp l). clear l. intros l.
    destruct (prefix_split (valid_range cmp) l) as (good & bad & -> & H1 & H2 & H3).
    rewrite (sfrom_iter HO _ _ H1 H2), H3. destruct bad; [rewrite app_nil_r|]; reflexivity.
  Qed.
  Lemma given_set_pass l f : f (run (sins l)) = Ret tt -> given_set cmp l f = pass l.
  Proof. intros H. rewrite given_set_ok, H. reflexivity. Qed.
  Lemma given_set_pass2 l r f : (forward l = true -> forward r = true -> f (run (sins l)) (run (sins r)) = Ret tt) ->
    given_set cmp l (fun a => given_set cmp r (f a)) = pass2 l r.
  Proof.
    intros H. rewrite !given_set_ok. destruct (forward l) eqn:E1; [|reflexivity].
    destruct (forward r) eqn:E2; [|reflexivity]. apply H; reflexivity.
  Qed.
  Lemma r_eqb_refl (x : range K) : r_eqb cmp x x = true.
  Proof. unfold r_eqb. ord. Qed.

  Lemma set_tests l : exists n, forall fuel, n <= fuel ->
    set_first cmp fuel l = pass l /\ set_last cmp fuel l = pass l /\ set_len cmp fuel l = pass l /\
    set_iter_reversible cmp fuel l = pass l /\ set_into_iter_reversible cmp fuel l = pass l /\
    forall q, set_overlapping_reversible cmp fuel l q = pass l.
  Proof.
    set (m := run (sins l)). set (rs := map fst (rs_iter m)).
    exists (S (length rs)). intros fuel Hf.
    assert (SB : sorted_by (cmp_start cmp) m /\ sorted_by (cmp_end cmp) m).
    { unfold m. rewrite run_to_ops. exact (WF_sorted_by HO _ (run_WF HO unit_per _)). }
    destruct SB as [S1 S2]. apply sorted_by_SS in S1, S2.
    destruct (schedules_list rs_iter_next rs_iter_next_back rs_iter_size_hint (rs_iter m) rs (siter_schedule _)) as [N1 N2].
    refine (conj _ (conj _ (conj _ (conj _ (conj _ (fun q => _)))))); apply given_set_pass; fold m.
    - apply (extreme_ok r_eqb_refl _ _ _ _ _ _ rs); auto. symmetry. rewrite min_by_first.
      + unfold rs. rewrite first_opt_map. reflexivity.
      + apply SS_map, S1.
    - apply (extreme_ok r_eqb_refl _ _ _ _ _ _ rs); auto. symmetry. rewrite max_by_last.
      + unfold rs. rewrite last_opt_map. reflexivity.
      + apply SS_map, S2.
    - apply (len_ok _ _ _ _ _ _ _ [] rs); auto.
      + intros n. apply (schedules_list rs_iter_next rs_iter_next_back rs_iter_size_hint [] [] (siter_schedule _)).
      + unfold rs. rewrite map_length. reflexivity.
      + unfold rs. rewrite map_length. unfold rs_is_empty, rm_is_empty, rs_iter, rm_iter. clearbody m.
        destruct m; cbn; split; intros; congruence.
    - apply (reversible_ok r_eqb_refl _ (rs_iter m) _ _ _ rs); auto.
    - apply (reversible_ok r_eqb_refl _ (rs_iter m) _ _ _ rs); auto.
    - destruct (schedules_both _ _ _ _ (soverlapping HO (sins l) q)) as (o & E & M1 & M2).
      apply (reversible_ok r_eqb_refl _ o _ _ _ _ E M1 M2). eapply Nat.le_lt_trans; [apply filter_le|exact Hf].
  Qed.
  Lemma set_arbitrary_ok ks l : set_arbitrary_test cmp ks l = pass l.
  Proof.
    unfold set_arbitrary_test. rewrite <- filter_ranges_valid. generalize (filter_ranges cmp l). clear l. intros l.
    destruct (prefix_split (valid_range cmp) l) as (good & bad & -> & H1 & H2 & H3). rewrite H3.
    assert (G : for_each (rs_insert cmp) (good ++ bad) rs_new =
      (match bad with [] => Ret tt | _ => Panicked PAssert end, run (map SInsert good)))
      by exact (sextend HO [] good bad H1 H2).
    rewrite G. destruct bad as [|b bad]; [|reflexivity]. cbn [obind]. rewrite app_nil_r in *. apply for_keys_ok. intros k.
    rewrite (srun_contains HO). cbn [obind]. apply fassert_true, eqb_true_iff. rewrite (mem_all_valid _ H1).
    apply existsb_same. intros r _. unfold in_range, r_contains. f_equal; ord.
  Qed.
  Lemma set_hash_ok W H (heqb : H -> H -> bool) (hk : K -> list W) sip l r :
    (forall h, heqb h h = true) -> (forall x y, eqb cmp x y = true -> hk x = hk y) ->
    set_hash cmp heqb hk sip l r = pass2 l r.
  Proof.
    intros Hh H1. apply given_set_pass2. intros _ _. apply (hash_ok heqb Hh). intros E. f_equal.
    apply (shash HO hk H1), (seqb_spec HO), E.
  Qed.
  Lemma set_ord_ok pcmp l r : (forall x y, pcmp x y = Some (cmp x y)) -> set_ord cmp pcmp l r = pass2 l r.
  Proof.
    intros H. apply given_set_pass2. intros _ _. apply ord_ok.
    - rewrite (proj2 (scmp_spec HO)), (seqb_spec HO). reflexivity.
    - apply (rm_partial_cmp_total (cmp := cmp)); auto.
  Qed.
  Lemma set_self_ok l : set_self cmp l = Ret tt.
  Proof.
    unfold set_self. rewrite (set_arbitrary HO). cbn [obind]. apply fassert_true, list_eqb_refl.
    intros x. unfold unit_eqb. rewrite andb_true_r. apply r_eqb_refl.
  Qed.
  Lemma set_disjoint P (pieces : M P (option (range K))) p us fuel :
    drains pieces p us -> length us < fuel -> (forall r, In r us -> valid_range cmp r = true) ->
    StronglySorted (fun a b => leb cmp (r_end a) (r_start b) = true) us ->
    t_disjoint pieces (rs_overlapping cmp) (rs_ov_next cmp) (rs_insert cmp) fuel p rs_new = Ret tt.
  Proof.
    intros Hd Hf Hv Hs. apply (disjoint_ok pieces _ _ _ (fun d => run (map SInsert d)) us []); auto.
    intros d r rest ->. cbn [app].
    assert (Hr : valid_range cmp r = true) by (apply Hv, in_or_app; right; left; reflexivity).
    assert (Hdv : forall x, In x d -> valid_range cmp x = true) by (intros x Hx; apply Hv, in_or_app; auto).
    destruct (soverlaps_exact HO (map SInsert d) r Hr) as (b & B1 & B2). unfold rs_overlaps, omap in B1.
    destruct (rs_overlapping cmp (run (map SInsert d)) r) as [o|q|]; cbn [obind] in B1; try discriminate.
    exists o. split; [reflexivity|]. split.
    - destruct (fst (rs_ov_next cmp o)) as [x|]; [|reflexivity]. exfalso. injection B1 as <-.
      destruct (proj1 B2 eq_refl) as (k & K1 & K2). rewrite (mem_all_valid _ Hdv) in K2.
      apply existsb_exists in K2 as (y & Y1 & Y2). apply SS_app in Hs as (_ & _ & Hs).
      specialize (Hs y r Y1 (or_introl eq_refl)). unfold in_range in *. ord.
    - pose proof (sinsert_outcome HO (map SInsert d) r) as G. rewrite Hr in G. destruct G as (s' & G & _).
      rewrite G, map_app. cbn [map]. rewrite srun_snoc. cbn [rs_exec]. rewrite G. reflexivity.
  Qed.
  Lemma set_overlaps_ok l r : exists n, forall fuel, n <= fuel ->
    set_union_overlaps cmp fuel l r = pass2 l r /\ set_intersection_overlaps cmp fuel l r = pass2 l r.
  Proof.
    destruct (sunion HO (sins l) (sins r)) as (us & U1 & (U2 & U3 & _) & _ & _).
    destruct (sintersection HO (sins l) (sins r)) as (ws & W1 & (W2 & W3 & _) & _).
    exists (S (length us + length ws)). intros fuel Hf. split; apply given_set_pass2; intros _ _.
    - apply (set_disjoint _ _ _ us); auto; lia.
    - apply (set_disjoint _ _ _ ws); auto; [lia|]. eapply SS_impl; [|exact W3]. intros a b _ _ H. ord.
  Qed.
  Lemma set_contains_ok ks l r : set_union_contains cmp ks l r = pass2 l r /\ set_intersection_contains cmp ks l r = pass2 l r.
  Proof.
    split; apply given_set_pass2; intros _ _.
    - destruct (sbitor HO (sins l) (sins r)) as (ops & H1 & H2).
      apply (combine_ok _ _ _ _ _ _ _ (mem ops) (mem (sins l)) (mem (sins r)) H1); auto using (srun_contains HO).
    - destruct (sbitand HO (sins l) (sins r)) as (ops & H1 & H2).
      apply (combine_ok _ _ _ _ _ _ _ (mem ops) (mem (sins l)) (mem (sins r)) H1); auto using (srun_contains HO).
  Qed.
End RSet.

(** ** inclusive_set.rs *)
Section ISet.
  Context {K : Type} {cmp : K -> K -> comparison} {st : stepfns K} (HO : TotalOrd cmp) (HS : StepLaws cmp st).
  Notation run := (is_run cmp st).
  Notation mem := (mem_run (valid_rangei cmp) (in_rangei cmp)).
  Notation allvalid l := (forallb (valid_rangei cmp) l).
  Notation pass l := (if allvalid l then Ret tt else Panicked PAssert).
  Notation pass2 l r := (if allvalid l && allvalid r then Ret tt else Panicked PAssert).
  Notation allfresh l := (forall r : rangei K, In r l -> ri_exhausted r = false).
  Notation sins l := (map SInsert l).

  Lemma fresh_sinserts (l : list (rangei K)) : allfresh l -> fresh_sops (sins l).
  Proof.
    intros H. apply forallb_forall. intros o Ho. apply in_map_iff in Ho as (e & <- & He). cbn. rewrite (H e He). reflexivity.
  Qed.
  Lemma given_iset_ok l f : allfresh l ->
    given_iset cmp st l f = if allvalid l then f (run (sins l)) else Panicked PAssert.
  Proof.
    intros Hf. unfold given_iset. destruct (prefix_split (valid_rangei cmp) l) as (good & bad & -> & H1 & H2 & H3).
    rewrite (isfrom_iter HO HS good bad), H3; auto; [destruct bad; [rewrite app_nil_r|]; reflexivity|].
    intros e He. split; [apply Hf, in_or_app|]; auto.
  Qed.
  Lemma given_iset_pass l f : allfresh l -> f (run (sins l)) = Ret tt -> given_iset cmp st l f = pass l.
  Proof. intros Hf H. rewrite given_iset_ok, H by exact Hf. reflexivity. Qed.
  Lemma given_iset_pass2 l r f : allfresh l -> allfresh r -> f (run (sins l)) (run (sins r)) = Ret tt ->
    given_iset cmp st l (fun a => given_iset cmp st r (f a)) = pass2 l r.
  Proof. intros Hl Hr H. rewrite !given_iset_ok, H by assumption. apply if_and. Qed.
  Lemma ri_eqb_refl (x : rangei K) : ri_eqb cmp x x = true.
  Proof. unfold ri_eqb. rewrite Bool.eqb_reflx, andb_true_r. ord. Qed.

  Lemma iset_tests l : allfresh l -> exists n, forall fuel, n <= fuel ->
    iset_first cmp st fuel l = pass l /\ iset_last cmp st fuel l = pass l /\ iset_len cmp st fuel l = pass l /\
    iset_iter_reversible cmp st fuel l = pass l /\ iset_into_iter_reversible cmp st fuel l = pass l /\
    forall q, iset_overlapping_reversible cmp st fuel l q = pass l.
  Proof.
    intros Hl. pose proof (fresh_sinserts l Hl) as Hi.
    set (m := run (sins l)). set (rs := map fst (is_iter m)).
    exists (S (length rs)). intros fuel Hf.
    assert (SB : sorted_by (cmpi_start cmp) m /\ sorted_by (cmpi_end cmp) m).
    { unfold m. rewrite irun_to_ops. exact (irun_sorted HO HS unit_per _ (fresh_to_ops _ Hi)). }
    destruct SB as [S1 S2]. apply sorted_by_SS in S1, S2.
    destruct (schedules_list is_iter_next is_iter_next_back is_iter_size_hint (is_iter m) rs (isiter_schedule _)) as [N1 N2].
    refine (conj _ (conj _ (conj _ (conj _ (conj _ (fun q => _)))))); (apply given_iset_pass; [exact Hl|]); fold m.
    - apply (extreme_ok ri_eqb_refl _ _ _ _ _ _ rs); auto. symmetry. rewrite min_by_first.
      + unfold rs. rewrite first_opt_map. reflexivity.
      + apply SS_map, S1.
    - apply (extreme_ok ri_eqb_refl _ _ _ _ _ _ rs); auto. symmetry. rewrite max_by_last.
      + unfold rs. rewrite last_opt_map. reflexivity.
      + apply SS_map, S2.
    - apply (len_ok _ _ _ _ _ _ _ [] rs); auto.
      + intros n. apply (schedules_list is_iter_next is_iter_next_back is_iter_size_hint [] [] (isiter_schedule _)).
      + unfold rs. rewrite map_length. reflexivity.
      + unfold rs. rewrite map_length. unfold is_is_empty, im_is_empty, is_iter, im_iter. clearbody m.
        destruct m; cbn; split; intros; congruence.
    - apply (reversible_ok ri_eqb_refl _ (is_iter m) _ _ _ rs); auto.
    - apply (reversible_ok ri_eqb_refl _ (is_iter m) _ _ _ rs); auto.
    - destruct (schedules_both _ _ _ _ (fun sched => isoverlapping HO HS (sins l) q sched Hi)) as (o & E & M1 & M2).
      apply (reversible_ok ri_eqb_refl _ o _ _ _ _ E M1 M2). eapply Nat.le_lt_trans; [apply filter_le|exact Hf].
  Qed.
  Lemma iset_arbitrary_ok ks l : allfresh l -> iset_arbitrary_test cmp st ks l =
    if forallb (fun r => leb cmp (ri_start r) (ri_end r)) l then Ret tt else Panicked PAssert.
  Proof.
    intros Hl. unfold iset_arbitrary_test. set (l' := filter _ l).
    assert (E : allvalid l' = forallb (fun r => leb cmp (ri_start r) (ri_end r)) l).
    { unfold l'. clear Hl. clear l'. induction l as [|e l IH]; [reflexivity|]. cbn [filter forallb].
      destruct (eqb cmp (ri_start e) (ri_end e)) eqn:Ee; cbn [negb forallb]; rewrite IH; [|f_equal; unfold valid_rangei; ord].
      replace (leb cmp (ri_start e) (ri_end e)) with true by ord. reflexivity. }
    assert (Hl' : allfresh l') by (intros e He; apply Hl; apply filter_In in He; tauto).
    rewrite <- E. clearbody l'. clear E Hl l. rename l' into l. rename Hl' into Hl.
    destruct (prefix_split (valid_rangei cmp) l) as (good & bad & -> & H1 & H2 & H3).
    rewrite H3. assert (Hg : allfresh good) by (intros e He; apply Hl, in_or_app; auto).
    assert (Hg' : forall r, In r good -> ri_exhausted r = false /\ valid_rangei cmp r = true) by auto.
    assert (G : for_each (is_insert cmp st) (good ++ bad) is_new =
      (match bad with [] => Ret tt | _ => Panicked PAssert end, run (sins good)))
      by exact (isextend HO HS [] good bad eq_refl Hg' H2).
    rewrite G. destruct bad as [|b bad]; [|reflexivity]. cbn [obind]. rewrite app_nil_r in *. apply for_keys_ok. intros k.
    rewrite (isrun_contains HO HS) by exact (fresh_sinserts good Hg). cbn [obind]. apply fassert_true, eqb_true_iff.
    rewrite (mem_inserts (valid_rangei cmp) (in_rangei cmp) good H3).
    apply existsb_same. intros r Hr. unfold in_rangei, ri_contains. rewrite (Hg r Hr). f_equal; ord.
  Qed.
  Lemma iset_hash_ok W H (heqb : H -> H -> bool) (hk : K -> list W) hb sip l r : allfresh l -> allfresh r ->
    (forall h, heqb h h = true) -> (forall x y, eqb cmp x y = true -> hk x = hk y) ->
    iset_hash cmp st heqb hk hb sip l r = pass2 l r.
  Proof.
    intros Hl Hr Hh H1. apply given_iset_pass2; try assumption. apply (hash_ok heqb Hh). intros E. f_equal.
    apply (ishash HO HS hk hb H1); auto using fresh_sinserts. apply (iseqb_spec HO HS); auto using fresh_sinserts.
  Qed.
  Lemma iset_ord_ok pcmp l r : allfresh l -> allfresh r -> (forall x y, pcmp x y = Some (cmp x y)) ->
    iset_ord cmp st pcmp l r = pass2 l r.
  Proof.
    intros Hl Hr H. apply given_iset_pass2; try assumption. apply ord_ok.
    - rewrite (proj2 (iscmp_spec HO HS)), (iseqb_spec HO HS) by auto using fresh_sinserts. reflexivity.
    - apply (im_partial_cmp_total (cmp := cmp)); auto.
  Qed.
  Lemma iset_self_ok l : iset_self cmp st l = Ret tt.
  Proof.
    unfold iset_self. rewrite (iset_arbitrary HO HS). cbn [obind]. apply fassert_true, list_eqb_refl.
    intros x. unfold unit_eqb. rewrite andb_true_r. apply ri_eqb_refl.
  Qed.
  Lemma iset_disjoint P (pieces : M P (option (rangei K))) p us fuel :
    drains pieces p us -> length us < fuel -> (forall r, In r us -> ri_exhausted r = false /\ valid_rangei cmp r = true) ->
    StronglySorted (fun a b => ltb cmp (ri_end a) (ri_start b) = true) us ->
    t_disjoint pieces (is_overlapping cmp) (is_ov_next cmp) (is_insert cmp st) fuel p is_new = Ret tt.
  Proof.
    intros Hd Hf Hv Hs. apply (disjoint_ok pieces _ _ _ (fun d => run (map SInsert d)) us []); auto.
    intros d r rest ->. cbn [app].
    destruct (Hv r) as [Xr Hr]; [apply in_or_app; right; left; reflexivity|].
    assert (Hdv : forall x, In x d -> ri_exhausted x = false /\ valid_rangei cmp x = true) by (intros x Hx; apply Hv, in_or_app; auto).
    assert (Hi : fresh_sops (sins d)) by (apply fresh_sinserts; intros x Hx; apply Hdv, Hx).
    destruct (isoverlaps_exact HO HS (map SInsert d) r Hi Hr) as (b & B1 & B2). unfold is_overlaps, omap in B1.
    destruct (is_overlapping cmp (run (map SInsert d)) r) as [o|q|]; cbn [obind] in B1; try discriminate.
    exists o. split; [reflexivity|]. split.
    - destruct (fst (is_ov_next cmp o)) as [x|]; [|reflexivity]. exfalso. injection B1 as <-.
      destruct (proj1 B2 eq_refl) as (k & K1 & K2).
      rewrite (mem_inserts (valid_rangei cmp) (in_rangei cmp) d) in K2 by (apply forallb_forall; intros x' Hx; apply Hdv, Hx).
      apply existsb_exists in K2 as (y & Y1 & Y2). apply SS_app in Hs as (_ & _ & Hs).
      specialize (Hs y r Y1 (or_introl eq_refl)). unfold in_rangei in *. ord.
    - pose proof (isinsert_outcome HO HS (map SInsert d) r Hi Xr) as G. rewrite Hr in G. destruct G as (s' & G & _).
      rewrite G, map_app. cbn [map]. rewrite isrun_snoc. cbn [is_exec]. rewrite G. reflexivity.
  Qed.
  Lemma iset_overlaps_ok l r : allfresh l -> allfresh r -> exists n, forall fuel, n <= fuel ->
    iset_union_overlaps cmp st fuel l r = pass2 l r /\ iset_intersection_overlaps cmp st fuel l r = pass2 l r.
  Proof.
    intros Hl Hr. pose proof (fresh_sinserts l Hl) as Fl. pose proof (fresh_sinserts r Hr) as Fr.
    destruct (isunion HO HS (sins l) (sins r) Fl Fr) as (us & U1 & (U2 & U3 & _) & _ & _).
    destruct (isintersection HO HS (sins l) (sins r) Fl Fr) as (ws & W1 & (W2 & W3 & _) & _).
    exists (S (length us + length ws)). intros fuel Hf. split; apply given_iset_pass2; auto.
    - apply (iset_disjoint _ _ _ us); auto; lia.
    - apply (iset_disjoint _ _ _ ws); auto; [lia|]. eapply SS_impl; [|exact W3]. intros a b _ _ (k & H1 & H2). ord.
  Qed.
  Lemma iset_contains_ok ks l r : allfresh l -> allfresh r ->
    iset_union_contains cmp st ks l r = pass2 l r /\ iset_intersection_contains cmp st ks l r = pass2 l r.
  Proof.
    intros Hl Hr. pose proof (fresh_sinserts l Hl) as Fl. pose proof (fresh_sinserts r Hr) as Fr.
    split; apply given_iset_pass2; auto.
    - destruct (isbitor HO HS (sins l) (sins r) Fl Fr) as (ops & H0 & H1 & H2).
      apply (combine_ok _ _ _ _ _ _ _ (mem ops) (mem (sins l)) (mem (sins r)) H1); auto; intros k; apply (isrun_contains HO HS); auto.
    - destruct (isbitand HO HS (sins l) (sins r) Fl Fr) as (ops & H0 & H1 & H2).
      apply (combine_ok _ _ _ _ _ _ _ (mem ops) (mem (sins l)) (mem (sins r)) H1); auto; intros k; apply (isrun_contains HO HS); auto.
  Qed.
End ISet.

(** ** std_ext.rs *)
Section Floats.
  Local Open Scope Z_scope.
  Context (E M : Z) (HE : 2 <= E) (HM : 1 <= M).
  Lemma finite_value (x : fkey E M) : f_is_finite E M x = true -> exists v, f_value E M (proj1_sig x) = Finite v.
  Proof.
    intros H. pose proof (decode_value E M HE HM (proj1_sig x) (proj2_sig x)) as D. unfold f_is_finite in H.
    destruct (f_decode E M (proj1_sig x)); try discriminate; eexists; apply D.
  Qed.
  Lemma reversible_steps (x : fkey E M) : steps_are_reversible E M x = Ret tt.
  Proof.
    unfold steps_are_reversible. destruct (f_is_finite E M x) eqn:H; [|reflexivity].
    destruct (finite_value x H) as (v & Hv).
    destruct (float_reversible E M HE HM x v Hv) as [(y & z & A1 & A2 & A3) (y' & z' & B1 & B2 & B3)].
    rewrite A1. cbn [farith obind]. rewrite A2. cbn [farith obind]. rewrite A3. cbn [is_eq fassert obind].
    rewrite B1. cbn [farith obind]. rewrite B2. cbn [farith obind]. rewrite B3. reflexivity.
  Qed.
  Lemma directed_steps (x : fkey E M) : steps_move_in_the_right_direction E M x = Ret tt.
  Proof.
    unfold steps_move_in_the_right_direction. destruct (f_is_finite E M x) eqn:H; [|reflexivity].
    destruct (finite_value x H) as (v & Hv).
    destruct (float_add_one E M HE HM x) as (y & A1 & A2). destruct (float_sub_one E M HE HM x) as (z & B1 & B2).
    rewrite Hv in A2, B2. destruct A2 as [A2 _], B2 as [B2 _]. pose proof (proj1 (float_laws E M HE HM)) as HO.
    rewrite A1, B1. cbn [farith obind]. rewrite fassert_true by (unfold gtb; ord). cbn [obind].
    apply fassert_true. ord.
  Qed.
End Floats.
