(** The statements of P_Map.v, assembled from the lemmas. *)
From Coq Require Import List Bool Sorting.Sorted Lia ZArith.
From Verif Require Import Order Outcome BTree SearchTree Ranges History Spec MapModel ListLemmas
  IterFacts MapProofs MapRemove MapFacts MapIter MapMore Instances.
Import ListNotations.

Section Props.
  Context {K V : Type} {cmp : K -> K -> comparison} {veqb : V -> V -> bool}.
  Context (HO : TotalOrd cmp) (HV : PartialEquiv veqb).

  Notation run := (rm_run cmp veqb).
  Notation valid := (valid_range cmp).
  Notation covers := (in_range cmp).
  Notation spec := (spec_run (V := V) valid covers).
  Notation lk := (@lk K V cmp).
  Notation ins l := (map (fun e : range K * V => OInsert (fst e) (snd e)) l).

  Lemma insert_outcome ops r v :
    if valid r
    then exists m', rm_insert cmp veqb r v (run ops) = (Ret tt, m') /\
           forall k, exists o, rm_get cmp m' k = Ret o /\
             same_opt veqb o (if covers r k then Some v else spec ops k)
    else rm_insert cmp veqb r v (run ops) = (Panicked PAssert, run ops).
  Proof.
    destruct (valid r) eqn:E; [|apply insert_panics; exact E].
    destruct (insert_ok HO HV (run ops) r v (run_WF HO HV ops) E) as (m' & H1 & H2 & H3 & _).
    exists m'. split; [exact H1|]. intros k. exists (lk m' k). split; [apply (get_ok HO _ _ H2)|].
    eapply (osame_trans HV); [apply H3|]. unfold ov. rewrite (in_range_contains HO).
    destruct (r_contains cmp r k); [apply osame_refl|apply (run_lk HO HV)].
  Qed.
  Lemma remove_outcome ops r :
    if valid r
    then exists m', rm_remove cmp r (run ops) = (Ret tt, m') /\
           forall k, exists o, rm_get cmp m' k = Ret o /\
             same_opt veqb o (if covers r k then None else spec ops k)
    else rm_remove cmp r (run ops) = (Panicked PAssert, run ops).
  Proof.
    destruct (valid r) eqn:E; [|apply remove_panics; exact E].
    destruct (remove_ok HO (veqb := veqb) (run ops) r (run_WF HO HV ops) E) as (m' & H1 & H2 & H3 & _).
    exists m'. split; [exact H1|]. intros k. exists (lk m' k). split; [apply (get_ok HO _ _ H2)|].
    rewrite H3, (in_range_contains HO).
    destruct (r_contains cmp r k); [apply osame_refl|apply (run_lk HO HV)].
  Qed.

  Lemma iter_valid_ascending ops :
    ascending cmp (rm_iter (run ops)) /\
    (forall r v, In (r, v) (rm_iter (run ops)) -> valid r = true).
  Proof.
    split; [apply (WF_ascending (veqb := veqb)), (run_WF HO HV)|].
    intros r v Hin. exact (WF_valid (veqb := veqb) _ r v (run_WF HO HV ops) Hin).
  Qed.
  Lemma iter_describes ops :
    represents covers veqb (rm_iter (run ops)) (spec ops) /\
    describes covers veqb (rm_iter (run ops)) (spec ops).
  Proof.
    pose proof (run_WF HO HV ops) as HW.
    split.
    - intros k. pose proof (run_lk HO HV ops k) as H.
      destruct (lk (run ops) k) as [w|] eqn:E.
      + destruct (spec ops k) as [v|]; [|destruct H]. destruct (lk_In _ _ _ E) as (r & R1 & R2).
        exists r, w. rewrite (in_range_contains HO). auto.
      + destruct (spec ops k); [destruct H|]. intros r v Hin. rewrite (in_range_contains HO).
        rewrite lk_None in E. eauto.
    - intros k. pose proof (run_lk HO HV ops k) as H. split.
      + intros r v Hin Hc. rewrite (in_range_contains HO) in Hc.
        rewrite (lk_WF_In HO _ r v k HW Hin Hc) in H. exact H.
      + intros Hn. destruct (lk (run ops) k) as [w|] eqn:E.
        * destruct (lk_In _ _ _ E) as (r & R1 & R2). exists r, w. rewrite (in_range_contains HO). auto.
        * destruct (spec ops k); [destruct H|congruence].
  Qed.
  Lemma iter_unique ops k r v r' v' :
    In (r, v) (rm_iter (run ops)) -> In (r', v') (rm_iter (run ops)) ->
    covers r k = true -> covers r' k = true -> (r, v) = (r', v').
  Proof.
    rewrite !(in_range_contains HO). intros H1 H2 H3 H4.
    exact (WF_unique HO _ (r, v) (r', v') k (run_WF HO HV ops) H1 H2 H3 H4).
  Qed.
  Lemma run_maximal ops k r v r' :
    rm_get_key_value cmp (run ops) k = Ret (Some (r, v)) ->
    leb cmp (r_start r') (r_start r) = true -> leb cmp (r_end r) (r_end r') = true ->
    (forall k', covers r' k' = true -> covers r k' = false ->
       exists w, rm_get cmp (run ops) k' = Ret (Some w) /\ veqb v w = true) ->
    eqb cmp (r_start r') (r_start r) = true /\ eqb cmp (r_end r') (r_end r) = true.
  Proof.
    intros H H1 H2 H3. pose proof (run_WF HO HV ops) as HW.
    apply (get_key_value_iff HO _ _ _ _ HW) in H as [H _].
    apply (maximal_run HO HV (run ops) r v r' HW H H1 H2).
    intros k' A1 A2. destruct (H3 k' A1 A2) as (w & B1 & B2). exists w. split; [|exact B2].
    rewrite (get_ok HO _ _ HW) in B1. congruence.
  Qed.
  Lemma run_constant ops k r v k' :
    rm_get_key_value cmp (run ops) k = Ret (Some (r, v)) -> covers r k' = true ->
    rm_get cmp (run ops) k' = Ret (Some v).
  Proof.
    intros H Hk. pose proof (run_WF HO HV ops) as HW.
    apply (get_key_value_iff HO _ _ _ _ HW) in H as [H _].
    rewrite (get_ok HO _ _ HW). f_equal. rewrite (in_range_contains HO) in Hk.
    apply (lk_WF_In HO _ r v k' HW H Hk).
  Qed.
  Lemma run_eqb_get (Hrefl : forall v, veqb v v = true) ops1 ops2 :
    rm_eqb cmp veqb (run ops1) (run ops2) = true <->
    (forall k, exists a b, rm_get cmp (run ops1) k = Ret a /\ rm_get cmp (run ops2) k = Ret b /\
       same_opt veqb a b).
  Proof.
    rewrite (eqb_extensional HO HV Hrefl) by apply (run_WF HO HV). split.
    - intros H k. exists (lk (run ops1) k), (lk (run ops2) k).
      splits; try apply (get_ok HO _ _ (run_WF HO HV _)). apply H.
    - intros H k. destruct (H k) as (a & b & A & B & S).
      rewrite (get_ok HO _ _ (run_WF HO HV _)) in A. rewrite (get_ok HO _ _ (run_WF HO HV _)) in B. congruence.
  Qed.

  Lemma none_iff ops k : lk (run ops) k = None <-> spec ops k = None.
  Proof.
    pose proof (run_lk HO HV ops k) as H.
    destruct (lk (run ops) k), (spec ops k); cbn in H; split; intros E; try discriminate; tauto.
  Qed.
  Lemma run_gaps ops outer :
    exists g gs, rm_gaps cmp (run ops) outer = Ret g /\
      (forall n, nexts (gp_next cmp) n g = yields n gs) /\
      gaps_of cmp (spec ops) outer gs.
  Proof.
    destruct (gaps_ok HO (run ops) outer (run_WF HO HV ops)) as (g & gs & H1 & H2 & H3).
    exists g, gs. splits; auto. eapply gaps_of_ext; [|exact H3]. intros k. apply none_iff.
  Qed.
  Lemma run_gaps_empty ops outer : valid outer = false ->
    exists g, rm_gaps cmp (run ops) outer = Ret g /\ forall n, nexts (gp_next cmp) n g = repeat None n.
  Proof.
    intros Ho. destruct (run_gaps ops outer) as (g & gs & H1 & H2 & H3).
    exists g. split; [exact H1|]. intros n. rewrite H2, (gaps_empty_outer HO _ _ _ H3 Ho).
    apply yields_nil.
  Qed.

  Lemma overlapping_exact ops q : valid q = true ->
    exists o, rm_overlapping cmp (run ops) q = Ret o /\
      (forall n, nexts (ov_next cmp) n o =
                 yields n (filter (fun e => meets cmp q (fst e)) (rm_iter (run ops)))) /\
      (forall e, In e (rm_iter (run ops)) ->
         meets cmp q (fst e) = true <-> exists k, covers q k = true /\ covers (fst e) k = true).
  Proof.
    intros Hq. pose proof (run_WF HO HV ops) as HW.
    destruct (overlapping_split HO (run ops) q HW) as (L & N & E & HL & HN & HR).
    exists (mkOverlapping q N). splits; [exact HR| |].
    - intros n. apply (nexts_yields _ (ov_rel (cmp := cmp) (veqb := veqb) q)).
      + intros s l Hs. pose proof (ov_rel_step HO q Front s l Hs) as H. cbn [both] in H.
        destruct l as [|a l]; cbn in H; exact H.
      + unfold ov_rel. cbn. splits; auto.
        * rewrite E in HW. apply WF_app in HW as (_ & HW & _). exact HW.
        * apply (hits_filter HO (run ops) q L N E HL HN).
    - intros e He. apply (hits_share HO q e Hq). apply (proj2 HW e He).
  Qed.
  Lemma contains_lk ops k : rm_contains_key cmp (run ops) k =
    Ret (match lk (run ops) k with Some _ => true | None => false end).
  Proof.
    unfold rm_contains_key, omap. rewrite (get_ok HO _ _ (run_WF HO HV ops)). reflexivity.
  Qed.
  Lemma overlaps_exact ops q : valid q = true ->
    exists b, rm_overlaps cmp (run ops) q = Ret b /\
      (b = true <-> exists k, covers q k = true /\ rm_contains_key cmp (run ops) k = Ret true).
  Proof.
    intros Hq. pose proof (run_WF HO HV ops) as HW. eexists. split; [exact (overlaps_ok HO _ q HW)|].
    rewrite existsb_exists. split.
    - intros (e & He & Hh). apply (hits_share HO q e Hq (proj2 HW e He)) in Hh as (k & K1 & K2).
      exists k. split; [exact K1|]. rewrite contains_lk. destruct e as [r v]. cbn in K2.
      rewrite (in_range_contains HO) in K2. rewrite (lk_WF_In HO _ r v k HW He K2). reflexivity.
    - intros (k & K1 & K2). rewrite contains_lk in K2.
      destruct (lk (run ops) k) as [v|] eqn:E; [|discriminate].
      destruct (lk_In _ _ _ E) as (r & R1 & R2). exists (r, v). split; [exact R1|].
      apply (hits_share HO q (r, v) Hq (proj2 HW _ R1)). exists k. cbn.
      split; [exact K1|]. rewrite (in_range_contains HO). exact R2.
  Qed.

  Lemma first_last ops :
    match rm_first_range_value (run ops), rm_last_range_value (run ops) with
    | None, None => rm_is_empty (run ops) = true
    | Some a, Some b =>
        In a (rm_iter (run ops)) /\ In b (rm_iter (run ops)) /\
        (forall x, In x (rm_iter (run ops)) ->
           (x = a \/ leb cmp (r_end (fst a)) (r_start (fst x)) = true) /\
           (x = b \/ leb cmp (r_end (fst x)) (r_start (fst b)) = true)) /\
        (forall k, rm_contains_key cmp (run ops) k = Ret true ->
           covers (mkR (r_start (fst a)) (r_end (fst b))) k = true)
    | _, _ => False
    end.
  Proof.
    pose proof (run_WF HO HV ops) as HW.
    pose proof (first_ok (veqb := veqb) (run ops) HW) as HF.
    pose proof (last_ok (veqb := veqb) (run ops) HW) as HL.
    destruct (rm_first_range_value (run ops)) as [a|] eqn:Ea.
    - destruct (rm_last_range_value (run ops)) as [b|] eqn:Eb.
      + destruct HF as [F1 F2], HL as [L1 L2]. splits; auto.
        intros k Hk. rewrite contains_lk in Hk.
        destruct (lk (run ops) k) as [v|] eqn:E; [|discriminate].
        destruct (lk_In _ _ _ E) as (r & R1 & R2). unfold r_contains in R2.
        pose proof (proj2 HW _ F1) as Va. pose proof (proj2 HW _ L1) as Vb.
        unfold in_range. cbn [r_start r_end].
        destruct (F2 _ R1) as [<-|H1]; destruct (L2 _ R1) as [<-|H2]; cbn [fst] in *; ord.
      + destruct HF as [F1 _]. rewrite HL in F1. destruct F1.
    - rewrite HF. reflexivity.
  Qed.

  Lemma len_empty ops :
    nexts it_next (rm_len (run ops)) (rm_iter (run ops)) = map Some (rm_iter (run ops)) /\
    (rm_is_empty (run ops) = true <-> rm_len (run ops) = 0) /\
    (rm_is_empty (run ops) = true <-> forall k, rm_contains_key cmp (run ops) k = Ret false) /\
    rm_is_empty (run (ops ++ [OClear])) = true.
  Proof.
    splits.
    - unfold rm_len, rm_iter. generalize (run ops). induction r as [|e m IH]; cbn; [reflexivity|].
      rewrite IH. reflexivity.
    - unfold rm_is_empty, rm_len. destruct (run ops); cbn; split; congruence.
    - rewrite (empty_iff HO _ (run_WF HO HV ops)). split.
      + intros H k. rewrite contains_lk, H. reflexivity.
      + intros H k. specialize (H k). rewrite contains_lk in H. destruct (lk (run ops) k); congruence.
    - rewrite run_snoc. reflexivity.
  Qed.

  Lemma run_app ops1 ops2 : run (ops1 ++ ops2) = run_ops (rm_exec cmp veqb) ops2 (run ops1).
  Proof. unfold rm_run, run_ops. apply fold_left_app. Qed.
  Lemma run_extend ops good bad :
    (forall e, In e good -> valid (fst e) = true) ->
    match bad with [] => True | e :: _ => valid (fst e) = false end ->
    rm_extend cmp veqb (good ++ bad) (run ops) =
      (match bad with [] => Ret tt | _ => Panicked PAssert end, run (ops ++ ins good)).
  Proof.
    intros H1 H2. rewrite (extend_prefix HO HV good bad _ H1 H2 (run_WF HO HV ops)).
    rewrite run_app. reflexivity.
  Qed.
  Lemma from_array_prefix good bad :
    (forall e, In e good -> valid (fst e) = true) ->
    match bad with [] => True | e :: _ => valid (fst e) = false end ->
    rm_from_array cmp veqb (good ++ bad) =
      match bad with [] => Ret (run (ins good)) | _ => Panicked PAssert end.
  Proof. rewrite from_array_eq. apply (from_iter_prefix HO HV). Qed.
  Lemma run_round_trip (E : Type) ops :
    rm_deserialize (E := E) cmp veqb (map inr (snd (rm_serialize (run ops)))) = Ret (inr (run ops)) /\
    fst (rm_serialize (run ops)) = Some (length (snd (rm_serialize (run ops)))).
  Proof.
    split; [apply (round_trip HO HV), (run_WF HO HV)|]. unfold rm_serialize. cbn.
    rewrite map_length. reflexivity.
  Qed.
  Lemma run_ord (vcmp : V -> V -> comparison) : TotalOrd vcmp ->
    (forall x y, vcmp x y = Eq <-> veqb x y = true) ->
    TotalOrd (@rm_cmp K V cmp vcmp) /\
    (forall ops1 ops2, rm_cmp cmp vcmp (run ops1) (run ops2) = Eq <->
       forall k, same_opt veqb (spec ops1 k) (spec ops2 k)).
  Proof.
    intros HVO Hv. split; [apply (rm_cmp_order HO _ HVO)|]. intros ops1 ops2.
    rewrite (rm_cmp_Eq (veqb := veqb) vcmp _ _ Hv). apply (run_eqb_spec HO HV).
    intros v. apply Hv, (ord_refl _ HVO).
  Qed.
  Lemma run_minimal (Hrefl : forall v, veqb v v = true) ops l :
    describes covers veqb l (spec ops) -> length (rm_iter (run ops)) <= length l.
  Proof. apply (minimal HO HV Hrefl (run ops)); [apply (run_WF HO HV)|apply (run_lk HO HV)]. Qed.
  Lemma run_growth ops r v :
    rm_len (run (ops ++ [OInsert r v])) <= rm_len (run ops) + 2 /\
    rm_len (run (ops ++ [ORemove r])) <= rm_len (run ops) + 1.
  Proof.
    unfold rm_len. rewrite !run_snoc. cbn [rm_exec]. pose proof (run_WF HO HV ops) as HW.
    destruct (valid r) eqn:E.
    - destruct (insert_ok HO HV (run ops) r v HW E) as (m' & -> & _ & _ & H1 & _).
      destruct (remove_ok HO (veqb := veqb) (run ops) r HW E) as (m2 & -> & _ & _ & H2 & _).
      cbn [snd]. split; assumption.
    - rewrite insert_panics, remove_panics by exact E. cbn [snd]. split; apply Nat.le_add_r.
  Qed.
  Lemma insert_frame ops r v e : valid r = true -> In e (rm_iter (run ops)) ->
    (leb cmp (r_end (fst e)) (r_start r) = true /\
       (eqb cmp (r_end (fst e)) (r_start r) = true -> veqb (snd e) v = false)) \/
    (leb cmp (r_end r) (r_start (fst e)) = true /\
       (eqb cmp (r_end r) (r_start (fst e)) = true -> veqb v (snd e) = false)) ->
    In e (rm_iter (run (ops ++ [OInsert r v]))).
  Proof.
    intros Hr Hin H. rewrite run_snoc. cbn [rm_exec].
    destruct (insert_ok HO HV (run ops) r v (run_WF HO HV ops) Hr) as (m' & -> & _ & _ & _ & F & _).
    apply F; [exact Hin|]. destruct H as [H|H]; [left|right]; intros x [<-|[]]; exact H.
  Qed.
  Lemma remove_frame ops r e : valid r = true -> In e (rm_iter (run ops)) ->
    leb cmp (r_end (fst e)) (r_start r) = true \/ leb cmp (r_end r) (r_start (fst e)) = true ->
    In e (rm_iter (run (ops ++ [ORemove r]))).
  Proof.
    intros Hr Hin H. rewrite run_snoc. cbn [rm_exec].
    destruct (remove_ok HO (veqb := veqb) (run ops) r (run_WF HO HV ops) Hr) as (m' & -> & _ & _ & _ & F).
    apply F; assumption.
  Qed.
  (** the laws for values that need not equal themselves *)
  Notation look ops a b := (forall k, exists x y, rm_get cmp (run (ops ++ a)) k = Ret x /\
    rm_get cmp (run (ops ++ b)) k = Ret y /\ same_opt veqb x y).
  Lemma law_get ops a b :
    (forall f k, fold_left (spec_op (V := V) valid covers) a f k = fold_left (spec_op (V := V) valid covers) b f k) -> look ops a b.
  Proof.
    intros H k. destruct (run_get_spec HO HV (ops ++ a) k) as (x & X1 & X2).
    destruct (run_get_spec HO HV (ops ++ b) k) as (y & Y1 & Y2).
    exists x, y. split; [exact X1|]. split; [exact Y1|].
    eapply (osame_trans HV); [exact X2|]. apply (osame_sym HV).
    replace (spec (ops ++ a) k) with (spec (ops ++ b) k); [exact Y2|].
    rewrite !(spec_app (cmp := cmp)). symmetry. apply H.
  Qed.
  Lemma laws_get ops r v r' v' :
    look ops [OInsert r v; OInsert r v] [OInsert r v] /\
    look ops [ORemove r; ORemove r] [ORemove r] /\
    look ops [OInsert r v; ORemove r] [ORemove r] /\
    look ops [ORemove r; OInsert r v] [OInsert r v] /\
    look ops [ORemove r; ORemove r'] [ORemove r'; ORemove r] /\
    ((forall k, covers r k = true -> covers r' k = true) ->
     look ops [OInsert r v; OInsert r' v'] [OInsert r' v']) /\
    ((forall k, covers r k = true -> covers r' k = true -> False) ->
     look ops [OInsert r v; OInsert r' v'] [OInsert r' v'; OInsert r v] /\
     look ops [OInsert r v; ORemove r'] [ORemove r'; OInsert r v]).
  Proof.
    splits; try apply law_get.
    - apply law_insert_insert.
    - apply law_remove_remove.
    - apply law_insert_remove.
    - apply law_remove_insert.
    - apply law_commute_remove.
    - intros Hc. apply law_get. intros f k. apply (law_covered HO); exact Hc.
    - intros Hc. split; apply law_get; intros f k; [apply law_commute; exact Hc|apply law_commute_mixed; exact Hc].
  Qed.
  (** between two entries with equal values: the key at the end of the first *)
  Lemma run_between ops a b : In a (rm_iter (run ops)) -> In b (rm_iter (run ops)) ->
    leb cmp (r_end (fst a)) (r_start (fst b)) = true -> veqb (snd a) (snd b) = true ->
    ltb cmp (r_end (fst a)) (r_start (fst b)) = true /\
    (rm_get cmp (run ops) (r_end (fst a)) = Ret None \/
     exists w, rm_get cmp (run ops) (r_end (fst a)) = Ret (Some w) /\ veqb (snd a) w = false).
  Proof.
    intros Ha Hb Hab Hv. pose proof (WF_coalesced HO _ (run_WF HO HV ops)) as HC.
    split; [destruct (ltb cmp (r_end (fst a)) (r_start (fst b))) eqn:E; [reflexivity|exfalso];
      rewrite HC in Hv; [discriminate|exact Ha|exact Hb|ord]|].
    destruct (get_total HO _ (r_end (fst a)) (run_WF HO HV ops)) as (o & H1 & H2 & _). rewrite H2.
    destruct o as [[r w]|]; [right|left; reflexivity]. exists w. split; [reflexivity|].
    apply (get_key_value_iff HO _ _ _ _ (run_WF HO HV ops)) in H1 as [Hi Hc].
    destruct (iter_valid_ascending ops) as [HA HW].
    assert (Hor : (r, w) = a \/ leb cmp (r_end (fst a)) (r_start r) = true \/
      leb cmp (r_end r) (r_start (fst a)) = true).
    { destruct (in_split _ _ Ha) as (l1 & l2 & E). unfold rm_iter in *. rewrite E in Hi, HA. unfold ascending in HA.
      apply SS_app in HA as (_ & HA & HA1). apply SS_cons in HA as [_ HA].
      apply in_app_or in Hi as [Hi|[<-|Hi]]; [|left; reflexivity|].
      - right; right. apply (HA1 (r, w) a Hi (or_introl eq_refl)).
      - right; left. apply (HA (r, w) Hi). }
    destruct a as [ra va]. pose proof (HW ra va Ha) as V1. unfold in_range, valid_range in *. cbn in *.
    destruct Hor as [Hor|[Hor|Hor]]; [injection Hor as -> ->; exfalso; ord| |exfalso; ord].
    apply (HC (ra, va) (r, w) Ha Hi). cbn. ord.
  Qed.
End Props.

(** Concrete facts used by the examples. *)
Local Open Scope Z_scope.
Definition ex_ops : list (op (range Z) Z) :=
  [OInsert (mkR 0 10) 1; OInsert (mkR 10 20) 2; OInsert (mkR 4 6) 2; ORemove (mkR 8 12);
   OInsert (mkR 30 25) 9; OExtend [(mkR 40 50, 3); (mkR 50 60, 3); (mkR 5 5, 7); (mkR 70 80, 4)]].
Ltac zrange := unfold in_range, Order.ltb; cbn [r_start r_end]; intros;
  repeat match goal with
  | H : context [Z.compare ?a ?b] |- _ => destruct (Z.compare_spec a b); cbn in H
  | |- context [Z.compare ?a ?b] => destruct (Z.compare_spec a b); cbn
  end; try discriminate; try reflexivity; try lia.

Lemma commute_example :
  (forall v, Z.eqb v v = true) /\
  (forall k, in_range Z.compare (mkR 2 5) k = true -> in_range Z.compare (mkR 1 5) k = true) /\
  (forall k, in_range Z.compare (mkR 2 5) k = true -> in_range Z.compare (mkR 5 9) k = true -> False) /\
  rm_run Z.compare Z.eqb (ex_ops ++ [OInsert (mkR 2 5) 7; OInsert (mkR 5 9) 7]) =
  rm_run Z.compare Z.eqb (ex_ops ++ [OInsert (mkR 5 9) 7; OInsert (mkR 2 5) 7]).
Proof.
  splits.
  - apply Z.eqb_refl.
  - zrange.
  - zrange.
  - vm_compute. reflexivity.
Qed.
Lemma empty_query_witness :
  (forall k, in_range Z.compare (mkR 5 5) k = false) /\
  rm_overlaps Z.compare (rm_run Z.compare Z.eqb [OInsert (mkR 3 7) 1]) (mkR 5 5) = Ret true.
Proof. split; [zrange|vm_compute; reflexivity]. Qed.
Lemma hash_ord_example :
  (forall x y (s t : list Z), [x] ++ s = [y] ++ t -> eqb Z.compare x y = true /\ [x] = [y]) /\
  (forall x y, Z.compare x y = Eq <-> Z.eqb x y = true) /\
  rm_cmp Z.compare Z.compare (rm_run Z.compare Z.eqb ex_ops)
    (rm_run Z.compare Z.eqb [OInsert (mkR 0 4) 1]) = Gt /\
  rm_cmp Z.compare Z.compare (rm_run Z.compare Z.eqb [OInsert (mkR 0 4) 1])
    (rm_run Z.compare Z.eqb [OInsert (mkR 0 5) 0]) = Lt.
Proof.
  splits.
  - intros x y s t [= -> _]. unfold eqb. rewrite Z.compare_refl. auto.
  - intros x y. rewrite Z.compare_eq_iff, Z.eqb_eq. reflexivity.
  - vm_compute. reflexivity.
  - vm_compute. reflexivity.
Qed.
Lemma minimal_example :
  rm_len (rm_run Z.compare Z.eqb ([OInsert (mkR 0 10) 1] ++ [OInsert (mkR 3 5) 2])) = 3%nat /\
  rm_len (rm_run Z.compare Z.eqb ([OInsert (mkR 0 10) 1] ++ [ORemove (mkR 3 5)])) = 2%nat /\
  describes (in_range Z.compare) Z.eqb [(mkR 0 5, 1); (mkR 5 10, 1)]
    (spec_run (valid_range Z.compare) (in_range Z.compare) [OInsert (mkR 0 10) 1]).
Proof.
  splits; [vm_compute; reflexivity|vm_compute; reflexivity|].
  intros k. unfold spec_run. cbn [fold_left spec_op]. change (valid_range Z.compare (mkR 0 10)) with true.
  cbn iota. unfold put. split.
  - intros r v Hin H. cbn in Hin. destruct Hin as [X|[X|X]]; [injection X as <- <-|injection X as <- <-|destruct X].
    + assert (E : in_range Z.compare (mkR 0 10) k = true) by (revert H; zrange). rewrite E. left; reflexivity.
    + assert (E : in_range Z.compare (mkR 0 10) k = true) by (revert H; zrange). rewrite E. left; reflexivity.
  - intros H. destruct (in_range Z.compare (mkR 0 10) k) eqn:E; [clear H|congruence].
    destruct (in_range Z.compare (mkR 0 5) k) eqn:E2.
    + exists (mkR 0 5), 1. cbn. auto.
    + exists (mkR 5 10), 1. split; [cbn; auto|]. revert E E2. zrange.
Qed.
Lemma frame_example :
  In (mkR 6 8, 1) (rm_iter (rm_run Z.compare Z.eqb ex_ops)) /\
  In (mkR 6 8, 1) (rm_iter (rm_run Z.compare Z.eqb (ex_ops ++ [OInsert (mkR 8 15) 4]))) /\
  ~ In (mkR 6 8, 1) (rm_iter (rm_run Z.compare Z.eqb (ex_ops ++ [OInsert (mkR 8 15) 1]))).
Proof.
  splits; vm_compute; [tauto|tauto|]. intros H.
  repeat (destruct H as [H|H]; [discriminate H|]). exact H.
Qed.
