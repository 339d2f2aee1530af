(** The statements of P_IMap.v, assembled from the lemmas.  The simulation
    lemmas are used with the cuts of Cuts.v. *)
From Coq Require Import List Bool Sorting.Sorted Lia ZArith.
From Verif Require Import Order Outcome BTree SearchTree Ranges History Spec MapModel IMapModel StepModel StepFacts ListLemmas
  IterFacts MapProofs MapFacts MapMore ISim Cuts IFacts Instances.
Import ListNotations.

Lemma bt_insert_last {Q V} (c : Q -> Q -> comparison) k (v : V) A :
  (forall a, In a A -> c k (fst a) = Gt) -> bt_insert c k v A = A ++ [(k, v)].
Proof.
  induction A as [|[q w] A IH]; intros H; [reflexivity|]. cbn.
  pose proof (H (q, w) (or_introl eq_refl)) as E. cbn in E. rewrite E, IH; auto. intros a Ha. apply H. right; exact Ha.
Qed.

(** ** Laws of the specification, for any kind of range *)
Section Laws.
  Context {K V R : Type} (valid : R -> bool) (covers : R -> K -> bool).
  Notation spec1 := (spec_op (V := V) valid covers).
  Notation fold := (fold_left spec1).
  Lemma slaw_insert_insert r v f k : fold [OInsert r v; OInsert r v] f k = fold [OInsert r v] f k.
  Proof. cbn. destruct (valid r); [|reflexivity]. unfold put. destruct (covers r k); reflexivity. Qed.
  Lemma slaw_remove_remove r f k : fold [ORemove r; ORemove r] f k = fold [ORemove r] f k.
  Proof. cbn. destruct (valid r); [|reflexivity]. unfold del. destruct (covers r k); reflexivity. Qed.
  Lemma slaw_insert_remove r v f k : fold [OInsert r v; ORemove r] f k = fold [ORemove r] f k.
  Proof. cbn. destruct (valid r); [|reflexivity]. unfold put, del. destruct (covers r k); reflexivity. Qed.
  Lemma slaw_remove_insert r v f k : fold [ORemove r; OInsert r v] f k = fold [OInsert r v] f k.
  Proof. cbn. destruct (valid r); [|reflexivity]. unfold put, del. destruct (covers r k); reflexivity. Qed.
  Lemma slaw_covered r1 v1 r2 v2 f k :
    (valid r2 = false -> covers r2 k = false) ->
    (forall x, covers r1 x = true -> covers r2 x = true) ->
    fold [OInsert r1 v1; OInsert r2 v2] f k = fold [OInsert r2 v2] f k.
  Proof.
    intros H0 H. specialize (H k). cbn. destruct (valid r1) eqn:E1; [|reflexivity].
    destruct (valid r2) eqn:E2; unfold put.
    - destruct (covers r2 k); [reflexivity|]. destruct (covers r1 k); [|reflexivity].
      discriminate H; reflexivity.
    - destruct (covers r1 k) eqn:Ek; [exfalso|reflexivity].
      rewrite H0 in H by reflexivity. specialize (H eq_refl). discriminate.
  Qed.
  Lemma slaw_commute r1 v1 r2 v2 f k : (forall k, covers r1 k = true -> covers r2 k = true -> False) ->
    fold [OInsert r1 v1; OInsert r2 v2] f k = fold [OInsert r2 v2; OInsert r1 v1] f k.
  Proof.
    intros H. specialize (H k). cbn. destruct (valid r1), (valid r2); try reflexivity.
    unfold put. destruct (covers r1 k), (covers r2 k); try reflexivity. exfalso; auto.
  Qed.
  Lemma slaw_commute_remove r1 r2 f k : fold [ORemove r1; ORemove r2] f k = fold [ORemove r2; ORemove r1] f k.
  Proof.
    cbn. destruct (valid r1), (valid r2); try reflexivity.
    unfold del. destruct (covers r1 k), (covers r2 k); reflexivity.
  Qed.
  Lemma slaw_commute_mixed r1 v1 r2 f k : (forall k, covers r1 k = true -> covers r2 k = true -> False) ->
    fold [OInsert r1 v1; ORemove r2] f k = fold [ORemove r2; OInsert r1 v1] f k.
  Proof.
    intros H. specialize (H k). cbn. destruct (valid r1), (valid r2); try reflexivity.
    unfold put, del. destruct (covers r1 k), (covers r2 k); try reflexivity. exfalso; auto.
  Qed.
End Laws.

(** ** Step functions are only called where a neighbour exists *)
Section Agree.
  Context {K V : Type} {cmp : K -> K -> comparison} {veqb : V -> V -> bool}.
  Context {st1 st2 : stepfns K}.
  Context (Hadd : forall x y, ltb cmp x y = true -> add_one st1 x = add_one st2 x).
  Context (Hsub : forall x y, ltb cmp y x = true -> sub_one st1 x = sub_one st2 x).

  Lemma bind_ext {S A B} (c d : M S A) (f g : A -> M S B) s :
    c s = d s -> (forall a s', f a s' = g a s') -> bind c f s = bind d g s.
  Proof. intros H1 H2. unfold bind. rewrite H1. destruct (d s) as [[a|p|] s']; auto. Qed.

  Lemma touches_agree a b : ri_touches cmp st1 a b = ri_touches cmp st2 a b.
  Proof.
    unfold ri_touches. destruct (ltb cmp _ _) eqn:E; [|reflexivity]. rewrite (Hadd _ _ E). reflexivity.
  Qed.
  Lemma cands_agree l r : filter_o (fun e : rangei K * V => ri_touches cmp st1 (fst e) r) l =
    filter_o (fun e => ri_touches cmp st2 (fst e) r) l.
  Proof. induction l as [|e l IH]; cbn; [reflexivity|]. rewrite touches_agree, IH. reflexivity. Qed.
  Lemma adjust_insert_agree s sv r v m :
    im_adjust_touching_ranges_for_insert cmp veqb st1 s sv r v m =
    im_adjust_touching_ranges_for_insert cmp veqb st2 s sv r v m.
  Proof.
    unfold im_adjust_touching_ranges_for_insert. destruct (veqb sv v); [reflexivity|].
    destruct (ri_overlaps cmp r s); [|reflexivity].
    apply bind_ext; [reflexivity|]. intros _ m1.
    apply bind_ext; [|intros _ m2; apply bind_ext; [|reflexivity]].
    - destruct (ltb cmp (ri_start s) (ri_start r)) eqn:E; [|reflexivity].
      rewrite (Hsub _ _ E). reflexivity.
    - destruct (gtb cmp (ri_end s) (ri_end r)) eqn:E; [|reflexivity]. unfold gtb in E.
      rewrite (Hadd _ _ E). reflexivity.
  Qed.
  Lemma insert_loop_agree fuel : forall r v e m,
    im_insert_loop cmp veqb st1 fuel r v e m = im_insert_loop cmp veqb st2 fuel r v e m.
  Proof.
    induction fuel as [|fuel IH]; intros r v e m; [reflexivity|]. cbn [im_insert_loop].
    apply bind_ext; [reflexivity|]. intros m1 m2. apply bind_ext; [reflexivity|]. intros l m3.
    destruct (fst (it_next l)) as [[s sv]|]; [|reflexivity].
    apply bind_ext.
    - destruct (gtb cmp (ri_start s) (ri_start e)) eqn:E; [|reflexivity]. unfold gtb in E.
      rewrite (Hadd _ _ E). reflexivity.
    - intros b m4. destruct b; [reflexivity|]. apply bind_ext; [apply adjust_insert_agree|].
      intros a m5. apply IH.
  Qed.
  Lemma insert_agree r v m : im_insert cmp veqb st1 r v m = im_insert cmp veqb st2 r v m.
  Proof.
    unfold im_insert. apply bind_ext; [reflexivity|]. intros _ m1. apply bind_ext; [reflexivity|]. intros m2 m3.
    apply bind_ext; [reflexivity|]. intros l m4. apply bind_ext; [unfold lift; rewrite cands_agree; reflexivity|].
    intros cs m5. apply bind_ext.
    - destruct cs as [|[s sv] [|[s' sv'] cs]]; [reflexivity| |]; apply adjust_insert_agree.
    - intros a m6. apply bind_ext; [reflexivity|]. intros m7 m8. apply bind_ext; [apply insert_loop_agree|].
      reflexivity.
  Qed.
  Lemma adjust_remove_agree s (sv : V) r m :
    im_adjust_overlapping_ranges_for_remove cmp st1 s sv r m =
    im_adjust_overlapping_ranges_for_remove cmp st2 s sv r m.
  Proof.
    unfold im_adjust_overlapping_ranges_for_remove.
    apply bind_ext; [reflexivity|]. intros _ m1.
    apply bind_ext; [|intros _ m2].
    - destruct (ltb cmp (ri_start s) (ri_start r)) eqn:E; [|reflexivity].
      rewrite (Hsub _ _ E). reflexivity.
    - destruct (gtb cmp (ri_end s) (ri_end r)) eqn:E; [|reflexivity]. unfold gtb in E.
      rewrite (Hadd _ _ E). reflexivity.
  Qed.
  Lemma remove_loop_agree fuel : forall r e (m : imap K V),
    im_remove_loop cmp st1 fuel r e m = im_remove_loop cmp st2 fuel r e m.
  Proof.
    induction fuel as [|fuel IH]; intros r e m; [reflexivity|]. cbn [im_remove_loop].
    apply bind_ext; [reflexivity|]. intros m1 m2. apply bind_ext; [reflexivity|]. intros l m3.
    destruct (fst (it_next l)) as [[s sv]|]; [|reflexivity].
    apply bind_ext; [apply adjust_remove_agree|]. intros _ m4. apply IH.
  Qed.
  Lemma remove_agree r (m : imap K V) : im_remove cmp st1 r m = im_remove cmp st2 r m.
  Proof.
    unfold im_remove. apply bind_ext; [reflexivity|]. intros _ m1. apply bind_ext; [reflexivity|]. intros m2 m3.
    apply bind_ext; [reflexivity|]. intros l m4. apply bind_ext.
    - destruct (last_opt l) as [[s sv]|]; [|reflexivity]. destruct (ri_overlaps cmp s r); [|reflexivity].
      apply adjust_remove_agree.
    - intros _ m5. apply bind_ext; [reflexivity|]. intros m6 m7. apply remove_loop_agree.
  Qed.
  Lemma extend_agree l : forall m, im_extend cmp veqb st1 l m = im_extend cmp veqb st2 l m.
  Proof.
    induction l as [|e l IH]; intros m; [reflexivity|]. unfold im_extend in *. cbn [for_each].
    apply bind_ext; [apply insert_agree|]. intros _ m1. apply IH.
  Qed.
  Lemma exec_agree o m : im_exec cmp veqb st1 o m = im_exec cmp veqb st2 o m.
  Proof. destruct o; [apply insert_agree|apply remove_agree|reflexivity|apply extend_agree]. Qed.
  Lemma run_agree ops : im_run cmp veqb st1 ops = im_run cmp veqb st2 ops.
  Proof.
    unfold im_run, run_ops. generalize (@im_new K V). induction ops as [|o ops IH]; intros m; [reflexivity|].
    cbn [fold_left]. rewrite exec_agree. apply IH.
  Qed.
  Lemma visit_seq_agree {E} (l : list (E + (K * K) * V)) : forall m,
    im_visit_seq cmp veqb st1 l m = im_visit_seq cmp veqb st2 l m.
  Proof.
    induction l as [|[e|[[s e] v]] l IH]; intros m; try reflexivity. cbn [im_visit_seq].
    apply bind_ext; [apply insert_agree|]. intros _ m1. apply IH.
  Qed.
  Lemma deserialize_agree {E} (l : list (E + (K * K) * V)) :
    im_deserialize cmp veqb st1 l = im_deserialize cmp veqb st2 l.
  Proof. unfold im_deserialize. rewrite visit_seq_agree. reflexivity. Qed.

  (** [gaps] relies on the entries being ascending *)
  Definition gJ (needs : bool) (cand : K) (l : imap K V) : Prop :=
    ascendingi cmp l /\ (needs = true -> forall e, In e l -> ltb cmp cand (ri_start (fst e)) = true).
  Lemma gpi_loop_agree qend l : forall needs cand, gJ needs cand l ->
    gpi_loop cmp st1 needs cand qend l = gpi_loop cmp st2 needs cand qend l.
  Proof.
    induction l as [|[o w] l IH]; intros needs cand [HA HN]; [reflexivity|]. cbn [gpi_loop].
    destruct (ltb cmp qend (ri_start o)); [reflexivity|].
    assert (HA' : gJ true (ri_end o) l).
    { apply StronglySorted_inv in HA as [HA HF]. split; [exact HA|]. intros _ e He.
      rewrite Forall_forall in HF. apply HF. exact He. }
    assert (E : (if needs then step_o (add_one st1 cand) else Ret cand) =
                (if needs then step_o (add_one st2 cand) else Ret cand)).
    { destruct needs; [|reflexivity]. f_equal. apply (Hadd cand (ri_start o)).
      apply (HN eq_refl (o, w)). left; reflexivity. }
    rewrite E. destruct (if needs then step_o (add_one st2 cand) else Ret cand); try reflexivity.
    destruct (ltb cmp a (ri_start o)) eqn:E2; [|apply IH; exact HA'].
    rewrite (Hsub _ _ E2). reflexivity.
  Qed.
  Context (HO : TotalOrd cmp).
  Lemma gpi_loop_J st qend l : forall needs cand, gJ needs cand l ->
    (forall e, In e l -> leb cmp (ri_start (fst e)) (ri_end (fst e)) = true) ->
    let '(o, needs', cand', l') := gpi_loop cmp st needs cand qend l in
    ascendingi cmp l' /\ (forall e, In e l' -> In e l) /\
    (o = Ret None -> forall e, In e l' -> ltb cmp qend (ri_start (fst e)) = true) /\
    (o <> Ret None -> gJ needs' cand' l').
  Proof.
    induction l as [|[o w] l IH]; intros needs cand [HA HN] HV; cbn [gpi_loop].
    - refine (conj HA (conj _ (conj _ _))); [intros e []|intros _ e []|]. intros _. split; [exact HA|intros _ e []].
    - pose proof HA as HA0. apply StronglySorted_inv in HA as [HA HF]. rewrite Forall_forall in HF.
      assert (HA' : gJ true (ri_end o) l).
      { split; [exact HA|]. intros _ e He. apply HF. exact He. }
      pose proof (HV (o, w) (or_introl eq_refl)) as Hv. cbn in Hv.
      destruct (ltb cmp qend (ri_start o)) eqn:E.
      + refine (conj HA (conj _ (conj _ _))); [intros e He; right; exact He| |intros N; destruct N; reflexivity].
        intros _ e He. specialize (HF e He). cbn in HF. ord.
      + assert (HV' : forall e, In e l -> leb cmp (ri_start (fst e)) (ri_end (fst e)) = true)
          by (intros e He; apply HV; right; exact He).
        assert (Hin : forall e, In e l -> In e ((o, w) :: l)) by (intros e He; right; exact He).
        destruct (if needs then step_o (add_one st cand) else Ret cand) as [a|p|].
        * destruct (ltb cmp a (ri_start o)).
          -- refine (conj HA (conj Hin (conj _ (fun _ => HA')))).
             destruct (sub_one st (ri_start o)); discriminate.
          -- specialize (IH true (ri_end o) HA' HV').
             destruct (gpi_loop cmp st true (ri_end o) qend l) as [[[o' n'] c'] l'].
             destruct IH as (I1 & I2 & I3 & I4). refine (conj I1 (conj _ (conj I3 I4))). intros e He. right; auto.
        * refine (conj HA (conj Hin (conj _ (fun _ => HA')))). discriminate.
        * refine (conj HA (conj Hin (conj _ (fun _ => HA')))). discriminate.
  Qed.
  Definition gJs (g : gapsi K V) : Prop :=
    gJ (gpi_needs_plus_one g) (gpi_candidate_start g) (gpi_iter g) /\
    (forall e, In e (gpi_iter g) -> leb cmp (ri_start (fst e)) (ri_end (fst e)) = true).
  Lemma gpi_next_agree g : gJs g -> gpi_next cmp st1 g = gpi_next cmp st2 g /\ gJs (snd (gpi_next cmp st1 g)).
  Proof.
    intros [HJ HV]. unfold gpi_next. rewrite <- (gpi_loop_agree _ _ _ _ HJ).
    pose proof (gpi_loop_J st1 (gpi_query_end g) (gpi_iter g) _ _ HJ HV) as H.
    destruct (gpi_loop cmp st1 _ _ _ _) as [[[o needs] cand] l]. destruct H as (I1 & I2 & I3 & I4).
    assert (HV' : forall e, In e l -> leb cmp (ri_start (fst e)) (ri_end (fst e)) = true) by auto.
    destruct o as [[r|]|p|].
    - split; [reflexivity|]. split; [apply I4; discriminate|exact HV'].
    - assert (HJ' : gJs (mkGapsI true (gpi_query_end g) (gpi_query_end g) l)).
      { split; [split|]; cbn; auto. }
      destruct needs.
      + destruct (ltb cmp cand (gpi_query_end g)) eqn:E; [|split; [reflexivity|exact HJ']].
        rewrite (Hadd _ _ E). split; [reflexivity|exact HJ'].
      + destruct (leb cmp cand (gpi_query_end g)); (split; [reflexivity|exact HJ']).
    - split; [reflexivity|]. split; [apply I4; discriminate|exact HV'].
    - split; [reflexivity|]. split; [apply I4; discriminate|exact HV'].
  Qed.
  Lemma gaps_agree n : forall g, gJs g ->
    nexts_m (gpi_next cmp st1) n g = nexts_m (gpi_next cmp st2) n g.
  Proof.
    induction n as [|n IH]; intros g HJ; [reflexivity|]. cbn [nexts_m].
    destruct (gpi_next_agree g HJ) as [E HJ']. rewrite <- E.
    destruct (gpi_next cmp st1 g) as [o g']. f_equal. apply IH. exact HJ'.
  Qed.
End Agree.

Section Props.
  Context {K V : Type} {cmp : K -> K -> comparison} {veqb : V -> V -> bool} {st : stepfns K}.
  Context (HO : TotalOrd cmp) (HS : StepLaws cmp st) (HV : PartialEquiv veqb).

  Notation run := (im_run cmp veqb st).
  Notation valid := (valid_rangei cmp).
  Notation covers := (in_rangei cmp).
  Notation spec := (spec_run (V := V) valid covers).
  Notation spec1 := (spec_op (V := V) valid covers).
  Notation entry := (rangei K * V)%type.
  Notation s0 e := (ri_start (fst e)).
  Notation e0 e := (ri_end (fst e)).
  Notation exec := (im_exec cmp veqb st).
  Notation ins l := (map (fun e : entry => OInsert (fst e) (snd e)) l).
  Notation WFi := (@WFi K (cut K) V (cmp_cut cmp st) veqb Before After).
  Notation lki := (@lki K V cmp).
  Notation osame := (same_opt veqb).
  Notation HC := (cuts cmp st HO HS).
  Notation HO' := (cut_order cmp st HO HS).
  Notation Hcov := (cut_cases cmp st HO HS).

  Lemma irun_WF ops : fresh_ops ops -> WFi (run ops).
  Proof. exact (run_iWF HC HO' HV ops). Qed.
  Lemma irun_get ops k : fresh_ops ops -> im_get cmp (run ops) k = Ret (lki (run ops) k).
  Proof. intros H. apply (get_iok HC HO' _ _ (irun_WF ops H)). Qed.
  Lemma irun_get_spec ops : fresh_ops ops -> forall k,
    exists o, im_get cmp (run ops) k = Ret o /\ osame o (spec ops k).
  Proof.
    intros H k. eexists. split; [apply irun_get; exact H|]. apply (run_ilk HC HO' HV); exact H.
  Qed.
  Lemma irun_get_spec_eq (Heq : forall a b, veqb a b = true -> a = b) ops : fresh_ops ops -> forall k,
    im_get cmp (run ops) k = Ret (spec ops k).
  Proof.
    intros H k. rewrite irun_get by exact H. f_equal.
    pose proof (run_ilk HC HO' HV ops k H) as S. destruct (lki (run ops) k), (spec ops k); try contradiction; auto.
    destruct S as [-> | S]; [reflexivity|f_equal; auto].
  Qed.
  Lemma iinsert_read_back ops r v k : fresh_ops ops -> ri_exhausted r = false ->
    valid r = true -> covers r k = true ->
    im_get cmp (run (ops ++ [OInsert r v])) k = Ret (Some v).
  Proof.
    intros H Hr Hv Hk. rewrite run_isnoc. cbn [im_exec].
    destruct (insert_iok HC HO' HV r v _ Hr (irun_WF ops H) Hv) as (m1 & -> & HW & _ & _ & Hx & _). cbn [snd].
    rewrite (get_iok HC HO' _ _ HW). f_equal. apply Hx. exact Hk.
  Qed.
  Lemma iinsert_outcome ops r v : fresh_ops ops -> ri_exhausted r = false ->
    if valid r
    then exists m', im_insert cmp veqb st r v (run ops) = (Ret tt, m') /\
           forall k, exists o, im_get cmp m' k = Ret o /\
             osame o (if covers r k then Some v else spec ops k)
    else im_insert cmp veqb st r v (run ops) = (Panicked PAssert, run ops).
  Proof.
    intros H Hr. destruct (valid r) eqn:E; [|apply (insert_ipanic HC HO'); exact E].
    destruct (insert_iok HC HO' HV r v _ Hr (irun_WF ops H) E) as (m' & H1 & H2 & H3 & _).
    exists m'. split; [exact H1|]. intros k. eexists. split; [apply (get_iok HC HO' _ _ H2)|].
    eapply (osame_trans HV); [apply H3|].
    destruct (covers r k); [apply osame_refl|apply (run_ilk HC HO' HV); exact H].
  Qed.
  Lemma iremove_outcome ops r : fresh_ops ops ->
    if valid r
    then exists m', im_remove cmp st r (run ops) = (Ret tt, m') /\
           forall k, exists o, im_get cmp m' k = Ret o /\
             osame o (if covers r k then None else spec ops k)
    else im_remove cmp st r (run ops) = (Panicked PAssert, run ops).
  Proof.
    intros H. destruct (valid r) eqn:E; [|apply (remove_ipanic HC HO'); exact E].
    destruct (remove_iok HC HO' r _ (irun_WF ops H) E) as (m' & H1 & H2 & H3 & _).
    exists m'. split; [exact H1|]. intros k. eexists. split; [apply (get_iok HC HO' _ _ H2)|].
    rewrite H3. destruct (covers r k); [apply osame_refl|apply (run_ilk HC HO' HV); exact H].
  Qed.
  Lemma iiter_valid_ascending ops : fresh_ops ops ->
    ascendingi cmp (im_iter (run ops)) /\
    (forall r v, In (r, v) (im_iter (run ops)) -> valid r = true /\ ri_exhausted r = false).
  Proof.
    intros H. pose proof (irun_WF ops H) as HW. split; [apply (WFi_ascending HC HO' _ HW)|].
    intros r v Hin. split; [apply (WFi_valid HC HO' _ r v HW Hin)|apply (proj1 HW (r, v) Hin)].
  Qed.
  Lemma iiter_coalesced ops : fresh_ops ops -> coalescedi cmp veqb (im_iter (run ops)).
  Proof. intros H. apply (WFi_coalesced HC HO' _ (irun_WF ops H)). Qed.
  Lemma iiter_describes ops : fresh_ops ops ->
    represents covers veqb (im_iter (run ops)) (spec ops) /\
    describes covers veqb (im_iter (run ops)) (spec ops).
  Proof.
    intros Hf. pose proof (irun_WF ops Hf) as HW. split; intros k; pose proof (run_ilk HC HO' HV ops k Hf) as H.
    - destruct (lki (run ops) k) as [w|] eqn:E.
      + destruct (spec ops k) as [v|]; [|destruct H]. destruct (lki_In _ _ _ E) as (r & R1 & R2).
        exists r, w. auto.
      + destruct (spec ops k); [destruct H|]. intros r v Hin. apply (proj1 (lki_None _ _) E r v Hin).
    - split.
      + intros r v Hin Hc. rewrite (lki_WF_In HC HO' _ r v k HW Hin Hc) in H. exact H.
      + intros Hn. destruct (lki (run ops) k) as [w|] eqn:E.
        * destruct (lki_In _ _ _ E) as (r & R1 & R2). exists r, w. auto.
        * destruct (spec ops k); [destruct H|congruence].
  Qed.
  Lemma iget_iff ops k r v : fresh_ops ops ->
    im_get_key_value cmp (run ops) k = Ret (Some (r, v)) <->
    In (r, v) (im_iter (run ops)) /\ covers r k = true.
  Proof. intros H. apply (get_key_value_iiff HC HO' _ k r v (irun_WF ops H)). Qed.
  Lemma iget_none ops k : fresh_ops ops ->
    im_get_key_value cmp (run ops) k = Ret None <->
    (forall r v, In (r, v) (im_iter (run ops)) -> covers r k = false).
  Proof. intros H. apply (get_key_value_inone HC HO' _ k (irun_WF ops H)). Qed.
  Lemma igets_agree ops k : fresh_ops ops -> exists o,
    im_get_key_value cmp (run ops) k = Ret o /\
    im_get cmp (run ops) k = Ret (option_map snd o) /\
    im_contains_key cmp (run ops) k = Ret (match o with Some _ => true | None => false end).
  Proof. intros H. apply (get_itotal HC HO' _ k (irun_WF ops H)). Qed.
  Lemma iiter_unique ops k r v r' v' : fresh_ops ops ->
    In (r, v) (im_iter (run ops)) -> In (r', v') (im_iter (run ops)) ->
    covers r k = true -> covers r' k = true -> (r, v) = (r', v').
  Proof.
    intros H H1 H2 H3 H4. exact (WFi_unique HC HO' _ (r, v) (r', v') k (irun_WF ops H) H1 H2 H3 H4).
  Qed.
  Lemma irun_maximal ops k r v r' : fresh_ops ops ->
    im_get_key_value cmp (run ops) k = Ret (Some (r, v)) ->
    leb cmp (ri_start r') (ri_start r) = true -> leb cmp (ri_end r) (ri_end r') = true ->
    (forall k', covers r' k' = true -> covers r k' = false ->
       exists w, im_get cmp (run ops) k' = Ret (Some w) /\ veqb v w = true) ->
    eqb cmp (ri_start r') (ri_start r) = true /\ eqb cmp (ri_end r') (ri_end r) = true.
  Proof.
    intros Hf H H1 H2 H3. apply (iget_iff _ _ _ _ Hf) in H as [H _].
    apply (imaximal_run HC HO' HV Hcov (run ops) r v r' (irun_WF ops Hf) H H1 H2).
    intros k' A1 A2. destruct (H3 k' A1 A2) as (w & B1 & B2). exists w. split; [|exact B2].
    rewrite irun_get in B1 by exact Hf. congruence.
  Qed.
  Lemma irun_constant ops k r v k' : fresh_ops ops ->
    im_get_key_value cmp (run ops) k = Ret (Some (r, v)) -> covers r k' = true ->
    im_get cmp (run ops) k' = Ret (Some v).
  Proof.
    intros Hf H Hk. apply (iget_iff _ _ _ _ Hf) in H as [H _].
    rewrite irun_get by exact Hf. f_equal. apply (lki_WF_In HC HO' _ r v k' (irun_WF ops Hf) H Hk).
  Qed.
  Lemma irun_eqb_spec (Hrefl : forall v, veqb v v = true) ops1 ops2 : fresh_ops ops1 -> fresh_ops ops2 ->
    im_eqb cmp veqb (run ops1) (run ops2) = true <-> (forall k, osame (spec ops1 k) (spec ops2 k)).
  Proof.
    intros H1 H2. rewrite (eqb_iextensional HC HO' HV Hcov Hrefl _ _ (irun_WF ops1 H1) (irun_WF ops2 H2)).
    split; intros H k; specialize (H k);
      pose proof (run_ilk HC HO' HV ops1 k H1) as A; pose proof (run_ilk HC HO' HV ops2 k H2) as B.
    - eapply (osame_trans HV); [apply (osame_sym HV); exact A|].
      eapply (osame_trans HV); [exact H|exact B].
    - eapply (osame_trans HV); [exact A|]. eapply (osame_trans HV); [exact H|]. apply (osame_sym HV); exact B.
  Qed.
  Lemma irun_eqb_get (Hrefl : forall v, veqb v v = true) ops1 ops2 : fresh_ops ops1 -> fresh_ops ops2 ->
    im_eqb cmp veqb (run ops1) (run ops2) = true <->
    (forall k, exists a b, im_get cmp (run ops1) k = Ret a /\ im_get cmp (run ops2) k = Ret b /\ osame a b).
  Proof.
    intros H1 H2. rewrite (eqb_iextensional HC HO' HV Hcov Hrefl _ _ (irun_WF ops1 H1) (irun_WF ops2 H2)).
    split; intros H k.
    - exists (lki (run ops1) k), (lki (run ops2) k). rewrite !irun_get by assumption. auto.
    - destruct (H k) as (a & b & A & B & S). rewrite irun_get in A, B by assumption. congruence.
  Qed.
  Lemma fresh_app (a b : list (op (rangei K) V)) : fresh_ops (a ++ b) <-> fresh_ops a /\ fresh_ops b.
  Proof. unfold fresh_ops. rewrite forallb_app, andb_true_iff. reflexivity. Qed.
  Lemma ilaw (Hrefl : forall v, veqb v v = true) ops a b :
    fresh_ops ops -> fresh_ops a -> fresh_ops b ->
    (forall f k, fold_left spec1 a f k = fold_left spec1 b f k) ->
    im_eqb cmp veqb (run (ops ++ a)) (run (ops ++ b)) = true.
  Proof.
    intros H0 Ha Hb H. apply (irun_eqb_spec Hrefl); try (apply fresh_app; auto).
    intros k. unfold spec_run. rewrite !fold_left_app. fold (spec ops). rewrite H. apply osame_refl.
  Qed.
  Lemma invalid_covers r k : valid r = false -> covers r k = false.
  Proof. unfold valid_rangei, in_rangei. intros H. ord. Qed.

  Lemma irun_gaps ops outer : fresh_ops ops ->
    exists g gs, im_gaps cmp (run ops) outer = Ret g /\
      (forall n, nexts_m (gpi_next cmp st) n g = map Ret (yields n gs)) /\
      gapsi_of cmp (spec ops) outer gs.
  Proof.
    intros H. destruct (gaps_iok HC HO' (run ops) outer (irun_WF ops H)) as (g & gs & H1 & H2 & H3 & H4 & H5).
    exists g, gs. refine (conj H1 (conj H2 _)). unfold gapsi_of. refine (conj H3 (conj H4 _)). intros k. rewrite H5.
    pose proof (run_ilk HC HO' HV ops k H) as S.
    destruct (lki (run ops) k), (spec ops k); try contradiction; split; intros [A B]; split; auto; discriminate.
  Qed.
  Lemma gapsi_maximal (f : K -> option V) outer gs : gapsi_of cmp f outer gs ->
    forall g r', In g gs ->
      leb cmp (ri_start r') (ri_start g) = true -> leb cmp (ri_end g) (ri_end r') = true ->
      (forall k, covers r' k = true -> covers outer k = true /\ f k = None) ->
      eqb cmp (ri_start r') (ri_start g) = true /\ eqb cmp (ri_end r') (ri_end g) = true.
  Proof.
    intros (G1 & G2 & G3) g r' Hg Hs He Hr.
    destruct (G1 g Hg) as (_ & Gv & _). unfold valid_rangei in Gv.
    assert (Hcover : forall k, covers r' k = true -> exists x, In x gs /\ covers x k = true).
    { intros k Hk. apply G3. apply Hr. exact Hk. }
    split.
    - destruct (eqb cmp (ri_start r') (ri_start g)) eqn:E; [reflexivity|exfalso].
      assert (Hlt : ltb cmp (ri_start r') (ri_start g) = true) by ord.
      destruct (step_pred _ _ HS _ _ Hlt) as (p & P0 & P1 & P2).
      destruct (Hcover p) as (x & Hx & Hxp); [unfold in_rangei; ord|].
      destruct (G1 x Hx) as (_ & Xv & _). unfold in_rangei, valid_rangei in *.
      destruct (SS_In_cases _ _ _ _ G2 Hx Hg) as [-> |[(k & A & B)|(k & A & B)]]; [ord| |ord].
      destruct (step_pred _ _ HS _ _ B) as (p' & P' & P3 & P4).
      assert (p' = p) by congruence. subst. ord.
    - destruct (eqb cmp (ri_end r') (ri_end g)) eqn:E; [reflexivity|exfalso].
      assert (Hlt : ltb cmp (ri_end g) (ri_end r') = true) by ord.
      destruct (step_succ _ _ HS _ _ Hlt) as (p & P0 & P1 & P2).
      destruct (Hcover p) as (x & Hx & Hxp); [unfold in_rangei; ord|].
      destruct (G1 x Hx) as (_ & Xv & _). unfold in_rangei, valid_rangei in *.
      destruct (SS_In_cases _ _ _ _ G2 Hg Hx) as [-> |[(k & A & B)|(k & A & B)]]; [ord| |ord].
      destruct (step_succ _ _ HS _ _ A) as (p' & P' & P3 & P4).
      assert (p' = p) by congruence. subst. ord.
  Qed.
  Lemma irun_gaps_empty ops outer : fresh_ops ops -> valid outer = false ->
    exists g, im_gaps cmp (run ops) outer = Ret g /\
      forall n, nexts_m (gpi_next cmp st) n g = repeat (Ret None) n.
  Proof.
    intros H Ho. destruct (irun_gaps ops outer H) as (g & gs & H1 & H2 & H3 & _).
    exists g. split; [exact H1|]. intros n. rewrite H2.
    destruct gs as [|x gs].
    - rewrite yields_nil. induction n; cbn; congruence.
    - destruct (H3 x (or_introl eq_refl)) as (_ & A & B & C). unfold valid_rangei in *. exfalso. ord.
  Qed.

  Lemma ioverlapping ops q sched : fresh_ops ops ->
    exists o, im_overlapping cmp (run ops) q = Ret o /\
      map fst (sched_trace (both (ovi_next cmp) (ovi_next_back cmp)) (fun _ => tt) sched o) =
      deque_run sched (filter (fun e => meetsi cmp q (fst e)) (im_iter (run ops))).
  Proof. intros H. apply (overlapping_ischedule HC HO' _ q sched (irun_WF ops H)). Qed.
  Lemma imeets_iff ops q : fresh_ops ops -> valid q = true -> forall e, In e (im_iter (run ops)) ->
    meetsi cmp q (fst e) = true <-> exists k, covers q k = true /\ covers (fst e) k = true.
  Proof.
    intros H Hq [r v] He. apply (meets_share HC HO'); [exact Hq|].
    apply (WFi_valid HC HO' _ r v (irun_WF ops H) He).
  Qed.
  Lemma ioverlaps ops q : fresh_ops ops ->
    im_overlaps cmp (run ops) q = Ret (existsb (fun e => meetsi cmp q (fst e)) (im_iter (run ops))).
  Proof. intros H. apply (overlaps_iok HC HO' _ q (irun_WF ops H)). Qed.
  Lemma icontains ops k : fresh_ops ops -> im_contains_key cmp (run ops) k =
    Ret (match lki (run ops) k with Some _ => true | None => false end).
  Proof. intros H. unfold im_contains_key, omap. rewrite irun_get by exact H. reflexivity. Qed.
  Lemma ioverlaps_exact ops q : fresh_ops ops -> valid q = true ->
    exists b, im_overlaps cmp (run ops) q = Ret b /\
      (b = true <-> exists k, covers q k = true /\ im_contains_key cmp (run ops) k = Ret true).
  Proof.
    intros H Hq. pose proof (irun_WF ops H) as HW. eexists. split; [apply ioverlaps; exact H|].
    rewrite existsb_exists. split.
    - intros ([r v] & He & Hh). apply (imeets_iff ops q H Hq _ He) in Hh as (k & K1 & K2).
      exists k. split; [exact K1|]. rewrite icontains by exact H.
      rewrite (lki_WF_In HC HO' _ r v k HW He K2). reflexivity.
    - intros (k & K1 & K2). rewrite icontains in K2 by exact H.
      destruct (lki (run ops) k) as [v|] eqn:E; [|discriminate].
      destruct (lki_In _ _ _ E) as (r & R1 & R2). exists (r, v). split; [exact R1|].
      apply (imeets_iff ops q H Hq _ R1). exists k. auto.
  Qed.

  Lemma ifirst_last ops : fresh_ops ops ->
    match im_first_range_value (run ops), im_last_range_value (run ops) with
    | None, None => im_is_empty (run ops) = true
    | Some a, Some b =>
        In a (im_iter (run ops)) /\ In b (im_iter (run ops)) /\
        (forall x, In x (im_iter (run ops)) ->
           (x = a \/ ltb cmp (ri_end (fst a)) (ri_start (fst x)) = true) /\
           (x = b \/ ltb cmp (ri_end (fst x)) (ri_start (fst b)) = true)) /\
        (forall k, im_contains_key cmp (run ops) k = Ret true ->
           covers (incl (ri_start (fst a)) (ri_end (fst b))) k = true)
    | _, _ => False
    end.
  Proof.
    intros H. pose proof (irun_WF ops H) as HW.
    pose proof (first_iok HC HO' (run ops) HW) as HF.
    pose proof (last_iok HC HO' (run ops) HW) as HL.
    destruct (im_first_range_value (run ops)) as [a|] eqn:Ea.
    - destruct (im_last_range_value (run ops)) as [b|] eqn:Eb.
      + destruct HF as [F1 F2], HL as [L1 L2]. splits; auto.
        intros k Hk. rewrite icontains in Hk by exact H.
        destruct (lki (run ops) k) as [v|] eqn:E; [|discriminate].
        destruct (lki_In _ _ _ E) as (r & R1 & R2).
        destruct a as [ra va], b as [rb vb].
        pose proof (WFi_valid HC HO' _ _ _ HW F1) as Va. pose proof (WFi_valid HC HO' _ _ _ HW L1) as Vb.
        unfold in_rangei, valid_rangei in *. cbn [ri_start ri_end fst] in *. unfold incl. cbn [ri_start ri_end].
        destruct (F2 _ R1) as [[= <- <-]|H1]; destruct (L2 _ R1) as [[= <- <-]|H2]; cbn [fst] in *; ord.
      + destruct HF as [F1 _]. rewrite HL in F1. destruct F1.
    - rewrite HF. reflexivity.
  Qed.
  Lemma ilen_empty ops : fresh_ops ops ->
    nexts it_next (im_len (run ops)) (im_iter (run ops)) = map Some (im_iter (run ops)) /\
    (im_is_empty (run ops) = true <-> im_len (run ops) = 0) /\
    (im_is_empty (run ops) = true <-> forall k, im_contains_key cmp (run ops) k = Ret false) /\
    im_is_empty (run (ops ++ [OClear])) = true.
  Proof.
    intros H. splits.
    - unfold im_len, im_iter. generalize (run ops). induction i as [|e m IH]; cbn; [reflexivity|].
      rewrite IH. reflexivity.
    - unfold im_is_empty, im_len. destruct (run ops); cbn; split; congruence.
    - rewrite (empty_iiff HC HO' _ (irun_WF ops H)). split.
      + intros A k. rewrite icontains, A by exact H. reflexivity.
      + intros A k. specialize (A k). rewrite icontains in A by exact H. destruct (lki (run ops) k); congruence.
    - rewrite run_isnoc. reflexivity.
  Qed.
  Lemma irun_app ops1 ops2 : run (ops1 ++ ops2) = run_ops exec ops2 (run ops1).
  Proof. unfold im_run, run_ops. apply fold_left_app. Qed.
  Lemma irun_extend ops good bad : fresh_ops ops ->
    (forall e, In e good -> ri_exhausted (fst e) = false) ->
    (forall e, In e good -> valid (fst e) = true) ->
    match bad with [] => True | e :: _ => valid (fst e) = false end ->
    im_extend cmp veqb st (good ++ bad) (run ops) =
      (match bad with [] => Ret tt | _ => Panicked PAssert end, run (ops ++ ins good)).
  Proof.
    intros H H0 H1 H2. rewrite (extend_iprefix HC HO' HV good bad _ H0 H1 H2 (irun_WF ops H)).
    rewrite irun_app. reflexivity.
  Qed.
  Lemma irun_from_iter good bad :
    (forall e, In e good -> ri_exhausted (fst e) = false) ->
    (forall e, In e good -> valid (fst e) = true) ->
    match bad with [] => True | e :: _ => valid (fst e) = false end ->
    im_from_iter cmp veqb st (good ++ bad) =
      match bad with [] => Ret (run (ins good)) | _ => Panicked PAssert end.
  Proof. exact (from_iter_iprefix HC HO' HV good bad). Qed.
  Lemma irun_from_array good bad :
    (forall e, In e good -> ri_exhausted (fst e) = false) ->
    (forall e, In e good -> valid (fst e) = true) ->
    match bad with [] => True | e :: _ => valid (fst e) = false end ->
    im_from_array cmp veqb st (good ++ bad) =
      match bad with [] => Ret (run (ins good)) | _ => Panicked PAssert end.
  Proof. rewrite from_array_ieq. apply irun_from_iter. Qed.

  (** ** serde *)
  Lemma iinsert_append (A : imap K V) e : WFi (A ++ [e]) ->
    im_insert cmp veqb st (fst e) (snd e) A = (Ret tt, A ++ [e]).
  Proof.
    intros HW. destruct e as [r v]. cbn [fst snd].
    pose proof (WFi_valid HC HO' _ r v HW (in_mid A (r, v) [])) as Hr. unfold valid_rangei in Hr.
    pose proof (WFi_ascending HC HO' _ HW) as HAsc. apply SS_app in HAsc as (HA & _ & HAr).
    assert (HAv : forall a, In a A -> leb cmp (s0 a) (e0 a) = true).
    { intros [ra va] Ha. pose proof (WFi_valid HC HO' _ ra va HW (in_or_app _ _ _ (or_introl Ha))) as H.
      unfold valid_rangei in H. cbn. ord. }
    assert (HAe : forall a, In a A -> ltb cmp (e0 a) (ri_start r) = true).
    { intros a Ha. exact (HAr a (r, v) Ha (or_introl eq_refl)). }
    assert (HAs : forall a, In a A -> cmp (ri_start r) (s0 a) = Gt).
    { intros a Ha. specialize (HAv a Ha). specialize (HAe a Ha). ord. }
    assert (Hle : leb cmp (ri_start r) (ri_end r) = true) by ord.
    unfold im_insert. unfold bind at 1, assert_. rewrite Hle. unfold ret at 1.
    unfold bind at 1, get at 1, bind at 1, lift at 1.
    assert (HR : bt_range (cmpi_start cmp) Unbounded (Included r) A = Ret A).
    { unfold bt_range. cbn [bad_bounds]. f_equal. rewrite drop_while_none.
      - apply take_while_all. intros a Ha. specialize (HAs a Ha). cbn. unfold cmpi_start.
        assert (E : cmp (s0 a) (ri_start r) = Lt) by ord. rewrite E. reflexivity.
      - destruct A; cbn; auto. }
    rewrite HR. unfold bind at 1, lift at 1.
    assert (HT : forall a, In a A -> exists s, add_one st (e0 a) = Some s /\ ltb cmp (e0 a) s = true /\
              ri_touches cmp st (fst a) r = Ret (leb cmp (ri_start r) s)).
    { intros a Ha. specialize (HAv a Ha). specialize (HAe a Ha).
      destruct (step_succ _ _ HS _ _ HAe) as (s & S1 & S2 & S3). exists s. splits; auto.
      unfold ri_touches, kmax, kmin.
      assert (E1 : ltb cmp (ri_start r) (s0 a) = false) by ord.
      assert (E2 : ltb cmp (ri_end r) (e0 a) = false) by ord.
      rewrite E1, E2, HAe, S1. reflexivity. }
    assert (Hadj : exists cs, filter_o (fun e => ri_touches cmp st (fst e) r) (firstn 2 (rev A)) = Ret cs /\
              match cs with
              | [] => ret r
              | [(s, sv)] => im_adjust_touching_ranges_for_insert cmp veqb st s sv r v
              | _ :: (s, sv) :: _ => im_adjust_touching_ranges_for_insert cmp veqb st s sv r v
              end A = (Ret r, A)).
    { destruct (rev_cases A) as [-> |(A' & [x xv] & ->)]; [exists []; split; reflexivity|].
      rewrite rev_app_distr. cbn [rev app firstn].
      assert (Hx : In (x, xv) (A' ++ [(x, xv)])) by apply in_mid.
      destruct (HT _ Hx) as (s & S1 & S2 & S3). cbn [fst] in S1, S2, S3.
      pose proof (HAv _ Hx) as Xv. pose proof (HAe _ Hx) as Xe. cbn [fst] in Xv, Xe.
      assert (Hadj : leb cmp (ri_start r) s = true ->
        im_adjust_touching_ranges_for_insert cmp veqb st x xv r v (A' ++ [(x, xv)]) = (Ret r, A' ++ [(x, xv)])).
      { intros T. unfold im_adjust_touching_ranges_for_insert.
        assert (Ev : veqb xv v = false).
        { destruct (veqb xv v) eqn:Ev; [exfalso|reflexivity].
          destruct (WFi_coalesced HC HO' _ HW (x, xv) (r, v)) as (k & K1 & K2); auto.
          - apply in_or_app; left; exact Hx.
          - apply in_mid.
          - cbn in K1, K2. destruct (step_succ _ _ HS _ _ K1) as (s' & S4 & S5 & S6).
            assert (s' = s) by congruence. subst. ord. }
        rewrite Ev.
        assert (E : ri_overlaps cmp r x = false).
        { unfold ri_overlaps, kmax, kmin.
          destruct (ltb cmp (ri_start x) (ri_start r)) eqn:?, (ltb cmp (ri_end x) (ri_end r)) eqn:?; ord. }
        rewrite E. reflexivity. }
      destruct (rev A') as [|[y yv] rA] eqn:ER.
      - cbn [filter_o fst obind]. rewrite S3. cbn [obind]. eexists. split; [reflexivity|].
        destruct (leb cmp (ri_start r) s) eqn:T; [apply Hadj; reflexivity|reflexivity].
      - assert (Hy0 : In (y, yv) A') by (apply in_rev; rewrite ER; left; reflexivity).
        assert (Hy : In (y, yv) (A' ++ [(x, xv)])) by (apply in_or_app; left; exact Hy0).
        destruct (HT _ Hy) as (t & T1 & T2 & T3). cbn [fst] in T1, T2, T3.
        apply SS_app in HA as (_ & _ & HA'x).
        pose proof (HA'x (y, yv) (x, xv) Hy0 (or_introl eq_refl)) as Hyx. cbn in Hyx.
        destruct (step_succ _ _ HS _ _ Hyx) as (t' & T4 & T5 & T6).
        assert (t' = t) by congruence. subst t'.
        assert (Ty : leb cmp (ri_start r) t = false) by ord.
        cbn [filter_o fst obind firstn]. rewrite S3, T3. cbn [obind]. rewrite Ty.
        eexists. split; [reflexivity|].
        destruct (leb cmp (ri_start r) s) eqn:T; [apply Hadj; reflexivity|reflexivity]. }
    destruct Hadj as (cs & -> & Hadj). unfold bind at 1. rewrite Hadj. unfold bind at 1, get at 1, bind at 1.
    replace (length A + 2) with (S (length A + 1)) by nlia. cbn [im_insert_loop].
    unfold bind at 1, get at 1, bind at 1, lift at 1.
    assert (HR2 : bt_range (cmpi_start cmp) (Included r) Unbounded A = Ret []).
    { unfold bt_range. cbn [bad_bounds]. f_equal.
      rewrite drop_while_all; [reflexivity|]. intros a Ha. specialize (HAs a Ha). cbn. unfold cmpi_start.
      assert (E : cmp (s0 a) (ri_start r) = Lt) by ord. rewrite E. reflexivity. }
    rewrite HR2. cbn [it_next fst]. unfold ret, modify. f_equal.
    apply bt_insert_last. intros a Ha. apply HAs. exact Ha.
  Qed.
  Lemma WFi_app_l A B : WFi (A ++ B) -> WFi A.
  Proof.
    intros [H1 H2]. split; [intros e He; apply H1; apply in_or_app; auto|].
    unfold encm in H2. rewrite map_app in H2. apply WF_app in H2. apply H2.
  Qed.
  Lemma iinsert_all_app (l : imap K V) : forall A, WFi (A ++ l) -> run_ops exec (ins l) A = A ++ l.
  Proof.
    induction l as [|e l IH]; intros A HW; [rewrite app_nil_r; reflexivity|].
    cbn [map run_ops fold_left im_exec].
    change (e :: l) with ([e] ++ l) in *. rewrite app_assoc in HW.
    rewrite (iinsert_append A e (WFi_app_l _ _ HW)). cbn [snd]. rewrite app_assoc.
    apply (IH (A ++ [e])). exact HW.
  Qed.
  Lemma iround_trip (E : Type) m : WFi m ->
    im_deserialize (E := E) cmp veqb st (map inr (snd (im_serialize m))) = Ret (inr m).
  Proof.
    intros HW. unfold im_serialize, im_iter. cbn [snd].
    rewrite <- (app_nil_r (map inr _)).
    rewrite (deserialize_iprefix HC HO' HV (E := E) (map (fun e : entry => (s0 e, e0 e, snd e)) m) []); auto.
    - do 2 f_equal. rewrite map_map. cbn [fst snd].
      rewrite <- (iinsert_all_app m []) at 2 by exact HW. unfold im_run. f_equal.
      apply map_ext_in. intros [[s e x] v] Hin. pose proof (proj1 HW _ Hin) as Hx. cbn in Hx. subst. reflexivity.
    - intros s e v Hin. apply in_map_iff in Hin as ([r w] & [= <- <- <-] & Hin).
      pose proof (WFi_valid HC HO' _ r w HW Hin) as H. unfold valid_rangei in H. cbn. ord.
  Qed.
  Lemma irun_round_trip (E : Type) ops : fresh_ops ops ->
    im_deserialize (E := E) cmp veqb st (map inr (snd (im_serialize (run ops)))) = Ret (inr (run ops)) /\
    fst (im_serialize (run ops)) = Some (length (snd (im_serialize (run ops)))).
  Proof.
    intros H. split; [apply iround_trip, irun_WF, H|]. unfold im_serialize. cbn. rewrite map_length. reflexivity.
  Qed.
  Lemma irun_deserialize (E : Type) good (rest : list (E + (K * K) * V)) :
    (forall s e v, In (s, e, v) good -> leb cmp s e = true) ->
    match rest with inr ((s, e), v) :: _ => leb cmp s e = false | _ => True end ->
    im_deserialize cmp veqb st (map inr good ++ rest) =
    match rest with
    | [] => Ret (inr (run (map (fun x => OInsert (incl (fst (fst x)) (snd (fst x))) (snd x)) good)))
    | inl err :: _ => Ret (inl err)
    | inr _ :: _ => Panicked PAssert
    end.
  Proof. exact (deserialize_iprefix HC HO' HV good rest). Qed.

  (** ** Hash, Ord *)
  Definition ientry_eq (x y : entry) : Prop :=
    eqb cmp (s0 x) (s0 y) = true /\ eqb cmp (e0 x) (e0 y) = true /\
    ri_exhausted (fst x) = ri_exhausted (fst y) /\ veqb (snd x) (snd y) = true.
  Lemma im_eqb_Forall2 a b : im_eqb cmp veqb a b = true <-> Forall2 ientry_eq a b.
  Proof.
    unfold im_eqb, im_iter. revert b. induction a as [|x a IH]; intros [|y b]; cbn; split; intros H;
      try discriminate; try constructor; try (inversion H; fail).
    - rewrite !andb_true_iff in H. unfold ri_eqb in H. rewrite !andb_true_iff in H. unfold ientry_eq.
      rewrite <- (Bool.eqb_true_iff (ri_exhausted (fst x))). tauto.
    - apply IH. rewrite andb_true_iff in H. apply H.
    - inversion H as [|? ? ? ? (H1 & H2 & H3 & H4) HF]; subst. apply andb_true_iff. split; [|apply IH; exact HF].
      unfold ri_eqb. rewrite H1, H2, H3, H4, Bool.eqb_reflx. reflexivity.
  Qed.
  Lemma ihash_eq {T} (hk : K -> list T) (hb : bool -> list T) (hv : V -> list T) a b :
    (forall x y, eqb cmp x y = true -> hk x = hk y) ->
    (forall x y, veqb x y = true -> hv x = hv y) ->
    im_eqb cmp veqb a b = true -> im_hash hk hb hv a = im_hash hk hb hv b.
  Proof.
    intros Hk Hv H. apply im_eqb_Forall2 in H. unfold im_hash, im_iter. f_equal.
    - f_equal. induction H; cbn; congruence.
    - induction H as [|x y a b (H1 & H2 & H3 & H4) HF IH]; cbn; [reflexivity|].
      rewrite (Hk _ _ H1), (Hk _ _ H2), H3, (Hv _ _ H4), IH. reflexivity.
  Qed.
  Lemma ihash_inj {T} (hk : K -> list T) (hb : bool -> list T) (hv : V -> list T) a b :
    (forall x y s t, hk x ++ s = hk y ++ t -> eqb cmp x y = true /\ hk x = hk y) ->
    (forall x y s t, hb x ++ s = hb y ++ t -> x = y) ->
    (forall x y s t, hv x ++ s = hv y ++ t -> veqb x y = true /\ hv x = hv y) ->
    forall s t, im_hash hk hb hv a ++ s = im_hash hk hb hv b ++ t ->
    im_eqb cmp veqb a b = true /\ im_hash hk hb hv a = im_hash hk hb hv b.
  Proof.
    intros Hk Hb Hv s t H.
    enough (G : Forall2 ientry_eq a b /\ im_hash hk hb hv a = im_hash hk hb hv b)
      by (split; [apply im_eqb_Forall2|]; apply G).
    unfold im_hash, im_iter in *. cbn [app] in H. injection H as Hl H. rewrite Hl.
    match type of H with flat_map ?f _ ++ _ = _ =>
      enough (G : Forall2 ientry_eq a b /\ flat_map f a = flat_map f b) by (split; [|f_equal]; apply G) end.
    revert b Hl H. induction a as [|x a IH]; intros [|y b] Hl H; cbn in Hl; try discriminate; [split; constructor|].
    cbn [flat_map] in H |- *. rewrite !map_app, <- !app_assoc in H.
    destruct (map_HUser_inj _ _ _ _ H) as (s1 & t1 & E1 & _).
    destruct (Hk _ _ _ _ E1) as [K1 K2]. rewrite K2 in H. apply app_inv_head in H.
    destruct (map_HUser_inj _ _ _ _ H) as (s2 & t2 & E2 & _).
    destruct (Hk _ _ _ _ E2) as [K3 K4]. rewrite K4 in H. apply app_inv_head in H.
    destruct (map_HUser_inj _ _ _ _ H) as (s3 & t3 & E3 & _).
    pose proof (Hb _ _ _ _ E3) as K5. rewrite K5 in H. apply app_inv_head in H.
    destruct (map_HUser_inj _ _ _ _ H) as (s4 & t4 & E4 & _).
    destruct (Hv _ _ _ _ E4) as [K6 K7]. rewrite K7 in H. apply app_inv_head in H.
    destruct (IH b) as [G1 G2]; [congruence|exact H|]. rewrite K2, K4, K5, K7, G2.
    split; [constructor; [unfold ientry_eq; auto|exact G1]|reflexivity].
  Qed.
  Lemma im_cmp_order (vcmp : V -> V -> comparison) : TotalOrd vcmp -> TotalOrd (@im_cmp K V cmp vcmp).
  Proof.
    intros HVO. pose proof (lex_order (triple_order HO HVO)) as H. unfold im_cmp. split.
    - intros x. apply (ord_refl _ H).
    - intros x y. apply (ord_dual _ H).
    - intros o x y z. apply (ord_trans _ H).
  Qed.
  Lemma im_cmp_Eq (vcmp : V -> V -> comparison) a b : fresh a -> fresh b ->
    (forall x y, vcmp x y = Eq <-> veqb x y = true) ->
    im_cmp cmp vcmp a b = Eq <-> im_eqb cmp veqb a b = true.
  Proof.
    intros Fa Fb Hv. rewrite im_eqb_Forall2. unfold im_cmp. rewrite lex_Eq. unfold im_expanded_iter.
    assert (Ec : forall x y, cmp x y = Eq <-> eqb cmp x y = true).
    { intros x y. unfold Order.eqb. destruct (cmp x y); split; congruence. }
    revert b Fb. induction a as [|x a IH]; intros [|y b] Fb; cbn; split; intros H; try constructor; try (inversion H; fail).
    - inversion H as [|? ? ? ? H1 H2]; subst. apply triple_Eq in H1. cbn in H1.
      rewrite !Ec, Hv in H1. unfold ientry_eq. rewrite (Fa x), (Fb y) by (left; reflexivity). tauto.
    - inversion H; subst. apply IH; [|intros e He; apply Fb; right; exact He|assumption].
      intros e He; apply Fa; right; exact He.
    - inversion H as [|? ? ? ? H1 H2]; subst. apply triple_Eq. cbn. rewrite !Ec, Hv.
      unfold ientry_eq in H1. tauto.
    - inversion H; subst. apply IH; [|intros e He; apply Fb; right; exact He|assumption].
      intros e He; apply Fa; right; exact He.
  Qed.
  Lemma irun_ord (vcmp : V -> V -> comparison) : TotalOrd vcmp ->
    (forall x y, vcmp x y = Eq <-> veqb x y = true) ->
    TotalOrd (@im_cmp K V cmp vcmp) /\
    (forall ops1 ops2, fresh_ops ops1 -> fresh_ops ops2 ->
       (im_cmp cmp vcmp (run ops1) (run ops2) = Eq <-> im_eqb cmp veqb (run ops1) (run ops2) = true) /\
       (im_cmp cmp vcmp (run ops1) (run ops2) = Eq <-> forall k, osame (spec ops1 k) (spec ops2 k))).
  Proof.
    intros HVO Hv. split; [apply im_cmp_order; exact HVO|]. intros ops1 ops2 H1 H2.
    rewrite (im_cmp_Eq vcmp _ _ (proj1 (irun_WF ops1 H1)) (proj1 (irun_WF ops2 H2)) Hv).
    split; [reflexivity|]. apply irun_eqb_spec; auto. intros v. apply Hv, (ord_refl _ HVO).
  Qed.
  Lemma im_partial_cmp_total (vcmp : V -> V -> comparison) pcmp vpcmp a b :
    (forall x y, pcmp x y = Some (cmp x y)) -> (forall x y, vpcmp x y = Some (vcmp x y)) ->
    im_partial_cmp pcmp vpcmp a b = Some (im_cmp cmp vcmp a b).
  Proof.
    intros H1 H2. unfold im_partial_cmp, im_cmp. apply lex_pcmp_total.
    intros [[x y] v] [[x' y'] v']. unfold triple_pcmp, triple_cmp. rewrite !H1, !H2.
    destruct (cmp x x'); auto. destruct (cmp y y'); auto.
  Qed.

  (** ** Search by end *)
  Lemma cmpi_start_order : TotalOrd (cmpi_start cmp).
  Proof.
    split; unfold cmpi_start; intros; [apply (ord_refl _ HO)|apply (ord_dual _ HO)|].
    eapply (ord_trans _ HO); eauto.
  Qed.
  Lemma cmpi_end_order : TotalOrd (cmpi_end cmp).
  Proof.
    split; unfold cmpi_end; intros; [apply (ord_refl _ HO)|apply (ord_dual _ HO)|].
    eapply (ord_trans _ HO); eauto.
  Qed.
  Lemma WFi_sorted_by m : WFi m -> sorted_by (cmpi_start cmp) m /\ sorted_by (cmpi_end cmp) m.
  Proof.
    intros HW. split; intros l1 a l2 b l3 ->.
    all: pose proof (WFi_ascending HC HO' _ HW) as HA; apply SS_app in HA as (_ & HA & _);
      apply StronglySorted_inv in HA as [_ HA]; rewrite Forall_forall in HA;
      specialize (HA b (in_mid l2 b l3)); destruct a as [ra va], b as [rb vb];
      pose proof (WFi_valid HC HO' _ ra va HW (in_mid l1 (ra, va) _)) as Va;
      assert (Hb : In (rb, vb) (l1 ++ (ra, va) :: l2 ++ (rb, vb) :: l3))
        by (apply in_or_app; right; right; apply in_mid);
      pose proof (WFi_valid HC HO' _ rb vb HW Hb) as Vb;
      unfold valid_rangei in *; unfold cmpi_start, cmpi_end; cbn [fst] in *; ord.
  Qed.
  Lemma irun_sorted ops : fresh_ops ops ->
    sorted_by (cmpi_start cmp) (im_iter (run ops)) /\ sorted_by (cmpi_end cmp) (im_iter (run ops)).
  Proof. intros H. apply WFi_sorted_by, irun_WF, H. Qed.
  Lemma itree_search ops (t : tree (rangei K * V)) : fresh_ops ops -> elems t = run ops ->
    forall c, c = cmpi_start cmp \/ c = cmpi_end cmp ->
    forall lo hi, bad_bounds c lo hi = false -> bt_range c lo hi (run ops) = Ret (tree_range c lo hi t).
  Proof.
    intros H E c Hc lo hi Hb. destruct (irun_sorted ops H) as [H1 H2]. unfold im_iter in *. rewrite <- E in *.
    destruct Hc as [-> | ->]; apply tree_range_ok; auto using cmpi_start_order, cmpi_end_order.
  Qed.

  (** ** Minimality, growth, frame *)
  Lemma irun_minimal (Hrefl : forall v, veqb v v = true) ops l : fresh_ops ops ->
    describes covers veqb l (spec ops) -> length (im_iter (run ops)) <= length l.
  Proof.
    intros H. apply (iminimal HC HO' HV Hcov Hrefl (run ops) (spec ops) l (irun_WF ops H)).
    intros k. apply (run_ilk HC HO' HV ops k H).
  Qed.
  Lemma irun_growth ops r v : fresh_ops ops -> ri_exhausted r = false ->
    im_len (run (ops ++ [OInsert r v])) <= im_len (run ops) + 2 /\
    im_len (run (ops ++ [ORemove r])) <= im_len (run ops) + 1.
  Proof.
    intros H Hr. unfold im_len. rewrite !run_isnoc. cbn [im_exec]. pose proof (irun_WF ops H) as HW.
    destruct (valid r) eqn:E.
    - destruct (insert_iok HC HO' HV r v _ Hr HW E) as (m' & -> & _ & _ & H1 & _).
      destruct (remove_iok HC HO' r _ HW E) as (m2 & -> & _ & _ & H2 & _).
      cbn [snd]. split; assumption.
    - rewrite (insert_ipanic HC HO'), (remove_ipanic HC HO') by exact E. cbn [snd]. split; apply Nat.le_add_r.
  Qed.
  Lemma iinsert_frame ops r v e : fresh_ops ops -> ri_exhausted r = false ->
    valid r = true -> In e (im_iter (run ops)) ->
    (ltb cmp (e0 e) (ri_start r) = true /\
       (veqb (snd e) v = false \/ exists k, ltb cmp (e0 e) k = true /\ ltb cmp k (ri_start r) = true)) \/
    (ltb cmp (ri_end r) (s0 e) = true /\
       (veqb v (snd e) = false \/ exists k, ltb cmp (ri_end r) k = true /\ ltb cmp k (s0 e) = true)) ->
    exists x, In x (im_iter (run (ops ++ [OInsert r v]))) /\
      eqb cmp (s0 x) (s0 e) = true /\ eqb cmp (e0 x) (e0 e) = true /\ snd x = snd e.
  Proof.
    intros H Hr Hv He Ho. rewrite run_isnoc. cbn [im_exec].
    destruct (insert_iok HC HO' HV r v _ Hr (irun_WF ops H) Hv) as (m1 & -> & _ & _ & _ & _ & F). cbn [snd].
    apply F; [exact He|]. pose proof (cut_order cmp st HO HS) as HO''.
    destruct Ho as [[H1 H2]|[H1 H2]]; [left|right]; intros x [<- | []]; cbn [fst snd ence encr r_start r_end];
      pose proof H1 as H1'; rewrite (lohi_le HC HO') in H1'; (split; [exact H1'|]); intros Eq;
      (destruct H2 as [H2|(k & K1 & K2)]; [exact H2|exfalso]);
      rewrite (lohi_le HC HO') in K1; rewrite (lo_lt HC) in K2; ord_by HO''.
  Qed.
  Lemma iremove_frame ops r e : fresh_ops ops -> valid r = true -> In e (im_iter (run ops)) ->
    ltb cmp (e0 e) (ri_start r) = true \/ ltb cmp (ri_end r) (s0 e) = true ->
    exists x, In x (im_iter (run (ops ++ [ORemove r]))) /\
      eqb cmp (s0 x) (s0 e) = true /\ eqb cmp (e0 x) (e0 e) = true /\ snd x = snd e.
  Proof.
    intros H Hv He Ho. rewrite run_isnoc. cbn [im_exec].
    destruct (remove_iok HC HO' r _ (irun_WF ops H) Hv) as (m1 & -> & _ & _ & _ & F). cbn [snd].
    apply F; assumption.
  Qed.

  (** ** Step independence *)
  Lemma isteps_gaps (st2 : stepfns K) :
    (forall x y, ltb cmp x y = true -> add_one st x = add_one st2 x) ->
    (forall x y, ltb cmp y x = true -> sub_one st x = sub_one st2 x) ->
    forall ops outer, fresh_ops ops ->
    exists g, im_gaps cmp (run ops) outer = Ret g /\
      forall n, nexts_m (gpi_next cmp st) n g = nexts_m (gpi_next cmp st2) n g.
  Proof.
    intros H1 H2 ops outer H. pose proof (irun_WF ops H) as HW.
    destruct (overlapping_enc HC HO' (run ops) outer) as (o & E1 & _ & _ & _ & L & EL).
    unfold im_gaps, omap. rewrite E1. cbn [obind]. eexists. split; [reflexivity|]. intros n.
    apply (gaps_agree H1 H2 HO). split; [split|]; cbn [gpi_needs_plus_one gpi_iter gpi_candidate_start].
    - pose proof (WFi_ascending HC HO' _ HW) as HA. rewrite EL in HA. apply SS_app in HA. apply HA.
    - discriminate.
    - intros [r v] He. assert (Hin : In (r, v) (run ops)) by (rewrite EL; apply in_or_app; auto).
      pose proof (WFi_valid HC HO' _ r v HW Hin) as Hv. unfold valid_rangei in Hv. cbn. ord.
  Qed.

  (** ** Update laws *)
  Lemma ilaw_insert_insert (Hrefl : forall v, veqb v v = true) ops r v : fresh_ops ops -> ri_exhausted r = false ->
    im_eqb cmp veqb (run (ops ++ [OInsert r v; OInsert r v])) (run (ops ++ [OInsert r v])) = true.
  Proof.
    intros H Hr. apply (ilaw Hrefl); unfold fresh_ops; cbn; rewrite ?Hr; auto. apply slaw_insert_insert.
  Qed.
  Lemma ilaw_remove_remove (Hrefl : forall v, veqb v v = true) ops r : fresh_ops ops ->
    im_eqb cmp veqb (run (ops ++ [ORemove r; ORemove r])) (run (ops ++ [ORemove r])) = true.
  Proof. intros H. apply (ilaw Hrefl); unfold fresh_ops; cbn; auto. apply slaw_remove_remove. Qed.
  Lemma ilaw_insert_remove (Hrefl : forall v, veqb v v = true) ops r v : fresh_ops ops -> ri_exhausted r = false ->
    im_eqb cmp veqb (run (ops ++ [OInsert r v; ORemove r])) (run (ops ++ [ORemove r])) = true.
  Proof.
    intros H Hr. apply (ilaw Hrefl); unfold fresh_ops; cbn; rewrite ?Hr; auto. apply slaw_insert_remove.
  Qed.
  Lemma ilaw_remove_insert (Hrefl : forall v, veqb v v = true) ops r v : fresh_ops ops -> ri_exhausted r = false ->
    im_eqb cmp veqb (run (ops ++ [ORemove r; OInsert r v])) (run (ops ++ [OInsert r v])) = true.
  Proof.
    intros H Hr. apply (ilaw Hrefl); unfold fresh_ops; cbn; rewrite ?Hr; auto. apply slaw_remove_insert.
  Qed.
  Lemma ilaw_covered (Hrefl : forall v, veqb v v = true) ops r1 v1 r2 v2 :
    fresh_ops ops -> ri_exhausted r1 = false -> ri_exhausted r2 = false ->
    (forall k, covers r1 k = true -> covers r2 k = true) ->
    im_eqb cmp veqb (run (ops ++ [OInsert r1 v1; OInsert r2 v2])) (run (ops ++ [OInsert r2 v2])) = true.
  Proof.
    intros H H1 H2 Hc. apply (ilaw Hrefl); unfold fresh_ops; cbn; rewrite ?H1, ?H2; auto.
    intros f k. apply slaw_covered; [apply invalid_covers|exact Hc].
  Qed.
  Lemma ilaw_commute (Hrefl : forall v, veqb v v = true) ops r1 v1 r2 v2 :
    fresh_ops ops -> ri_exhausted r1 = false -> ri_exhausted r2 = false ->
    (forall k, covers r1 k = true -> covers r2 k = true -> False) ->
    im_eqb cmp veqb (run (ops ++ [OInsert r1 v1; OInsert r2 v2])) (run (ops ++ [OInsert r2 v2; OInsert r1 v1])) = true.
  Proof.
    intros H H1 H2 Hc. apply (ilaw Hrefl); unfold fresh_ops; cbn; rewrite ?H1, ?H2; auto.
    intros f k. apply slaw_commute; exact Hc.
  Qed.
  Lemma ilaw_commute_mixed (Hrefl : forall v, veqb v v = true) ops r1 v1 r2 :
    fresh_ops ops -> ri_exhausted r1 = false ->
    (forall k, covers r1 k = true -> covers r2 k = true -> False) ->
    im_eqb cmp veqb (run (ops ++ [OInsert r1 v1; ORemove r2])) (run (ops ++ [ORemove r2; OInsert r1 v1])) = true.
  Proof.
    intros H H1 Hc. apply (ilaw Hrefl); unfold fresh_ops; cbn; rewrite ?H1; auto.
    intros f k. apply slaw_commute_mixed; exact Hc.
  Qed.
  Lemma ilaw_commute_remove (Hrefl : forall v, veqb v v = true) ops r1 r2 : fresh_ops ops ->
    im_eqb cmp veqb (run (ops ++ [ORemove r1; ORemove r2])) (run (ops ++ [ORemove r2; ORemove r1])) = true.
  Proof. intros H. apply (ilaw Hrefl); unfold fresh_ops; cbn; auto. apply slaw_commute_remove. Qed.

  Lemma irun_gaps_ret ops outer n : fresh_ops ops ->
    exists g, im_gaps cmp (run ops) outer = Ret g /\
      forall o, In o (nexts_m (gpi_next cmp st) n g) -> exists x, o = Ret x.
  Proof.
    intros H. destruct (irun_gaps ops outer H) as (g & gs & H1 & H2 & _). exists g. split; [exact H1|].
    intros o. rewrite H2. intros Ho. apply in_map_iff in Ho as (x & <- & _). exists x. reflexivity.
  Qed.
End Props.

Lemma debug_release {V} (veqb : V -> V -> bool) t : (0 < i_bits t)%Z -> forall ops,
  im_run (icmp t) veqb (int_steps Checked t) ops = im_run (icmp t) veqb (int_steps Wrapping t) ops.
Proof.
  intros Hb ops. apply run_agree; intros x y; unfold Order.ltb, icmp;
    [destruct (Z.compare_spec (proj1_sig x) (proj1_sig y))|destruct (Z.compare_spec (proj1_sig y) (proj1_sig x))];
    try discriminate; intros _; pose proof (ival_bounds t y) as Hy.
  - destruct (int_add_one t Hb Checked x ltac:(lia)) as (a & -> & Ea).
    destruct (int_add_one t Hb Wrapping x ltac:(lia)) as (b & -> & Eb). f_equal. apply ival_eq. congruence.
  - destruct (int_sub_one t Hb Checked x ltac:(lia)) as (a & -> & Ea).
    destruct (int_sub_one t Hb Wrapping x ltac:(lia)) as (b & -> & Eb). f_equal. apply ival_eq. congruence.
Qed.

(** Concrete facts used by the examples. *)
Local Open Scope Z_scope.
(** unbounded integer keys *)
Definition zst : stepfns Z := mkStep (fun z => Some (z + 1)) (fun z => Some (z - 1)).
Lemma zst_laws : StepLaws Z.compare zst.
Proof.
  apply (steps_of_index Z.compare zst (fun z => z)); auto; intros a b _.
  - exists (a + 1). auto.
  - exists (a - 1). auto.
Qed.
Definition iex_ops : list (op (rangei Z) Z) :=
  [OInsert (incl 0 9) 1; OInsert (incl 10 19) 2; OInsert (incl 4 5) 2; ORemove (incl 8 11);
   OInsert (incl 30 25) 9; OExtend [(incl 40 49, 3); (incl 50 59, 3); (incl 5 4, 7); (incl 70 80, 4)]].
Ltac zrangei := unfold in_rangei, meetsi, incl; cbn [ri_start ri_end]; change (Order.ltb Z.compare) with Z.ltb; change (Order.leb Z.compare) with Z.leb; intros; lia.
Lemma icommute_example :
  (forall v, Z.eqb v v = true) /\
  (forall k, in_rangei Z.compare (incl 2 4) k = true -> in_rangei Z.compare (incl 1 4) k = true) /\
  (forall k, in_rangei Z.compare (incl 2 4) k = true -> in_rangei Z.compare (incl 5 8) k = true -> False) /\
  fresh_ops [OInsert (incl 2 4) 7; OInsert (incl 5 8) 7] /\
  im_run Z.compare Z.eqb zst (iex_ops ++ [OInsert (incl 2 4) 7; OInsert (incl 5 8) 7]) =
  im_run Z.compare Z.eqb zst (iex_ops ++ [OInsert (incl 5 8) 7; OInsert (incl 2 4) 7]).
Proof.
  splits.
  - apply Z.eqb_refl.
  - zrangei.
  - zrangei.
  - reflexivity.
  - vm_compute. reflexivity.
Qed.
Lemma ibackward_query_witness :
  (forall k, in_rangei Z.compare (incl 7 3) k = false) /\
  im_overlaps Z.compare (im_run Z.compare Z.eqb zst [OInsert (incl 0 10) 1]) (incl 7 3) = Ret true.
Proof. split; [zrangei|vm_compute; reflexivity]. Qed.
Lemma iminimal_example :
  im_len (im_run Z.compare Z.eqb zst ([OInsert (incl 0 9) 1] ++ [OInsert (incl 3 4) 2])) = 3%nat /\
  im_len (im_run Z.compare Z.eqb zst ([OInsert (incl 0 9) 1] ++ [ORemove (incl 3 4)])) = 2%nat /\
  describes (in_rangei Z.compare) Z.eqb [(incl 0 4, 1); (incl 3 9, 1)]
    (spec_run (valid_rangei Z.compare) (in_rangei Z.compare) [OInsert (incl 0 9) 1]).
Proof.
  splits; [vm_compute; reflexivity|vm_compute; reflexivity|].
  intros k. unfold spec_run. cbn [fold_left spec_op]. change (valid_rangei Z.compare (incl 0 9)) with true.
  cbn iota. unfold put. split.
  - intros r v Hin H. cbn in Hin. destruct Hin as [X|[X|X]]; [injection X as <- <-|injection X as <- <-|destruct X].
    + assert (E : in_rangei Z.compare (incl 0 9) k = true) by (revert H; zrangei). rewrite E. left; reflexivity.
    + assert (E : in_rangei Z.compare (incl 0 9) k = true) by (revert H; zrangei). rewrite E. left; reflexivity.
  - intros H. destruct (in_rangei Z.compare (incl 0 9) k) eqn:E; [clear H|congruence].
    destruct (in_rangei Z.compare (incl 0 4) k) eqn:E2.
    + exists (incl 0 4), 1. cbn. auto.
    + exists (incl 3 9), 1. split; [cbn; auto|]. revert E E2. zrangei.
Qed.
Lemma ihash_ord_example :
  (forall x y (s t : list Z), [x] ++ s = [y] ++ t -> eqb Z.compare x y = true /\ [x] = [y]) /\
  (forall x y (s t : list Z), [Z.b2z x] ++ s = [Z.b2z y] ++ t -> x = y) /\
  (forall x y, Z.compare x y = Eq <-> Z.eqb x y = true) /\
  im_cmp Z.compare Z.compare (im_run Z.compare Z.eqb zst iex_ops)
    (im_run Z.compare Z.eqb zst [OInsert (incl 0 3) 1]) = Gt /\
  im_cmp Z.compare Z.compare (im_run Z.compare Z.eqb zst [OInsert (incl 0 3) 1])
    (im_run Z.compare Z.eqb zst [OInsert (incl 0 4) 0]) = Lt.
Proof.
  splits.
  - intros x y s t [= -> _]. unfold eqb. rewrite Z.compare_refl. auto.
  - intros [] [] s t; cbn; congruence.
  - intros x y. rewrite Z.compare_eq_iff, Z.eqb_eq. reflexivity.
  - vm_compute. reflexivity.
  - vm_compute. reflexivity.
Qed.

(** A [u8] key: values 0 to 255, step functions panicking (debug) or wrapping
    (release) at the extremes. *)
Definition u8 : ity := mkIty false 8.
Definition b8 (z : Z) : ival u8 := match to_ival u8 z with Some x => x | None => exist _ 0 eq_refl end.
Definition u8_ops : list (op (rangei (ival u8)) Z) :=
  [OInsert (incl (b8 0) (b8 255)) 1; OInsert (incl (b8 250) (b8 255)) 2; ORemove (incl (b8 0) (b8 3));
   OInsert (incl (b8 255) (b8 255)) 1; OInsert (incl (b8 100) (b8 110)) 2].
Definition u8_show {A} (m : imap (ival u8) A) : list (Z * Z * A) :=
  map (fun e => (proj1_sig (ri_start (fst e)), proj1_sig (ri_end (fst e)), snd e)) m.
