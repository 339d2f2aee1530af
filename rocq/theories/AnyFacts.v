(** Reachable maps when [==] on values is arbitrary: the described function, and
    queries as instances of the lemmas for an [==] that is never true. *)
From Coq Require Import List Bool Sorting.Sorted Lia.
From Verif Require Import Order Outcome BTree SearchTree Ranges History Spec MapModel IMapModel StepModel ListLemmas
  IterFacts MapProofs MapRemove AnyEq MapFacts MapIter MapMore MapProps ISim Cuts IFacts IMapProps
  CrashFacts CrashProps.
Import ListNotations.

Lemma linked_opt_refl {V} (veqb : V -> V -> bool) o : linked_opt veqb o o.
Proof. destruct o; cbn; [constructor|exact I]. Qed.
Lemma linked_opt_step {V} (veqb : V -> V -> bool) o w v : linked_opt veqb o (Some w) -> veqb w v = true ->
  linked_opt veqb o (Some v).
Proof. destruct o; cbn; [|contradiction]. intros H1 H2. econstructor; eauto. Qed.
Lemma linked_opt_None {V} (veqb : V -> V -> bool) a b : linked_opt veqb a b -> (a = None <-> b = None).
Proof. destruct a, b; cbn; intros H; split; intros E; try discriminate; try contradiction; reflexivity. Qed.
(** for a lawful [==], chains are what the other properties allow *)
Lemma linked_lawful {V} (veqb : V -> V -> bool) (HV : PartialEquiv veqb) a b : linked veqb a b -> same_val veqb b a.
Proof.
  intros H. induction H as [|b c H IH E]; [left; reflexivity|]. right.
  apply (veq_sym _ HV) in E. destruct IH as [-> | IH]; [exact E|]. exact (veq_trans _ HV _ _ _ E IH).
Qed.
Lemma linked_opt_lawful {V} (veqb : V -> V -> bool) (HV : PartialEquiv veqb) a b :
  linked_opt veqb a b -> same_opt veqb b a.
Proof. destruct a, b; cbn; auto. apply (linked_lawful _ HV). Qed.

Lemma gaps_of_ext {K V W} (cmp : K -> K -> comparison) (f : K -> option V) (g : K -> option W) outer gs :
  (forall k, f k = None <-> g k = None) -> gaps_of cmp f outer gs -> gaps_of cmp g outer gs.
Proof. intros H (H1 & H2 & H3). refine (conj H1 (conj H2 _)). intros k. rewrite H3, H. reflexivity. Qed.
Lemma gapsi_of_ext {K V W} (cmp : K -> K -> comparison) (f : K -> option V) (g : K -> option W) outer gs :
  (forall k, f k = None <-> g k = None) -> gapsi_of cmp f outer gs -> gapsi_of cmp g outer gs.
Proof. intros H (H1 & H2 & H3). refine (conj H1 (conj H2 _)). intros k. rewrite H3, H. reflexivity. Qed.

Section Half.
  Context {K V : Type} {cmp : K -> K -> comparison} {veqb : V -> V -> bool}.
  Context (HO : TotalOrd cmp).

  Notation never := (fun _ _ : V => false).
  Notation run := (rm_run cmp veqb).
  Notation valid := (valid_range cmp).
  Notation covers := (in_range cmp).
  Notation spec := (spec_run (V := V) valid covers).
  Notation spec1 := (spec_op (V := V) valid covers).
  Notation lk := (@lk K V cmp).
  Notation WW := (@WF K V cmp never).

  Definition HN : PartialEquiv never := never_per.

  Lemma never_reachable ops : exists ops', run ops = rm_run cmp never ops'.
  Proof. apply (WF_reachable HO (veqb := never)), (run_any HO). Qed.

  Lemma absorbed_chain c r v m m' f k : absorbed (veqb := veqb) c v (lk m' k) (ov (cmp := cmp) r v m k) ->
    linked_opt veqb (f k) (lk m k) -> linked_opt veqb (put covers r v f k) (lk m' k).
  Proof.
    unfold ov, put. rewrite (in_range_contains HO).
    destruct (r_contains cmp r k).
    - intros [-> | (_ & w & E & Hw & ->)] _; cbn; constructor.
    - intros [-> | (_ & w & E & Hw & ->)] H; [exact H|]. rewrite E in H. eapply linked_opt_step; eauto.
  Qed.
  Lemma insert_chain m r v f : WW m -> (forall k, linked_opt veqb (f k) (lk m k)) ->
    forall k, linked_opt veqb (spec1 f (OInsert r v) k) (lk (snd (rm_insert cmp veqb r v m)) k).
  Proof.
    intros HW H k. cbn. destruct (valid r) eqn:E.
    - destruct (insert_any HO (veqb := veqb) m r v HW E) as (m' & E1 & _ & (n & _ & _ & _ & Ha) & _). rewrite E1. cbn [snd].
      apply (absorbed_chain _ r v m m' f k (Ha k) (H k)).
    - rewrite insert_panics by exact E. apply H.
  Qed.
  Lemma extend_chain l : forall m f, WW m -> (forall k, linked_opt veqb (f k) (lk m k)) ->
    forall k, linked_opt veqb (put_all valid covers l f k) (lk (snd (rm_extend cmp veqb l m)) k).
  Proof.
    unfold rm_extend. induction l as [|[r v] l IH]; intros m f HW H k; cbn [put_all for_each fst snd]; [apply H|].
    unfold bind. pose proof (insert_chain m r v f HW H) as Hc. cbn [spec_op] in Hc.
    destruct (valid r) eqn:E.
    - destruct (insert_any HO (veqb := veqb) m r v HW E) as (m' & E1 & HW' & _). rewrite E1 in *. cbn [snd] in Hc.
      apply IH; assumption.
    - rewrite insert_panics by exact E. apply H.
  Qed.
  Lemma exec_chain o m f : WW m -> (forall k, linked_opt veqb (f k) (lk m k)) ->
    forall k, linked_opt veqb (spec1 f o k) (lk (snd (rm_exec cmp veqb o m)) k).
  Proof.
    intros HW H k. destruct o as [r v|r| |l]; cbn [rm_exec].
    - apply insert_chain; assumption.
    - cbn. destruct (valid r) eqn:E.
      + destruct (remove_ok HO (veqb := never) m r HW E) as (m' & E1 & _ & Hl & _). rewrite E1. cbn [snd].
        rewrite Hl. unfold del. rewrite (in_range_contains HO). destruct (r_contains cmp r k); [exact I|apply H].
      + rewrite remove_panics by exact E. apply H.
    - exact I.
    - apply extend_chain; assumption.
  Qed.
  Lemma run_chain ops k : linked_opt veqb (spec ops k) (lk (run ops) k).
  Proof.
    assert (H : forall ops m f, WW m -> (forall k, linked_opt veqb (f k) (lk m k)) ->
      forall k, linked_opt veqb (fold_left spec1 ops f k) (lk (run_ops (rm_exec cmp veqb) ops m) k)).
    { clear - HO. induction ops as [|o ops IH]; intros m f HW H k; [apply H|]. cbn. apply IH.
      - apply (exec_any HO); exact HW.
      - intros k'. apply exec_chain; assumption. }
    apply H; [apply WF_nil|]. intros; exact I.
  Qed.

  (** ** The statements *)
  Lemma any_get ops k : rm_get cmp (run ops) k = Ret (lk (run ops) k).
  Proof. apply (get_ok HO (veqb := never)), (run_any HO). Qed.
  Lemma any_get_spec ops k : exists o, rm_get cmp (run ops) k = Ret o /\ linked_opt veqb (spec ops k) o.
  Proof. eexists. split; [apply any_get|apply run_chain]. Qed.
  Lemma any_contains ops k : rm_contains_key cmp (run ops) k =
    Ret (match spec ops k with Some _ => true | None => false end).
  Proof.
    destruct (never_reachable ops) as (ops' & E). pose proof (run_chain ops k) as H. rewrite E in *.
    destruct (get_total HO _ k (run_WF HO HN ops')) as (o & _ & H2 & H3). rewrite H3. f_equal.
    rewrite (get_ok HO _ _ (run_WF HO HN ops')) in H2. inversion H2 as [H4]. rewrite H4 in H.
    destruct (spec ops k), o; cbn in H; try contradiction; reflexivity.
  Qed.
  Lemma any_insert_from m r v : WW m ->
    if valid r
    then exists m', rm_insert cmp veqb r v m = (Ret tt, m') /\ length m' <= length m + 2 /\
      exists n, In (n, v) (rm_iter m') /\ (forall k, covers r k = true -> covers n k = true) /\
      forall k, exists o o', rm_get cmp m k = Ret o /\ rm_get cmp m' k = Ret o' /\
        if covers r k then o' = Some v
        else o' = o \/ covers n k = true /\ exists w, o = Some w /\ veqb w v = true /\ o' = Some v
    else rm_insert cmp veqb r v m = (Panicked PAssert, m).
  Proof.
    intros HW0. destruct (valid r) eqn:E; [|apply insert_panics; exact E].
    destruct (insert_any HO (veqb := veqb) m r v HW0 E) as (m' & H1 & HW & (n & N1 & N2 & N3 & H2) & H3).
    exists m'. split; [exact H1|]. split; [exact H3|]. exists n. split; [exact N1|]. split.
    { intros k. unfold in_range. intros Hk. ord. }
    intros k. exists (lk m k), (lk m' k).
    split; [apply (get_ok HO (veqb := never)); exact HW0|]. split; [apply (get_ok HO (veqb := never)); exact HW|].
    specialize (H2 k). unfold ov in H2. rewrite !(in_range_contains HO).
    destruct (r_contains cmp r k).
    - destruct H2 as [H2 | (_ & w & _ & _ & H2)]; exact H2.
    - exact H2.
  Qed.
  Lemma any_insert ops r v :
    if valid r
    then exists m', rm_insert cmp veqb r v (run ops) = (Ret tt, m') /\ length m' <= length (run ops) + 2 /\
      exists n, In (n, v) (rm_iter m') /\ (forall k, covers r k = true -> covers n k = true) /\
      forall k, exists o o', rm_get cmp (run ops) k = Ret o /\ rm_get cmp m' k = Ret o' /\
        if covers r k then o' = Some v
        else o' = o \/ covers n k = true /\ exists w, o = Some w /\ veqb w v = true /\ o' = Some v
    else rm_insert cmp veqb r v (run ops) = (Panicked PAssert, run ops).
  Proof. exact (any_insert_from _ r v (run_any HO ops)). Qed.
  Lemma any_remove ops r :
    if valid r
    then exists m', rm_remove cmp r (run ops) = (Ret tt, m') /\ length m' <= length (run ops) + 1 /\
      forall k, rm_get cmp m' k = if covers r k then Ret None else rm_get cmp (run ops) k
    else rm_remove cmp r (run ops) = (Panicked PAssert, run ops).
  Proof.
    destruct (valid r) eqn:E; [|apply remove_panics; exact E].
    destruct (remove_ok HO (veqb := never) (run ops) r (run_any HO ops) E) as (m' & H1 & HW & H2 & H3 & _).
    exists m'. split; [exact H1|]. split; [exact H3|]. intros k.
    rewrite (get_ok HO (veqb := never)) by exact HW. rewrite any_get, H2, (in_range_contains HO).
    destruct (r_contains cmp r k); reflexivity.
  Qed.
  Lemma any_iter ops :
    ascending cmp (rm_iter (run ops)) /\
    (forall r v, In (r, v) (rm_iter (run ops)) -> valid r = true) /\
    (forall k r v, rm_get_key_value cmp (run ops) k = Ret (Some (r, v)) <->
       In (r, v) (rm_iter (run ops)) /\ covers r k = true) /\
    (forall k, rm_get_key_value cmp (run ops) k = Ret None <->
       (forall r v, In (r, v) (rm_iter (run ops)) -> covers r k = false)).
  Proof.
    destruct (never_reachable ops) as (ops' & ->). pose proof (run_WF HO HN ops') as HW.
    destruct (iter_valid_ascending HO HN ops') as [H1 H2].
    split; [exact H1|]. split; [exact H2|]. split.
    - intros k r v. apply (get_key_value_iff HO _ k r v HW).
    - intros k. apply (get_key_value_none HO _ k HW).
  Qed.
  Lemma any_gaps ops outer :
    exists g gs, rm_gaps cmp (run ops) outer = Ret g /\
      (forall n, nexts (gp_next cmp) n g = yields n gs) /\
      gaps_of cmp (spec ops) outer gs.
  Proof.
    destruct (gaps_ok HO (veqb := never) (run ops) outer (run_any HO ops)) as (g & gs & H1 & H2 & H3).
    exists g, gs. split; [exact H1|]. split; [exact H2|]. eapply gaps_of_ext; [|exact H3].
    intros k. cbn beta. symmetry. apply (linked_opt_None veqb), run_chain.
  Qed.
  Lemma any_overlapping ops q sched :
    exists o, rm_overlapping cmp (run ops) q = Ret o /\
      map fst (sched_trace (both (ov_next cmp) (ov_next_back cmp)) (fun _ => tt) sched o) =
      deque_run sched (filter (fun e => meets cmp q (fst e)) (rm_iter (run ops))).
  Proof.
    destruct (never_reachable ops) as (ops' & ->).
    exact (overlapping_schedule HO _ q sched (run_WF HO HN ops')).
  Qed.
  Lemma any_overlaps ops q :
    rm_overlaps cmp (run ops) q = Ret (existsb (fun e => meets cmp q (fst e)) (rm_iter (run ops))).
  Proof. exact (overlaps_ok HO (veqb := never) _ q (run_any HO ops)). Qed.
End Half.

Section Incl.
  Context {K V : Type} {cmp : K -> K -> comparison} {veqb : V -> V -> bool} {st : stepfns K}.
  Context (HO : TotalOrd cmp) (HS : StepLaws cmp st).

  Notation never := (fun _ _ : V => false).
  Notation run := (im_run cmp veqb st).
  Notation valid := (valid_rangei cmp).
  Notation covers := (in_rangei cmp).
  Notation spec := (spec_run (V := V) valid covers).
  Notation WWi := (@WFi K (cut K) V (cmp_cut cmp st) never Before After).
  Notation lki := (@lki K V cmp).
  Notation Rm := (@Rm K (cut K) V (cmp_cut cmp st) Before After).
  Notation encr := (@encr K (cut K) Before After).
  Notation ence := (@ence K (cut K) V Before After).
  Notation HC := (cuts cmp st HO HS).
  Notation HO' := (cut_order cmp st HO HS).

  Lemma Rm_In (HT : TotalOrd (cmp_cut cmp st)) m m' n v : Rm m m' -> In (n, v) m' ->
    exists x, In (x, v) m /\ eqb (cmp_cut cmp st) (r_start (encr x)) (r_start n) = true /\
      eqb (cmp_cut cmp st) (r_end (encr x)) (r_end n) = true.
  Proof.
    intros H. induction H as [|[a w] [b w'] m m' [[[Ha1 Ha2] _] Ha3] Hm IH]; [intros []|].
    cbn in Ha1, Ha2, Ha3. subst w'.
    intros [E | Hin].
    - injection E as -> ->. exists a. split; [left; reflexivity|]. cbn. split; ord_by HT.
    - destruct (IH Hin) as (x & Hx & H3). exists x. split; [right; exact Hx|exact H3].
  Qed.
  Lemma irun_any ops : fresh_ops ops -> WWi (run ops).
  Proof.
    intros H. eapply (Rm_WFi HO' (veqb := never)); [apply (run_any_sim HC HO'); exact H|]. apply (run_any HO').
  Qed.
  Lemma inever_reachable ops : fresh_ops ops ->
    exists ops', fresh_ops ops' /\ run ops = im_run cmp never st ops'.
  Proof. intros H. apply (WFi_reachable HO HS (veqb := never)), irun_any, H. Qed.
  Lemma irun_chain ops k : fresh_ops ops -> linked_opt veqb (spec ops k) (lki (run ops) k).
  Proof.
    intros H. rewrite (lki_sim HC HO' _ _ k (run_any_sim HC HO' ops H)), (spec_run_sim HC HO').
    apply (run_chain HO').
  Qed.
  Lemma iany_get ops k : fresh_ops ops -> im_get cmp (run ops) k = Ret (lki (run ops) k).
  Proof. intros H. apply (get_iok HC HO' (veqb := never)), irun_any, H. Qed.
  Lemma iany_get_spec ops k : fresh_ops ops ->
    exists o, im_get cmp (run ops) k = Ret o /\ linked_opt veqb (spec ops k) o.
  Proof. intros H. eexists. split; [apply iany_get; exact H|apply irun_chain; exact H]. Qed.
  Lemma iany_contains ops k : fresh_ops ops -> im_contains_key cmp (run ops) k =
    Ret (match spec ops k with Some _ => true | None => false end).
  Proof.
    intros Hf. destruct (inever_reachable ops Hf) as (ops' & Hf' & E). pose proof (irun_chain ops k Hf) as H.
    rewrite E in *.
    destruct (get_itotal HC HO' _ k (irun_WF HO HS never_per ops' Hf')) as (o & _ & H2 & H3). rewrite H3. f_equal.
    rewrite (irun_get HO HS never_per ops' k Hf') in H2. inversion H2 as [H4]. rewrite H4 in H.
    destruct (spec ops k), o; cbn in H; try contradiction; reflexivity.
  Qed.
  Lemma iany_insert_from m r v : WWi m -> ri_exhausted r = false ->
    if valid r
    then exists m', im_insert cmp veqb st r v m = (Ret tt, m') /\ length m' <= length m + 2 /\
      exists n, In (n, v) (im_iter m') /\ (forall k, covers r k = true -> covers n k = true) /\
      forall k, exists o o', im_get cmp m k = Ret o /\ im_get cmp m' k = Ret o' /\
        if covers r k then o' = Some v
        else o' = o \/ covers n k = true /\ exists w, o = Some w /\ veqb w v = true /\ o' = Some v
    else im_insert cmp veqb st r v m = (Panicked PAssert, m).
  Proof.
    intros HW0 Hr. destruct (valid r) eqn:Hv; [|apply (insert_ipanic HC HO'); exact Hv].
    destruct (WFi_sim HO' (veqb := never) _ HW0) as [Hm HW'].
    pose proof (insert_any_sim HC HO' (veqb := veqb) r (encr r) v _ _ (encr_Rn HO' r Hr) Hm HW') as [S1 S2].
    assert (Hv' : ltb (cmp_cut cmp st) (r_start (encr r)) (r_end (encr r)) = true).
    { rewrite (valid_sim HC HO') in Hv. exact Hv. }
    destruct (insert_any HO' (veqb := veqb) (map ence m) (encr r) v HW' Hv') as (m1' & E & HW1 & (n & N1 & N2 & N3 & Hlk) & Hlen).
    rewrite E in S1, S2. destruct (im_insert cmp veqb st r v m) as [o m1].
    cbn in S1, S2. destruct o as [[]| |]; try contradiction.
    exists m1. split; [reflexivity|]. split.
    { rewrite (len_sim m1 m1' S2), (len_sim _ _ Hm). exact Hlen. }
    destruct (Rm_In HO' m1 m1' n v S2 N1) as (x & X1 & X2 & X3).
    exists x. split; [exact X1|].
    assert (Hx : forall k, covers x k = r_contains (cmp_cut cmp st) n (Before k)).
    { intros k. rewrite (in_sim HC HO'), (in_range_contains HO'). unfold r_contains. ord_by (cut_order cmp st HO HS). }
    split.
    { intros k. rewrite Hx, (in_sim HC HO'). unfold in_range, r_contains. intros Hk. ord_by (cut_order cmp st HO HS). }
    intros k. exists (lki m k), (lki m1 k). split; [apply (get_iok HC HO' (veqb := never)); exact HW0|].
    split.
    { apply (get_iok HC HO' (veqb := never)). exact (Rm_WFi HO' m1 m1' S2 HW1). }
    rewrite (lki_sim HC HO' m1 m1' k S2), (lki_sim HC HO' _ _ k Hm), Hx, (in_sim HC HO'), (in_range_contains HO').
    specialize (Hlk (Before k)). unfold ov in Hlk.
    destruct (r_contains (cmp_cut cmp st) (encr r) (Before k)).
    - destruct Hlk as [H2 | (_ & w & _ & _ & H2)]; exact H2.
    - exact Hlk.
  Qed.
  Lemma iany_insert ops r v : fresh_ops ops -> ri_exhausted r = false ->
    if valid r
    then exists m', im_insert cmp veqb st r v (run ops) = (Ret tt, m') /\ length m' <= length (run ops) + 2 /\
      exists n, In (n, v) (im_iter m') /\ (forall k, covers r k = true -> covers n k = true) /\
      forall k, exists o o', im_get cmp (run ops) k = Ret o /\ im_get cmp m' k = Ret o' /\
        if covers r k then o' = Some v
        else o' = o \/ covers n k = true /\ exists w, o = Some w /\ veqb w v = true /\ o' = Some v
    else im_insert cmp veqb st r v (run ops) = (Panicked PAssert, run ops).
  Proof. intros Hf Hr. exact (iany_insert_from _ r v (irun_any ops Hf) Hr). Qed.
  Lemma iany_remove ops r : fresh_ops ops ->
    if valid r
    then exists m', im_remove cmp st r (run ops) = (Ret tt, m') /\ length m' <= length (run ops) + 1 /\
      forall k, im_get cmp m' k = if covers r k then Ret None else im_get cmp (run ops) k
    else im_remove cmp st r (run ops) = (Panicked PAssert, run ops).
  Proof.
    intros Hf. destruct (valid r) eqn:Hv; [|apply (remove_ipanic HC HO'); exact Hv].
    destruct (remove_iok HC HO' (veqb := never) r (run ops) (irun_any ops Hf) Hv) as (m' & H1 & HW & H2 & H3 & _).
    exists m'. split; [exact H1|]. split; [exact H3|]. intros k.
    rewrite (get_iok HC HO' (veqb := never)) by exact HW. rewrite iany_get by exact Hf. rewrite H2.
    destruct (covers r k); reflexivity.
  Qed.
  Lemma iany_iter ops : fresh_ops ops ->
    ascendingi cmp (im_iter (run ops)) /\
    (forall r v, In (r, v) (im_iter (run ops)) -> valid r = true /\ ri_exhausted r = false) /\
    (forall k r v, im_get_key_value cmp (run ops) k = Ret (Some (r, v)) <->
       In (r, v) (im_iter (run ops)) /\ covers r k = true) /\
    (forall k, im_get_key_value cmp (run ops) k = Ret None <->
       (forall r v, In (r, v) (im_iter (run ops)) -> covers r k = false)).
  Proof.
    intros Hf. destruct (inever_reachable ops Hf) as (ops' & Hf' & ->).
    destruct (iiter_valid_ascending HO HS never_per ops' Hf') as [H1 H2].
    split; [exact H1|]. split; [exact H2|]. split.
    - intros k r v. apply (iget_iff HO HS never_per ops' k r v Hf').
    - intros k. apply (iget_none HO HS never_per ops' k Hf').
  Qed.
  Lemma iany_gaps ops outer : fresh_ops ops ->
    exists g gs, im_gaps cmp (run ops) outer = Ret g /\
      (forall n, nexts_m (gpi_next cmp st) n g = map Ret (yields n gs)) /\
      gapsi_of cmp (spec ops) outer gs.
  Proof.
    intros Hf.
    destruct (gaps_iok HC HO' (veqb := never) (run ops) outer (irun_any ops Hf)) as (g & gs & H1 & H2 & H3).
    exists g, gs. split; [exact H1|]. split; [exact H2|]. eapply gapsi_of_ext; [|exact H3].
    intros k. cbn beta. symmetry. apply (linked_opt_None veqb), irun_chain, Hf.
  Qed.
  Lemma iany_overlapping ops q sched : fresh_ops ops ->
    exists o, im_overlapping cmp (run ops) q = Ret o /\
      map fst (sched_trace (both (ovi_next cmp) (ovi_next_back cmp)) (fun _ => tt) sched o) =
      deque_run sched (filter (fun e => meetsi cmp q (fst e)) (im_iter (run ops))).
  Proof.
    intros Hf. destruct (inever_reachable ops Hf) as (ops' & Hf' & ->).
    exact (ioverlapping HO HS never_per ops' q sched Hf').
  Qed.
  Lemma iany_overlaps ops q : fresh_ops ops ->
    im_overlaps cmp (run ops) q = Ret (existsb (fun e => meetsi cmp q (fst e)) (im_iter (run ops))).
  Proof.
    intros Hf. destruct (inever_reachable ops Hf) as (ops' & Hf' & ->).
    exact (ioverlaps HO HS never_per ops' q Hf').
  Qed.
End Incl.
