(** Everything observable about reachable [RangeInclusiveMap]s, transported
    from the half-open map over cuts.

    For queries the encoding keeps the whole inclusive entry as the value of
    the half-open entry ([encm]), so results are recovered exactly. *)
From Coq Require Import List Bool Sorting.Sorted Lia.
From Verif Require Import Order Outcome BTree SearchTree Ranges History Spec MapModel IMapModel ListLemmas
  IterFacts MapProofs MapRemove MapFacts MapIter MapMore ISim.
Import ListNotations.

Section Facts.
  Context {K K' V : Type} {cmp : K -> K -> comparison} {cmp' : K' -> K' -> comparison}.
  Context {veqb : V -> V -> bool} {st : stepfns K} {lo hi : K -> K'}.
  Context (HC : Cuts cmp cmp' st lo hi) (HO : TotalOrd cmp') (HV : PartialEquiv veqb).

  Notation entry := (rangei K * V)%type.
  Notation s0 e := (ri_start (fst e)).
  Notation e0 e := (ri_end (fst e)).
  Notation encr := (@encr K K' lo hi).
  Notation ence := (@ence K K' V lo hi).
  Notation Rr := (@Rr K K' cmp' lo hi).
  Notation Rn := (@Rn K K' cmp' lo hi).
  Notation Rm := (@Rm K K' V cmp' lo hi).
  Notation osame := (same_opt veqb).
  Notation valid := (valid_rangei cmp).
  Notation covers := (in_rangei cmp).
  Notation spec := (spec_run (V := V) valid covers).
  Notation run := (im_run cmp veqb st).

  Definition HK : TotalOrd cmp := cuts_order HC HO.

  Definition veq' (a b : entry) : bool := veqb (snd a) (snd b).
  Lemma HV' : PartialEquiv veq'.
  Proof.
    unfold veq'. split; intros; [apply (veq_sym _ HV)|eapply (veq_trans _ HV)]; eauto.
  Qed.
  Definition encx (e : entry) : range K' * entry := (encr (fst e), e).
  Definition encm (m : imap K V) : rmap K' entry := map encx m.
  Notation lk' := (@lk K' _ cmp').
  Notation WFx := (@WF K' entry cmp' veq').
  Notation WF' := (@WF K' V cmp' veqb).
  Definition fresh (m : imap K V) : Prop := forall e, In e m -> ri_exhausted (fst e) = false.
  Definition WFi (m : imap K V) : Prop := fresh m /\ WFx (encm m).

  Lemma WF_enc_iff m : WF' (map ence m) <-> WFx (encm m).
  Proof.
    unfold WF. split; intros [H1 H2]; split.
    - clear H2. induction m as [|a m IH]; cbn in *; [constructor|].
      apply StronglySorted_inv in H1 as [H1 H3]. constructor; [auto|].
      apply Forall_forall. intros x Hx. apply in_map_iff in Hx as (b & <- & Hb).
      rewrite Forall_forall in H3. apply (H3 (ence b)). apply in_map. exact Hb.
    - intros e He. apply in_map_iff in He as (b & <- & Hb). apply (H2 (ence b)). apply in_map; exact Hb.
    - clear H2. induction m as [|a m IH]; cbn in *; [constructor|].
      apply StronglySorted_inv in H1 as [H1 H3]. constructor; [auto|].
      apply Forall_forall. intros x Hx. apply in_map_iff in Hx as (b & <- & Hb).
      rewrite Forall_forall in H3. apply (H3 (encx b)). apply in_map. exact Hb.
    - intros e He. apply in_map_iff in He as (b & <- & Hb). apply (H2 (encx b)). apply in_map; exact Hb.
  Qed.
  Lemma Rm_enc m : fresh m -> Rm m (map ence m).
  Proof.
    induction m as [|a m IH]; intros H; cbn; [constructor|]. constructor.
    - split; [|reflexivity]. apply encr_Rn; [exact HO|]. apply H; left; reflexivity.
    - apply IH. intros e He. apply H; right; exact He.
  Qed.
  Lemma Rm_fresh m m' : Rm m m' -> fresh m.
  Proof.
    intros H. induction H as [|a b m m' [[_ Ha] _] Hm IH]; intros e; [intros []|].
    intros [<- | He]; auto.
  Qed.
  Lemma Rm_WF m m' : Rm m m' -> WF' m' -> WFx (encm m).
  Proof.
    intros Hm [H1 H2]. unfold WF. split.
    - clear H2. induction Hm as [|a b m m' [[[Ha1 Ha2] _] Ha3] Hm IH]; cbn; [constructor|].
      apply StronglySorted_inv in H1 as [H1 H3]. constructor; [auto|].
      clear IH H1. induction Hm as [|c d m m' [[[Hc1 Hc2] _] Hc3] Hm IH]; cbn; constructor.
      + apply Forall_inv in H3. destruct H3 as [H3 H4]. split.
        * cbn. ord.
        * intros H5. cbn. unfold veq'. cbn. rewrite Ha3, Hc3. apply H4. cbn in H5. ord.
      + apply IH. apply Forall_inv_tail in H3. exact H3.
    - clear H1. induction Hm as [|a b m m' [[[Ha1 Ha2] _] Ha3] Hm IH]; intros e; [intros []|].
      intros [<- | He]; [|apply IH; auto; intros x Hx; apply H2; right; exact Hx].
      pose proof (H2 b (or_introl eq_refl)). cbn. ord.
  Qed.
  Lemma Rm_WFi m m' : Rm m m' -> WF' m' -> WFi m.
  Proof. intros H1 H2. split; [eapply Rm_fresh; eauto|eapply Rm_WF; eauto]. Qed.
  Lemma WFi_sim m : WFi m -> Rm m (map ence m) /\ WF' (map ence m).
  Proof. intros [H1 H2]. split; [apply Rm_enc; exact H1|apply WF_enc_iff; exact H2]. Qed.

  (** ** Lookups *)
  Definition lki (m : imap K V) (k : K) : option V :=
    option_map snd (find (fun e => covers (fst e) k) m).

  Lemma contains_in r k : r_contains cmp' (encr r) (lo k) = covers r k.
  Proof.
    unfold r_contains, in_rangei, encr. cbn [r_start r_end].
    rewrite (lo_lt HC k (ri_start r)), (lohi_le HC HO k (ri_end r)). ord.
  Qed.
  Lemma icontains_in r k : ri_exhausted r = false -> ri_contains cmp r k = covers r k.
  Proof.
    intros H. unfold ri_contains, in_rangei. rewrite H. pose proof HK. ord_by HK.
  Qed.
  Lemma lk_encm m k : lk' (encm m) (lo k) = find (fun e => covers (fst e) k) m.
  Proof.
    induction m as [|a m IH]; cbn; [reflexivity|].
    change (mkR (lo (s0 a)) (hi (e0 a))) with (encr (fst a)). rewrite contains_in.
    destruct (covers (fst a) k); [reflexivity|exact IH].
  Qed.
  Lemma lk_eqv {W} (m : rmap K' W) a b : cmp' a b = Eq -> lk' m a = lk' m b.
  Proof.
    intros H. induction m as [|[r v] m IH]; cbn; [reflexivity|].
    assert (E : r_contains cmp' r a = r_contains cmp' r b) by (unfold r_contains; ord).
    rewrite E, IH. reflexivity.
  Qed.
  Lemma lki_sim m m' k : Rm m m' -> lki m k = lk' m' (lo k).
  Proof.
    intros H. induction H as [|[a v] [a' v'] m m' [Ha Hv] Hm IH]; cbn; [reflexivity|].
    cbn in Ha, Hv. subst v'.
    rewrite <- (contains_sim HC HO a a' k Ha), (icontains_in a k (proj2 Ha)).
    unfold lki. cbn. destruct (covers a k); [reflexivity|exact IH].
  Qed.

  (** an entry of the half-open map comes from one of the inclusive map *)
  Lemma Rm_In_r m m' e : Rm m m' -> In (ence e) m' ->
    exists x, In x m /\ eqb cmp (s0 x) (s0 e) = true /\ eqb cmp (e0 x) (e0 e) = true /\ snd x = snd e.
  Proof.
    intros H. induction H as [|a b m m' [[[Ha1 Ha2] _] Ha3] Hm IH]; [intros []|].
    intros [-> | Hin].
    - exists a. split; [left; reflexivity|]. cbn in *.
      rewrite (lo_eq HC (s0 a) (s0 e)), (hi_eq HC (e0 a) (e0 e)). splits; [ord|ord|exact Ha3].
    - destruct (IH Hin) as (x & Hx & H3). exists x. split; [right; exact Hx|exact H3].
  Qed.

  (** ** Updates *)
  Lemma insert_iok r v m : ri_exhausted r = false -> WFi m -> valid r = true ->
    exists m1, im_insert cmp veqb st r v m = (Ret tt, m1) /\ WFi m1 /\
      (forall k, osame (lki m1 k) (if covers r k then Some v else lki m k)) /\
      length m1 <= length m + 2 /\
      (forall k, covers r k = true -> lki m1 k = Some v) /\
      (forall e, In e m -> outside (cmp := cmp') (veqb := veqb) (ence e) (encr r) v ->
         exists x, In x m1 /\ eqb cmp (s0 x) (s0 e) = true /\ eqb cmp (e0 x) (e0 e) = true /\
                   snd x = snd e).
  Proof.
    intros Hr HW Hv. destruct (WFi_sim m HW) as [Hm HW'].
    pose proof (insert_sim HC HO HV r (encr r) v m _ (encr_Rn HO r Hr) Hm HW') as [S1 S2].
    assert (Hv' : ltb cmp' (r_start (encr r)) (r_end (encr r)) = true).
    { rewrite (valid_sim HC HO) in Hv. exact Hv. }
    destruct (insert_ok HO HV (map ence m) (encr r) v HW' Hv') as (m1' & E & HW1 & Hlk & Hlen & Hfr & r' & Hr1 & Hr2 & Hr3).
    rewrite E in S1, S2. destruct (im_insert cmp veqb st r v m) as [o m1].
    cbn in S1, S2. destruct o as [[]| |]; try contradiction.
    exists m1. splits; auto.
    - eapply Rm_WFi; eauto.
    - intros k. rewrite (lki_sim m1 m1' k S2), (lki_sim m (map ence m) k Hm).
      rewrite (in_sim HC HO), (in_range_contains HO). exact (Hlk (lo k)).
    - rewrite (len_sim m1 m1' S2), (len_sim m _ Hm). exact Hlen.
    - intros k Hk. rewrite (lki_sim m1 m1' k S2). apply (lk_WF_In HO m1' r' v (lo k) HW1 Hr1).
      rewrite (in_sim HC HO) in Hk. unfold in_range in Hk. unfold r_contains. ord.
    - intros e He Ho. apply (Rm_In_r m1 m1' e S2). apply Hfr; [apply in_map; exact He|exact Ho].
  Qed.
  Lemma insert_ipanic r v m : valid r = false ->
    im_insert cmp veqb st r v m = (Panicked PAssert, m).
  Proof.
    intros H. unfold im_insert, bind at 1, assert_.
    assert (E : leb cmp (ri_start r) (ri_end r) = false).
    { unfold valid_rangei in H. ord_by HK. }
    rewrite E. reflexivity.
  Qed.
  Lemma remove_iok r m : WFi m -> valid r = true ->
    exists m1, im_remove cmp st r m = (Ret tt, m1) /\ WFi m1 /\
      (forall k, lki m1 k = if covers r k then None else lki m k) /\
      length m1 <= length m + 1 /\
      (forall e, In e m -> ltb cmp (e0 e) (ri_start r) = true \/ ltb cmp (ri_end r) (s0 e) = true ->
         exists x, In x m1 /\ eqb cmp (s0 x) (s0 e) = true /\ eqb cmp (e0 x) (e0 e) = true /\
                   snd x = snd e).
  Proof.
    intros HW Hv. destruct (WFi_sim m HW) as [Hm HW'].
    pose proof (remove_sim HC HO r (encr r) (encr_Rr HO r) m _ Hm) as [S1 S2].
    assert (Hv' : ltb cmp' (r_start (encr r)) (r_end (encr r)) = true).
    { rewrite (valid_sim HC HO) in Hv. exact Hv. }
    destruct (remove_ok HO (map ence m) (encr r) HW' Hv') as (m1' & E & HW1 & Hlk & Hlen & Hfr).
    rewrite E in S1, S2. destruct (im_remove cmp st r m) as [o m1].
    cbn in S1, S2. destruct o as [[]| |]; try contradiction.
    exists m1. splits; auto.
    - eapply Rm_WFi; eauto.
    - intros k. rewrite (lki_sim m1 m1' k S2), (lki_sim m (map ence m) k Hm).
      rewrite (in_sim HC HO), (in_range_contains HO).
      exact (Hlk (lo k)).
    - rewrite (len_sim m1 m1' S2), (len_sim m _ Hm). exact Hlen.
    - intros e He Ho. apply (Rm_In_r m1 m1' e S2). apply Hfr; [apply in_map; exact He|].
      cbn. rewrite !(lohi_le HC HO) in Ho. exact Ho.
  Qed.
  Lemma remove_ipanic r (m : imap K V) : valid r = false ->
    im_remove cmp st r m = (Panicked PAssert, m).
  Proof.
    intros H. unfold im_remove, bind at 1, assert_.
    assert (E : leb cmp (ri_start r) (ri_end r) = false).
    { unfold valid_rangei in H. ord_by HK. }
    rewrite E. reflexivity.
  Qed.

  (** ** Histories *)
  Notation enc_op := (@enc_op K K' V lo hi).
  Lemma run_iWF ops : fresh_ops ops -> WFi (run ops).
  Proof.
    intros H. eapply Rm_WFi; [apply (run_sim HC HO HV); exact H|]. apply (run_WF HO HV).
  Qed.
  Lemma run_ilk ops k : fresh_ops ops -> osame (lki (run ops) k) (spec ops k).
  Proof.
    intros H. rewrite (lki_sim _ _ k (run_sim HC HO HV ops H)), (spec_run_sim HC HO).
    apply (run_lk HO HV).
  Qed.
  Lemma run_isnoc ops o : run (ops ++ [o]) = snd (im_exec cmp veqb st o (run ops)).
  Proof. unfold im_run, run_ops. rewrite fold_left_app. reflexivity. Qed.

  (** ** Entry lists *)
  Lemma sep_enc a b : @sep K' entry cmp' veq' (encx a) (encx b) ->
    ltb cmp (e0 a) (s0 b) = true /\
    (eqb cmp' (hi (e0 a)) (lo (s0 b)) = true -> veqb (snd a) (snd b) = false).
  Proof. intros [H1 H2]. cbn in *. rewrite (lohi_le HC HO). auto. Qed.

  Lemma WFi_ascending m : WFi m -> ascendingi cmp m.
  Proof.
    intros [_ [H _]]. unfold ascendingi. induction m as [|a m IH]; cbn in H; constructor.
    - apply StronglySorted_inv in H as [H _]. auto.
    - apply StronglySorted_inv in H as [_ H]. apply Forall_forall. intros b Hb.
      rewrite Forall_forall in H. apply sep_enc. apply H. apply in_map. exact Hb.
  Qed.
  Lemma WFi_valid m r v : WFi m -> In (r, v) m -> valid r = true.
  Proof.
    intros [_ [_ H]] Hin. rewrite (valid_sim HC HO). apply (H (encx (r, v))). apply in_map; exact Hin.
  Qed.
  Lemma WFi_coalesced m : WFi m -> coalescedi cmp veqb m.
  Proof.
    intros HW a b Ha Hb Hlt Hv.
    pose proof (WF_coalesced HO _ (proj2 HW) (encx a) (encx b) (in_map _ _ _ Ha) (in_map _ _ _ Hb)) as H.
    cbn in H. unfold veq' in H. cbn in H.
    destruct (cut_succ _ _ _ _ _ HC _ _ Hlt) as (s & Hs & H1 & H2).
    exists s. rewrite (lohi_le HC HO s (e0 a)), (lo_lt HC s (s0 b)).
    destruct (eqb cmp' (hi (e0 a)) (lo (s0 b))) eqn:E; [rewrite H in Hv by reflexivity; discriminate|].
    split; ord.
  Qed.
  Lemma WFi_iff m : WFi m <->
    fresh m /\ ascendingi cmp m /\ (forall r v, In (r, v) m -> valid r = true) /\ coalescedi cmp veqb m.
  Proof.
    split.
    - intros H. splits; [apply H|apply WFi_ascending; exact H| |apply WFi_coalesced; exact H].
      intros r v. apply WFi_valid; exact H.
    - intros (H1 & H2 & H3 & H4). split; [exact H1|]. apply (WF_iff HO). splits.
      + unfold ascending. clear H1 H3 H4. induction H2 as [|a m H2 IH Ha]; cbn; constructor; auto.
        apply Forall_forall. intros x Hx. apply in_map_iff in Hx as (b & <- & Hb).
        rewrite Forall_forall in Ha. specialize (Ha b Hb). rewrite (lohi_le HC HO) in Ha. exact Ha.
      + intros x y Hx Hy E. apply in_map_iff in Hx as (a & <- & Ha). apply in_map_iff in Hy as (b & <- & Hb).
        cbn in *. unfold veq'. cbn.
        destruct (veqb (snd a) (snd b)) eqn:Ev; [|reflexivity].
        destruct (H4 a b Ha Hb) as (k & Hk1 & Hk2); auto.
        * rewrite (lohi_le HC HO). ord.
        * rewrite (lohi_le HC HO) in Hk1. rewrite (lo_lt HC) in Hk2. ord.
      + intros r v Hin. apply in_map_iff in Hin as ([br bv] & Eb & Hb). unfold encx in Eb.
        injection Eb as E1 E2. subst r v. exact (eq_trans (eq_sym (valid_sim HC HO br)) (H3 br bv Hb)).
  Qed.

  (** an entry of the map covering a key is the only one *)
  Lemma WFi_unique m a b k : WFi m -> In a m -> In b m ->
    covers (fst a) k = true -> covers (fst b) k = true -> a = b.
  Proof.
    intros HW Ha Hb H1 H2.
    pose proof (WF_unique HO (encm m) (encx a) (encx b) (lo k) (proj2 HW)
                  (in_map _ _ _ Ha) (in_map _ _ _ Hb)) as H.
    cbn [encx fst] in H. rewrite !contains_in in H. exact (f_equal snd (H H1 H2)).
  Qed.

  Lemma get_enc m k : fresh m ->
    rm_get_key_value cmp' (encm m) (lo k) = omap (option_map encx) (im_get_key_value cmp m k).
  Proof.
    intros Hf. unfold rm_get_key_value, im_get_key_value, bt_range. cbn [bad_bounds obind omap].
    rewrite !drop_while_none by (intros; reflexivity).
    unfold encm. rewrite take_while_map.
    cbn [omap obind]. f_equal.
    set (l1 := take_while _ m).
    set (l2 := take_while _ m).
    assert (E : l1 = l2).
    { unfold l1, l2. apply take_while_ext. intros a _. cbn. unfold cmp_start, cmpi_start. cbn.
      rewrite (cut_lo _ _ _ _ _ HC). reflexivity. }
    rewrite E. clear E l1.
    rewrite last_opt_map. destruct (last_opt l2) as [e|] eqn:El; [|reflexivity].
    cbn [option_map encx fst].
    assert (Hin : In e m).
    { apply last_opt_In in El. unfold l2 in El. apply take_while_sub in El. exact El. }
    rewrite contains_in, icontains_in by (apply Hf; exact Hin).
    destruct (covers (fst e) k); reflexivity.
  Qed.

  Lemma find_enc m k : find (fun e => r_contains cmp' (fst e) (lo k)) (encm m) =
    option_map encx (find (fun e => covers (fst e) k) m).
  Proof.
    induction m as [|a m IH]; [reflexivity|]. cbn [encm map find encx fst]. rewrite contains_in.
    destruct (covers (fst a) k); [reflexivity|exact IH].
  Qed.
  Lemma get_key_value_iok m k : WFi m ->
    im_get_key_value cmp m k = Ret (find (fun e => covers (fst e) k) m).
  Proof.
    intros HW. pose proof (get_enc m k (proj1 HW)) as H.
    rewrite (get_key_value_ok HO _ _ (proj2 HW)), find_enc in H.
    destruct (im_get_key_value cmp m k) as [o| |]; cbn in H; try discriminate.
    injection H as H. f_equal.
    destruct o as [x|], (find _ m) as [y|]; cbn in H; try discriminate; try reflexivity.
    injection H as _ _ H. congruence.
  Qed.
  Lemma get_iok m k : WFi m -> im_get cmp m k = Ret (lki m k).
  Proof. intros HW. unfold im_get, omap. rewrite get_key_value_iok by exact HW. reflexivity. Qed.
  Lemma contains_iok m k : WFi m ->
    im_contains_key cmp m k = Ret (match lki m k with Some _ => true | None => false end).
  Proof. intros HW. unfold im_contains_key, omap. rewrite get_iok by exact HW. reflexivity. Qed.
  Lemma lki_In m k v : lki m k = Some v -> exists r, In (r, v) m /\ covers r k = true.
  Proof.
    unfold lki. destruct (find _ m) as [[r w]|] eqn:E; [|discriminate]. intros [= <-].
    apply find_some in E. eauto.
  Qed.
  Lemma lki_None m k : lki m k = None <-> (forall r v, In (r, v) m -> covers r k = false).
  Proof.
    unfold lki. destruct (find _ m) as [[r w]|] eqn:E; split; intros H.
    - discriminate.
    - apply find_some in E as [E1 E2]. specialize (H r w E1). cbn in E2. congruence.
    - intros r v Hin. exact (find_none _ _ E (r, v) Hin).
    - reflexivity.
  Qed.
  Lemma lki_WF_In m r v k : WFi m -> In (r, v) m -> covers r k = true -> lki m k = Some v.
  Proof.
    intros HW Hin Hc. unfold lki. destruct (find _ m) as [e|] eqn:E.
    - apply find_some in E as [E1 E2].
      rewrite (WFi_unique m e (r, v) k HW E1 Hin E2 Hc). reflexivity.
    - pose proof (find_none _ _ E (r, v) Hin) as H. cbn in H. congruence.
  Qed.

  Lemma get_key_value_iiff m k r v : WFi m ->
    im_get_key_value cmp m k = Ret (Some (r, v)) <-> In (r, v) m /\ covers r k = true.
  Proof.
    intros HW. rewrite get_key_value_iok by exact HW. split.
    - intros [= H]. apply find_some in H. exact H.
    - intros [H1 H2]. f_equal. destruct (find _ m) as [e|] eqn:E.
      + apply find_some in E as [E1 E2]. f_equal. exact (WFi_unique m e (r, v) k HW E1 H1 E2 H2).
      + pose proof (find_none _ _ E (r, v) H1) as H. cbn in H. congruence.
  Qed.
  Lemma get_key_value_inone m k : WFi m ->
    im_get_key_value cmp m k = Ret None <-> (forall r v, In (r, v) m -> covers r k = false).
  Proof.
    intros HW. rewrite get_key_value_iok by exact HW. rewrite <- lki_None. unfold lki.
    destruct (find _ m); cbn; split; congruence.
  Qed.
  Lemma get_itotal m k : WFi m -> exists o, im_get_key_value cmp m k = Ret o /\
    im_get cmp m k = Ret (option_map snd o) /\
    im_contains_key cmp m k = Ret (match o with Some _ => true | None => false end).
  Proof.
    intros HW. eexists. split; [apply get_key_value_iok; exact HW|]. split.
    - rewrite get_iok by exact HW. reflexivity.
    - rewrite contains_iok by exact HW. unfold lki. destruct (find _ m); reflexivity.
  Qed.

  (** ** [overlapping] *)
  Definition enco (o : overlappingi K V) : overlapping K' entry :=
    mkOverlapping (encr (ovi_query o)) (encm (ovi_iter o)).
  Lemma overlapping_enc m q :
    exists o, im_overlapping cmp m q = Ret o /\ ovi_query o = q /\
      rm_overlapping cmp' (encm m) (encr q) = Ret (enco o) /\
      (forall e, In e (ovi_iter o) -> In e m) /\
      (exists L, m = L ++ ovi_iter o).
  Proof.
    unfold im_overlapping, rm_overlapping, bt_range. cbn [bad_bounds obind].
    eexists. split; [reflexivity|]. cbn [ovi_query ovi_iter]. unfold enco. cbn [ovi_query ovi_iter].
    rewrite !take_while_all by (intros; reflexivity). splits; auto.
    - do 2 f_equal. unfold encm. rewrite drop_while_map. f_equal. apply drop_while_ext.
      intros a _. cbn. unfold cmp_end, cmpi_end. cbn.
      pose proof (lohi_le HC HO (ri_start q) (e0 a)) as H. unfold ltb, leb in H.
      destruct (cmp (e0 a) (ri_start q)), (cmp' (hi (e0 a)) (lo (ri_start q))); congruence.
    - intros e. apply drop_while_sub.
    - eexists. symmetry. apply take_drop_while.
  Qed.
  Lemma ov_enc_next d o :
    both (ov_next cmp') (ov_next_back cmp') d (enco o) =
    (option_map encx (fst (both (ovi_next cmp) (ovi_next_back cmp) d o)),
     enco (snd (both (ovi_next cmp) (ovi_next_back cmp) d o))).
  Proof.
    destruct o as [q l]. destruct d; cbn [both].
    - unfold ov_next, ovi_next, enco. cbn [ov_iter ov_query ovi_iter ovi_query].
      destruct l as [|a l]; cbn; [reflexivity|].
      rewrite (lohi_lt HC HO (s0 a) (ri_end q)).
      destruct (ltb cmp' (lo (s0 a)) (hi (ri_end q))); reflexivity.
    - unfold ov_next_back, ovi_next_back, enco. cbn [ov_iter ov_query ovi_iter ovi_query].
      unfold encm. rewrite <- map_rev. generalize (rev l) as rl. intros rl.
      assert (H : ov_back_loop cmp' (encr q) (map encx rl) =
                  (option_map encx (fst (ovi_back_loop cmp q rl)), map encx (snd (ovi_back_loop cmp q rl)))).
      { induction rl as [|a rl IH]; cbn; [reflexivity|].
        rewrite (lohi_lt HC HO (s0 a) (ri_end q)).
        destruct (ltb cmp' (lo (s0 a)) (hi (ri_end q))); [reflexivity|exact IH]. }
      rewrite H. destruct (ovi_back_loop cmp q rl) as [x rl']. cbn. rewrite map_rev. reflexivity.
  Qed.
  Lemma ov_enc_trace sched : forall o,
    map fst (sched_trace (both (ov_next cmp') (ov_next_back cmp')) (fun _ => tt) sched (enco o)) =
    map (option_map encx)
      (map fst (sched_trace (both (ovi_next cmp) (ovi_next_back cmp)) (fun _ => tt) sched o)).
  Proof.
    induction sched as [|d sched IH]; intros o; [reflexivity|]. cbn [sched_trace]. rewrite ov_enc_next.
    destruct (both (ovi_next cmp) (ovi_next_back cmp) d o) as [x o']. cbn [map fst snd]. rewrite IH. reflexivity.
  Qed.
  Lemma deque_run_map {A B} (f : A -> B) sched : forall l,
    deque_run sched (map f l) = map (option_map f) (deque_run sched l).
  Proof.
    unfold deque_run. induction sched as [|d sched IH]; intros l; [reflexivity|]. cbn [sched_trace].
    assert (E : deque_step d (map f l) = (option_map f (fst (deque_step d l)), map f (snd (deque_step d l)))).
    { destruct (rev_cases l) as [-> | (l' & a & ->)]; [reflexivity|].
      destruct d.
      - destruct l' as [|b l']; reflexivity.
      - rewrite map_app. cbn [map]. rewrite !deque_back_snoc. reflexivity. }
    rewrite E. destruct (deque_step d l) as [x l']. cbn [map fst snd]. rewrite IH. reflexivity.
  Qed.
  Lemma option_map_inj (l1 l2 : list (option entry)) :
    map (option_map encx) l1 = map (option_map encx) l2 -> l1 = l2.
  Proof.
    revert l2. induction l1 as [|x l1 IH]; intros [|y l2] H; cbn in H; try discriminate; [reflexivity|].
    injection H as H1 H2. f_equal; [|auto].
    destruct x, y; cbn in H1; try discriminate; [|reflexivity]. injection H1 as _ _ H1. congruence.
  Qed.
  Lemma meets_enc q e : meets cmp' (encr q) (encr e) = meetsi cmp q e.
  Proof.
    unfold meets, meetsi, encr. cbn [r_start r_end].
    rewrite (lohi_lt HC HO (ri_start q) (ri_end e)), (lohi_lt HC HO (ri_start e) (ri_end q)). reflexivity.
  Qed.
  Lemma overlapping_ischedule m q sched : WFi m ->
    exists o, im_overlapping cmp m q = Ret o /\
      map fst (sched_trace (both (ovi_next cmp) (ovi_next_back cmp)) (fun _ => tt) sched o) =
      deque_run sched (filter (fun e => meetsi cmp q (fst e)) m).
  Proof.
    intros HW. destruct (overlapping_enc m q) as (o & E1 & _ & E3 & _).
    destruct (overlapping_schedule HO (encm m) (encr q) sched (proj2 HW)) as (o' & E4 & E5).
    rewrite E3 in E4. injection E4 as <-. exists o. split; [exact E1|].
    apply option_map_inj. rewrite <- ov_enc_trace, E5, <- deque_run_map. f_equal.
    unfold encm. rewrite filter_map_swap. f_equal. apply filter_ext. intros a. cbn. apply meets_enc.
  Qed.
  Lemma overlaps_iok m q : WFi m ->
    im_overlaps cmp m q = Ret (existsb (fun e => meetsi cmp q (fst e)) m).
  Proof.
    intros HW. destruct (overlapping_ischedule m q [Front] HW) as (o & E1 & E2).
    unfold im_overlaps, omap. rewrite E1. cbn [obind]. f_equal. unfold deque_run in E2.
    cbn [sched_trace both] in E2. destruct (ovi_next cmp o) as [x o'].
    destruct (deque_step Front (filter (fun e => meetsi cmp q (fst e)) m)) as [y l'] eqn:E3.
    cbn in E2 |- *. injection E2 as ->.
    destruct (filter (fun e => meetsi cmp q (fst e)) m) as [|a l] eqn:E4; cbn in E3; injection E3 as <- <-.
    - symmetry. apply not_true_is_false. intros Ex. apply existsb_exists in Ex as (e & H1 & H2).
      assert (In e []) as []. rewrite <- E4. apply filter_In. auto.
    - symmetry. apply existsb_exists. exists a. apply (proj1 (filter_In (fun e => meetsi cmp q (fst e)) a m)). rewrite E4. left; reflexivity.
  Qed.
  Lemma meets_share q e : valid q = true -> valid e = true ->
    meetsi cmp q e = true <-> exists k, covers q k = true /\ covers e k = true.
  Proof.
    pose proof HK as HK0. unfold valid_rangei, meetsi, in_rangei. intros Hq He. split.
    - intros H. exists (kmax cmp (ri_start q) (ri_start e)). unfold kmax.
      destruct (ltb cmp (ri_start e) (ri_start q)) eqn:E; split; ord_by HK0.
    - intros (k & H1 & H2). ord_by HK0.
  Qed.

  (** ** [gaps] *)
  Definition gcut (g : gapsi K V) : K' :=
    if gpi_needs_plus_one g then hi (gpi_candidate_start g) else lo (gpi_candidate_start g).
  Definition gi_rel (g : gapsi K V) (l : list (range K')) : Prop :=
    WFi (gpi_iter g) /\
    (gpi_needs_plus_one g = true -> forall e, In e (gpi_iter g) -> ltb cmp (gpi_candidate_start g) (s0 e) = true) /\
    l = glist (cmp := cmp') (gcut g) (hi (gpi_query_end g)) (encm (gpi_iter g)).
  Lemma WFi_cons a m : WFi (a :: m) -> WFi m /\ forall b, In b m -> ltb cmp (e0 a) (s0 b) = true.
  Proof.
    intros [H1 H2]. cbn in H2. apply WF_cons in H2 as (H2 & H3 & H4). split.
    - split; [intros e He; apply H1; right; exact He|exact H3].
    - intros b Hb. apply sep_enc. apply H4. apply in_map; exact Hb.
  Qed.
  Lemma gi_step g l : gi_rel g l ->
    exists o g', gpi_next cmp st g = (Ret o, g') /\
    match l, o with
    | [], None => gi_rel g' []
    | a :: l', Some ai => Rn ai a /\ gi_rel g' l'
    | _, _ => False
    end.
  Proof.
    destruct g as [needs cand qend l0]. unfold gi_rel, gpi_next, gcut.
    cbn [gpi_iter gpi_candidate_start gpi_query_end gpi_needs_plus_one].
    assert (Fin : forall l0, WFi l0 -> (forall e, In e l0 -> ltb cmp qend (s0 e) = true) ->
      WFi l0 /\ (true = true -> forall e, In e l0 -> ltb cmp qend (s0 e) = true) /\
      [] = glist (cmp := cmp') (hi qend) (hi qend) (encm l0)).
    { intros m HW Hm. splits; auto. destruct m as [|a m]; cbn.
      - assert (E : ltb cmp' (hi qend) (hi qend) = false) by ord. rewrite E. reflexivity.
      - specialize (Hm a (or_introl eq_refl)). rewrite (lohi_le HC HO) in Hm. rewrite Hm.
        assert (E : ltb cmp' (hi qend) (hi qend) = false) by ord. rewrite E. reflexivity. }
    (* the part of [next] after the loop *)
    assert (Post : forall (needs : bool) (cand : K) (l0 rest : imap K V),
      WFi rest -> (forall e, In e rest -> ltb cmp qend (s0 e) = true) ->
      glist (cmp := cmp') (if needs then hi cand else lo cand) (hi qend) (encm l0) =
        (if ltb cmp' (if needs then hi cand else lo cand) (hi qend)
         then [mkR (if needs then hi cand else lo cand) (hi qend)] else []) ->
      exists (o : option (rangei K)) (g' : gapsi K V),
        (let g' := mkGapsI true qend qend rest in
         if needs then
           if ltb cmp cand qend
           then (omap (fun s => Some (incl s qend)) (step_o (add_one st cand)), g')
           else (Ret None, g')
         else if leb cmp cand qend then (Ret (Some (incl cand qend)), g')
         else (Ret None, g')) = (Ret o, g') /\
        match glist (cmp := cmp') (if needs then hi cand else lo cand) (hi qend) (encm l0), o with
        | [], None => WFi (gpi_iter g') /\
            (gpi_needs_plus_one g' = true -> forall e, In e (gpi_iter g') ->
               ltb cmp (gpi_candidate_start g') (s0 e) = true) /\
            [] = glist (cmp := cmp') (if gpi_needs_plus_one g' then hi (gpi_candidate_start g')
                        else lo (gpi_candidate_start g')) (hi (gpi_query_end g')) (encm (gpi_iter g'))
        | a :: l', Some ai => Rn ai a /\ WFi (gpi_iter g') /\
            (gpi_needs_plus_one g' = true -> forall e, In e (gpi_iter g') ->
               ltb cmp (gpi_candidate_start g') (s0 e) = true) /\
            l' = glist (cmp := cmp') (if gpi_needs_plus_one g' then hi (gpi_candidate_start g')
                        else lo (gpi_candidate_start g')) (hi (gpi_query_end g')) (encm (gpi_iter g'))
        | _, _ => False
        end).
    { intros nd cd m rest HW Hr ->. cbv zeta. destruct nd.
      - rewrite <- (hi_lt HC cd qend). destruct (ltb cmp cd qend) eqn:E.
        + destruct (cut_succ _ _ _ _ _ HC cd qend E) as (s & Hs & H1 & _). rewrite Hs. cbn [step_o omap].
          eexists _, _. split; [reflexivity|]. cbn [gpi_iter gpi_candidate_start gpi_query_end gpi_needs_plus_one].
          split; [|apply Fin; assumption]. split; [|reflexivity]. split; cbn; [ord|apply (ord_refl _ HO)].
        + eexists _, _. split; [reflexivity|]. apply Fin; assumption.
      - rewrite <- (lohi_lt HC HO cd qend). destruct (leb cmp cd qend) eqn:E.
        + eexists _, _. split; [reflexivity|]. split; [|apply Fin; assumption].
          split; [|reflexivity]. split; cbn; apply (ord_refl _ HO).
        + eexists _, _. split; [reflexivity|]. apply Fin; assumption. }
    revert needs cand l. induction l0 as [|[o v] l0 IH]; intros needs cand l (HW & Hc & ->).
    - cbn [gpi_loop]. apply (Post needs cand [] []); [exact HW|intros e []|reflexivity].
    - destruct (WFi_cons _ _ HW) as [HW' Hs]. cbn [fst] in Hs.
      cbn [gpi_loop]. rewrite (lohi_le HC HO (ri_start o) qend).
      destruct (leb cmp' (hi qend) (lo (ri_start o))) eqn:E1.
      + apply (Post needs cand ((o, v) :: l0) l0); [exact HW'| |].
        * intros e He. specialize (Hs e He). pose proof (WFi_valid _ o v HW (or_introl eq_refl)) as Hv.
          unfold valid_rangei in Hv. rewrite (lo_lt HC) in Hv |- *. rewrite (lohi_le HC HO) in Hs.
          pose proof (lohi_le HC HO (s0 e) qend) as X.
          pose proof (lo_lt HC qend (s0 e)) as X2. rewrite <- X2, X.
          pose proof (cut_in _ _ _ _ _ HC (ri_end o) (ri_end o)) as Y.
          rewrite (lo_le HC) in Y. specialize (Y ltac:(ord)). ord.
        * cbn [encm map encx glist fst encr r_start r_end]. cbn [encr r_start]. rewrite E1. reflexivity.
      + assert (Hcur : exists cur, (if needs then step_o (add_one st cand) else Ret cand) = Ret cur /\
                  cmp' (lo cur) (if needs then hi cand else lo cand) = Eq).
        { destruct needs.
          - specialize (Hc eq_refl (o, v) (or_introl eq_refl)). cbn in Hc.
            destruct (cut_succ _ _ _ _ _ HC cand _ Hc) as (s & Hs' & H1 & _). rewrite Hs'. exists s.
            split; [reflexivity|]. ord.
          - exists cand. split; [reflexivity|apply (ord_refl _ HO)]. }
        destruct Hcur as (cur & -> & Hcur).
        cbn [encm map encx glist fst]. cbn [encr r_start r_end]. rewrite E1.
        set (c := if needs then hi cand else lo cand) in *. clearbody c.
        assert (E2 : ltb cmp cur (ri_start o) = ltb cmp' c (lo (ri_start o))).
        { rewrite (lo_lt HC). ord. }
        rewrite E2. destruct (ltb cmp' c (lo (ri_start o))) eqn:E3.
        * destruct (cut_pred _ _ _ _ _ HC (ri_start o) cur E2) as (p & Hp & H1). rewrite Hp. cbn [step_o omap].
          eexists _, _. split; [reflexivity|].
          cbn [app gpi_iter gpi_candidate_start gpi_query_end gpi_needs_plus_one]. splits; auto.
          split; [|reflexivity]. split; cbn; assumption.
        * cbn [app]. apply (IH true (ri_end o)). splits; auto.
  Qed.

  Lemma gi_yields l : forall g, gi_rel g l ->
    exists gs, Forall2 Rn gs l /\ forall n, nexts_m (gpi_next cmp st) n g = map Ret (yields n gs).
  Proof.
    induction l as [|a l IH]; intros g HR.
    - exists []. split; [constructor|]. intros n. revert g HR.
      assert (Y : forall n, @yields (rangei K) n [] = repeat None n).
      { intros m. unfold yields. cbn. apply firstn_all2. rewrite repeat_length. auto. }
      induction n as [|n IHn]; intros g HR; [reflexivity|]. rewrite Y. cbn.
      destruct (gi_step g [] HR) as (o & g' & E & H). rewrite E. destruct o; [destruct H|].
      rewrite (IHn g' H), Y. reflexivity.
    - destruct (gi_step g (a :: l) HR) as (o & g' & E & H). destruct o as [ai|]; [|destruct H].
      destruct H as [H1 H2]. destruct (IH g' H2) as (gs & H3 & H4).
      exists (ai :: gs). split; [constructor; assumption|].
      intros [|n]; [reflexivity|]. cbn [nexts_m]. rewrite E, H4.
      rewrite (yields_cons n ai gs). reflexivity.
  Qed.

  Lemma gaps_iok m outer : WFi m ->
    exists g gs, im_gaps cmp m outer = Ret g /\
      (forall n, nexts_m (gpi_next cmp st) n g = map Ret (yields n gs)) /\
      gapsi_of cmp (lki m) outer gs.
  Proof.
    intros HW. destruct (overlapping_enc m outer) as (o & E1 & E2 & E3 & _ & LL & E4).
    destruct (overlapping_split HO (encm m) (encr outer) (proj2 HW)) as (L & N & EN & HL & HN & HR).
    rewrite E3 in HR. unfold enco in HR. rewrite E2 in HR.
    assert (HR2 : encm (ovi_iter o) = N) by congruence. clear HR. rename HR2 into HR.
    unfold im_gaps, omap. rewrite E1. cbn [obind].
    set (g := mkGapsI false (ri_start outer) (ri_end outer) (ovi_iter o)).
    assert (HG : gi_rel g (glist (cmp := cmp') (lo (ri_start outer)) (hi (ri_end outer)) N)).
    { unfold gi_rel, gcut, g. cbn. splits; [|discriminate|rewrite <- HR; reflexivity].
      split.
      - intros e He. apply (proj1 HW). rewrite E4. apply in_or_app; right; exact He.
      - pose proof (proj2 HW) as W. rewrite EN, <- HR in W. apply WF_app in W. apply W. }
    destruct (gi_yields _ g HG) as (gs & HF & HY). exists g, gs. splits; auto.
    pose proof (proj2 HW) as W. rewrite EN in W.
    pose proof (glist_gaps_of HO L N (encr outer) W HL HN) as (G1 & G2 & G3).
    cbn [encr r_start r_end] in G1, G2, G3. rewrite <- EN in G3. clear HG HY W HN HR EN HL E4.
    set (gs' := glist _ _ N) in *. clearbody gs'. unfold gapsi_of. splits.
    - intros x Hx. apply (Forall2_In_l _ _ _ _ HF) in Hx as (y & Hy & ((R1 & R2) & R3)).
      destruct (G1 y Hy) as (V1 & V2 & V3). split; [exact R3|].
      unfold valid_rangei, valid_range in *.
      rewrite (lohi_le HC HO (ri_start x) (ri_end x)), (lo_le HC (ri_start outer) (ri_start x)),
        (hi_le HC (ri_end x) (ri_end outer)). splits; ord.
    - clear G1 G3. induction HF as [|x y gs gs' ((R1 & R2) & R3) HF IH]; constructor.
      + apply IH. apply StronglySorted_inv in G2. apply G2.
      + apply StronglySorted_inv in G2 as [_ G2]. apply Forall_forall. intros z Hz.
        apply (Forall2_In_l _ _ _ _ HF) in Hz as (w & Hw & ((Q1 & Q2) & _)).
        rewrite Forall_forall in G2. specialize (G2 w Hw).
        assert (Hlt : ltb cmp (ri_end x) (ri_start z) = true).
        { rewrite (lohi_le HC HO). ord. }
        destruct (cut_succ _ _ _ _ _ HC _ _ Hlt) as (s & _ & H1 & H2). exists s.
        rewrite (lohi_le HC HO s (ri_end x)), (lo_lt HC s (ri_start z)). split; ord.
    - intros k. rewrite (in_sim HC HO outer k). unfold lki.
      transitivity (in_range cmp' (encr outer) (lo k) = true /\ lk' (encm m) (lo k) = None).
      + rewrite <- (G3 (lo k)). split; intros (x & Hx & Hk).
        * apply (Forall2_In_l _ _ _ _ HF) in Hx as (y & Hy & ((R1 & R2) & _)). exists y. split; [exact Hy|].
          rewrite (in_sim HC HO) in Hk. unfold in_range, encr in *. cbn [r_start r_end] in Hk. ord.
        * apply (Forall2_In_r _ _ _ _ HF) in Hx as (y & Hy & ((R1 & R2) & _)). exists y. split; [exact Hy|].
          rewrite (in_sim HC HO). unfold in_range, encr in *. cbn [r_start r_end]. ord.
      + rewrite lk_encm. destruct (find _ m); cbn; split; intros [H1 H2]; split; auto; discriminate.
  Qed.

  (** ** first / last / empty *)
  Lemma first_iok m : WFi m ->
    match im_first_range_value m with
    | None => m = []
    | Some e => In e m /\ forall x, In x m -> x = e \/ ltb cmp (e0 e) (s0 x) = true
    end.
  Proof.
    intros HW. destruct m as [|e m]; cbn; [reflexivity|]. split; [left; reflexivity|].
    intros x [-> | Hx]; [left; reflexivity|right]. apply (WFi_cons _ _ HW); exact Hx.
  Qed.
  Lemma last_iok m : WFi m ->
    match im_last_range_value m with
    | None => m = []
    | Some e => In e m /\ forall x, In x m -> x = e \/ ltb cmp (e0 x) (s0 e) = true
    end.
  Proof.
    intros HW. unfold im_last_range_value.
    destruct (rev_cases m) as [-> | (m' & e & ->)]; [reflexivity|]. rewrite last_opt_app.
    split; [apply in_mid|]. intros x Hx. apply in_app_or in Hx as [Hx|[-> | []]]; [right|left; reflexivity].
    pose proof (WFi_ascending _ HW) as HA. unfold ascendingi in HA. apply SS_app in HA as (_ & _ & HA).
    apply HA; [exact Hx|left; reflexivity].
  Qed.
  Lemma covers_start r : valid r = true -> covers r (ri_start r) = true.
  Proof. pose proof HK as HK0. unfold valid_rangei, in_rangei. intros H. ord_by HK0. Qed.
  Lemma empty_iiff m : WFi m -> im_is_empty m = true <-> forall k, lki m k = None.
  Proof.
    intros HW. destruct m as [|[r v] m]; cbn; [split; reflexivity|].
    split; [discriminate|]. intros H. specialize (H (ri_start r)).
    rewrite (lki_WF_In ((r, v) :: m) r v) in H; [discriminate|exact HW|left; reflexivity|].
    apply covers_start. apply (WFi_valid _ r v HW). left; reflexivity.
  Qed.

  (** ** Bulk construction *)
  Notation exec := (im_exec cmp veqb st).
  Notation ins l := (map (fun e : entry => OInsert (fst e) (snd e)) l).
  Lemma WFi_nil : WFi [].
  Proof. split; [intros e []|apply WF_nil]. Qed.
  Lemma extend_iprefix (good bad : list entry) m :
    (forall e, In e good -> ri_exhausted (fst e) = false) ->
    (forall e, In e good -> valid (fst e) = true) ->
    match bad with [] => True | e :: _ => valid (fst e) = false end ->
    WFi m ->
    im_extend cmp veqb st (good ++ bad) m =
      (match bad with [] => Ret tt | _ => Panicked PAssert end, run_ops exec (ins good) m).
  Proof.
    revert m. induction good as [|e good IH]; intros m Hf Hg Hb HW.
    - destruct bad as [|e bad]; [reflexivity|]. unfold im_extend. cbn [app for_each]. unfold bind.
      rewrite insert_ipanic by exact Hb. reflexivity.
    - unfold im_extend in *. cbn [app for_each map run_ops fold_left]. unfold bind at 1.
      assert (Hv : valid (fst e) = true) by (apply Hg; left; reflexivity).
      assert (He : ri_exhausted (fst e) = false) by (apply Hf; left; reflexivity).
      destruct (insert_iok (fst e) (snd e) m He HW Hv) as (m' & H1 & H2 & _).
      cbn [im_exec]. rewrite H1. cbn [snd]. apply IH; auto; intros x Hx; [apply Hf|apply Hg]; right; exact Hx.
  Qed.
  Lemma from_array_iloop (l : list entry) : forall m,
    im_from_array_loop cmp veqb st l m = im_extend cmp veqb st l m.
  Proof.
    induction l as [|[r v] l IH]; intros m; [reflexivity|]. unfold im_extend in *.
    cbn [im_from_array_loop for_each fst snd]. unfold bind.
    destruct (im_insert cmp veqb st r v m) as [[[]|p|] m']; auto.
  Qed.
  Lemma from_array_ieq l : im_from_array cmp veqb st l = im_from_iter cmp veqb st l.
  Proof. unfold im_from_array, im_from_iter. rewrite from_array_iloop. reflexivity. Qed.
  Lemma from_iter_iprefix (good bad : list entry) :
    (forall e, In e good -> ri_exhausted (fst e) = false) ->
    (forall e, In e good -> valid (fst e) = true) ->
    match bad with [] => True | e :: _ => valid (fst e) = false end ->
    im_from_iter cmp veqb st (good ++ bad) =
      match bad with [] => Ret (run (ins good)) | _ => Panicked PAssert end.
  Proof.
    intros Hf Hg Hb. unfold im_from_iter. rewrite extend_iprefix; auto; [|apply WFi_nil].
    destruct bad; reflexivity.
  Qed.

  (** ** serde *)
  Lemma visit_seq_iprefix {E} (good : list (K * K * V)) (rest : list (E + (K * K) * V)) m :
    (forall s e v, In (s, e, v) good -> leb cmp s e = true) -> WFi m ->
    match rest with inr ((s, e), v) :: _ => leb cmp s e = false | _ => True end ->
    im_visit_seq cmp veqb st (map inr good ++ rest) m =
    (match rest with
     | [] => Ret (inr tt) | inl err :: _ => Ret (inl err) | inr _ :: _ => Panicked PAssert end,
     run_ops exec (map (fun x => OInsert (incl (fst (fst x)) (snd (fst x))) (snd x)) good) m).
  Proof.
    assert (HVd : forall s e, valid (incl s e) = leb cmp s e).
    { pose proof HK as HK0. intros s e. unfold valid_rangei. cbn. ord_by HK0. }
    revert m. induction good as [|[[s e] v] good IH]; intros m Hg HW Hr.
    - cbn [map app]. destruct rest as [|[err|[[s e] v]] rest]; [reflexivity|reflexivity|].
      cbn [im_visit_seq]. unfold bind. rewrite insert_ipanic by (rewrite HVd; exact Hr). reflexivity.
    - cbn [map app im_visit_seq fst snd]. unfold bind at 1.
      assert (Hv : valid (incl s e) = true) by (rewrite HVd; apply (Hg s e v); left; reflexivity).
      destruct (insert_iok (incl s e) v m eq_refl HW Hv) as (m' & H1 & H2 & _).
      cbn [run_ops fold_left im_exec fst snd]. rewrite H1. cbn [snd]. apply IH; auto.
      intros s' e' v' Hx. apply (Hg s' e' v'). right; exact Hx.
  Qed.
  Lemma deserialize_iprefix {E} (good : list (K * K * V)) (rest : list (E + (K * K) * V)) :
    (forall s e v, In (s, e, v) good -> leb cmp s e = true) ->
    match rest with inr ((s, e), v) :: _ => leb cmp s e = false | _ => True end ->
    im_deserialize cmp veqb st (map inr good ++ rest) =
    match rest with
    | [] => Ret (inr (run (map (fun x => OInsert (incl (fst (fst x)) (snd (fst x))) (snd x)) good)))
    | inl err :: _ => Ret (inl err)
    | inr _ :: _ => Panicked PAssert
    end.
  Proof.
    intros Hg Hr. unfold im_deserialize. rewrite visit_seq_iprefix; auto; [|apply WFi_nil].
    destruct rest as [|[err|x] rest]; reflexivity.
  Qed.
End Facts.

Section Cover.
  Context {K K' V : Type} {cmp : K -> K -> comparison} {cmp' : K' -> K' -> comparison}.
  Context {veqb : V -> V -> bool} {st : stepfns K} {lo hi : K -> K'}.
  Context (HC : Cuts cmp cmp' st lo hi) (HO : TotalOrd cmp') (HV : PartialEquiv veqb).
  Context (Hcov : forall c, exists k, cmp' c (lo k) = Eq \/ cmp' c (hi k) = Eq).

  Notation entry := (rangei K * V)%type.
  Notation s0 e := (ri_start (fst e)).
  Notation e0 e := (ri_end (fst e)).
  Notation encr := (@encr K K' lo hi).
  Notation ence := (@ence K K' V lo hi).
  Notation encx := (@encx K K' V lo hi).
  Notation encm := (@encm K K' V lo hi).
  Notation WFi := (@WFi K K' V cmp' veqb lo hi).
  Notation lki := (@lki K V cmp).
  Notation lk' := (@lk K' _ cmp').
  Notation osame := (same_opt veqb).
  Notation covers := (in_rangei cmp).

  (** every cut is before some key, or beyond finitely many given keys *)
  Lemma cut_near c (es : list K) :
    (exists k, cmp' c (lo k) = Eq) \/ (forall e, In e es -> ltb cmp' c (hi e) = false).
  Proof.
    destruct (Hcov c) as (k & [H|H]); [left; eauto|].
    induction es as [|e es IH]; [right; intros e []|].
    destruct IH as [IH|IH]; [left; exact IH|].
    destruct (ltb cmp k e) eqn:E.
    - left. destruct (cut_succ _ _ _ _ _ HC k e E) as (s & _ & H1 & _). exists s. ord.
    - right. intros x [<- | Hx]; [|auto]. rewrite (hi_lt HC) in E. ord.
  Qed.
  Lemma lk_beyond {W} (m : rmap K' W) c : (forall e, In e m -> ltb cmp' c (r_end (fst e)) = false) ->
    lk' m c = None.
  Proof.
    intros H. apply lk_None. intros r v Hin. specialize (H _ Hin). cbn in H. unfold r_contains. rewrite H.
    apply andb_false_r.
  Qed.

  Lemma im_eqb_enc a b : fresh a -> fresh b ->
    im_eqb cmp veqb a b = rm_eqb cmp' (veq' (veqb := veqb)) (encm a) (encm b).
  Proof.
    unfold im_eqb, rm_eqb, im_iter, rm_iter. revert b.
    induction a as [|x a IH]; intros [|y b] Ha Hb; try reflexivity. unfold encm in *. cbn [map list_eqb].
    rewrite <- IH; [|intros e He; apply Ha; right; exact He|intros e He; apply Hb; right; exact He].
    do 2 f_equal. unfold ri_eqb, r_eqb. cbn.
    rewrite (Ha x (or_introl eq_refl)), (Hb y (or_introl eq_refl)), (lo_eq HC (s0 x) (s0 y)),
      (hi_eq HC (e0 x) (e0 y)). cbn. rewrite andb_true_r. reflexivity.
  Qed.
  Lemma eqb_iextensional (Hrefl : forall v, veqb v v = true) a b : WFi a -> WFi b ->
    im_eqb cmp veqb a b = true <-> (forall k, osame (lki a k) (lki b k)).
  Proof.
    intros [Fa Wa] [Fb Wb]. rewrite im_eqb_enc by assumption.
    rewrite (eqb_extensional HO (HV' HV) (fun v => Hrefl (snd v)) _ _ Wa Wb).
    assert (Hv : forall x y : entry, same_val (veq' (veqb := veqb)) x y <-> same_val veqb (snd x) (snd y)).
    { intros x y. unfold same_val, veq'. split; intros [H|H]; auto; right; [subst|rewrite H]; auto. }
    assert (Hk : forall k, same_opt (veq' (veqb := veqb)) (lk' (encm a) (lo k)) (lk' (encm b) (lo k)) <->
                           osame (lki a k) (lki b k)).
    { intros k. rewrite !(lk_encm HC HO). unfold lki.
      destruct (find _ a), (find _ b); cbn; try reflexivity. apply Hv. }
    split.
    - intros H k. apply Hk, H.
    - intros H c.
      destruct (cut_near c (map (fun e => e0 e) (a ++ b))) as [(k & Ek)|Hb].
      + rewrite !(lk_eqv HO _ _ _ Ek). apply Hk, H.
      + rewrite !lk_beyond; [exact I| |]; intros e He; apply in_map_iff in He as (x & <- & Hx); cbn;
          apply Hb; apply in_map_iff; exists x; split; auto; apply in_or_app; auto.
  Qed.

  Lemma imaximal_run m r v r' : WFi m -> In (r, v) m ->
    leb cmp (ri_start r') (ri_start r) = true -> leb cmp (ri_end r) (ri_end r') = true ->
    (forall k, covers r' k = true -> covers r k = false ->
       exists w, lki m k = Some w /\ veqb v w = true) ->
    eqb cmp (ri_start r') (ri_start r) = true /\ eqb cmp (ri_end r') (ri_end r) = true.
  Proof.
    intros HW Hin H1 H2 H.
    destruct (WFi_sim HO m HW) as [Hm HW'].
    rewrite (lo_eq HC (ri_start r') (ri_start r)), (hi_eq HC (ri_end r') (ri_end r)).
    apply (maximal_run HO HV (map ence m) (encr r) v (encr r') HW').
    - apply (in_map ence) in Hin. exact Hin.
    - rewrite (lo_le HC) in H1. exact H1.
    - rewrite (hi_le HC) in H2. exact H2.
    - intros c Hc1 Hc2. destruct (cut_near c [ri_end r']) as [(k & Ek)|Hn].
      + assert (Q1 : in_range cmp' (encr r') (lo k) = true) by (unfold in_range in *; ord).
        assert (Q2 : in_range cmp' (encr r) (lo k) = false) by (unfold in_range in *; ord).
        rewrite <- (in_sim HC HO) in Q1, Q2.
        destruct (H k Q1 Q2) as (w & Hw1 & Hw2). exists w. split; [|exact Hw2].
        rewrite (lk_eqv HO _ _ _ Ek), <- (lki_sim HC HO m _ k Hm). exact Hw1.
      + specialize (Hn _ (or_introl eq_refl)). unfold in_range, encr in Hc1. cbn in Hc1.
        rewrite Hn, andb_false_r in Hc1. discriminate.
  Qed.

  Lemma iminimal (Hrefl : forall v, veqb v v = true) m (f : K -> option V) (l : list entry) :
    WFi m -> (forall k, osame (lki m k) (f k)) -> describes covers veqb l f ->
    length m <= length l.
  Proof.
    intros HW Hf HD. destruct (WFi_sim HO m HW) as [Hm HW'].
    rewrite <- (map_length ence m), <- (map_length ence l).
    apply (minimal HO HV Hrefl (map ence m) (lk' (map ence m)) (map ence l) HW').
    - intros k. apply osame_refl.
    - intros c. destruct (cut_near c (map (fun e => e0 e) (l ++ m))) as [(k & Ek)|Hn].
      + rewrite (lk_eqv HO _ _ _ Ek), <- (lki_sim HC HO m _ k Hm). specialize (Hf k).
        destruct (HD k) as [D1 D2]. split.
        * intros r v Hin Hc. apply in_map_iff in Hin as ([r0 v0] & [= <- <-] & Hin).
          assert (Q : in_range cmp' (encr r0) (lo k) = true) by (unfold in_range, encr in *; cbn [r_start r_end] in *; ord).
          rewrite <- (in_sim HC HO) in Q.
          eapply (osame_trans HV); [apply (D1 r0 v0 Hin Q)|]. apply (osame_sym HV). exact Hf.
        * intros Hne. assert (Hfk : f k <> None).
          { intros E. rewrite E in Hf. destruct (lki m k); [destruct Hf|congruence]. }
          destruct (D2 Hfk) as (r & v & Hin & Hc). exists (encr r), v. split; [apply (in_map ence) in Hin; exact Hin|].
          rewrite (in_sim HC HO) in Hc. unfold in_range in *. ord.
      + split.
        * intros r v Hin Hc. apply in_map_iff in Hin as ([r0 v0] & [= <- <-] & Hin).
          assert (Q : ltb cmp' c (hi (ri_end r0)) = false).
          { apply Hn. apply in_map_iff. exists (r0, v0). split; [reflexivity|apply in_or_app; auto]. }
          unfold in_range in Hc. cbn in Hc. rewrite Q, andb_false_r in Hc. discriminate.
        * intros Hne. exfalso. apply Hne. apply lk_beyond. intros e He.
          apply in_map_iff in He as (x & <- & Hx). cbn. apply Hn. apply in_map_iff.
          exists x. split; [reflexivity|apply in_or_app; auto].
  Qed.
End Cover.
