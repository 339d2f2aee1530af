(** More facts about reachable [RangeMap]s: bulk construction, serde, hashing,
    ordering, minimality, update laws. *)
From Coq Require Import List Bool Sorting.Sorted Lia ZArith.
From Verif Require Import Order Outcome BTree SearchTree Ranges History Spec MapModel ListLemmas
  IterFacts MapProofs MapRemove MapFacts MapIter.
Import ListNotations.

(** ** Lexicographic orders are lawful *)
Section Lex.
  Context {A : Type} {c : A -> A -> comparison} (HC : TotalOrd c).

  Lemma lex_refl l : lex_cmp c l l = Eq.
  Proof. induction l as [|a l IH]; cbn; [reflexivity|]. rewrite (ord_refl _ HC). exact IH. Qed.
  Lemma lex_dual x : forall y, lex_cmp c y x = CompOpp (lex_cmp c x y).
  Proof.
    induction x as [|a x IH]; intros [|b y]; cbn; try reflexivity.
    rewrite (ord_dual _ HC a b). destruct (c a b); cbn; auto.
  Qed.
  Lemma lex_trans o x : forall y z, lex_cmp c x y = o -> lex_cmp c y z = o -> lex_cmp c x z = o.
  Proof.
    induction x as [|a x IH]; intros [|b y] [|d z]; cbn; intros H1 H2; try congruence.
    destruct (c a b) eqn:E1.
    - destruct (c b d) eqn:E2.
      + rewrite (ord_trans _ HC Eq a b d E1 E2). eapply IH; eauto.
      + rewrite (cmp_Eq_Lt HC a b d E1 E2). congruence.
      + apply (cmp_Lt_Gt HC) in E2. apply (cmp_Eq_sym HC) in E1.
        pose proof (cmp_Lt_Eq HC d b a E2 E1) as E3. apply (cmp_Lt_Gt HC) in E3. rewrite E3. congruence.
    - subst o. destruct (c b d) eqn:E2; try discriminate.
      + rewrite (cmp_Lt_Eq HC a b d E1 E2). reflexivity.
      + rewrite (ord_trans _ HC Lt a b d E1 E2). reflexivity.
    - subst o. destruct (c b d) eqn:E2; try discriminate.
      + apply (cmp_Lt_Gt HC) in E1. apply (cmp_Eq_sym HC) in E2.
        pose proof (cmp_Eq_Lt HC d b a E2 E1) as E3. apply (cmp_Lt_Gt HC) in E3. rewrite E3. reflexivity.
      + rewrite (ord_trans _ HC Gt a b d E1 E2). reflexivity.
  Qed.
  Lemma lex_order : TotalOrd (lex_cmp c).
  Proof. split; [apply lex_refl|intros; apply lex_dual|intros; eapply lex_trans; eauto]. Qed.
  Lemma lex_Eq x : forall y, lex_cmp c x y = Eq <-> Forall2 (fun a b => c a b = Eq) x y.
  Proof.
    induction x as [|a x IH]; intros [|b y]; cbn; split; intros H; try discriminate;
      try constructor; try (inversion H; fail).
    - destruct (c a b); congruence.
    - apply IH. destruct (c a b); congruence.
    - inversion H as [|? ? ? ? H1 H2]; subst. rewrite H1. apply IH; exact H2.
  Qed.
  Lemma lex_pcmp_total (p : A -> A -> option comparison) :
    (forall a b, p a b = Some (c a b)) -> forall x y, lex_pcmp p x y = Some (lex_cmp c x y).
  Proof.
    intros Hp x. induction x as [|a x IH]; intros [|b y]; cbn; try reflexivity.
    rewrite Hp. destruct (c a b); auto.
  Qed.
End Lex.

Section Triple.
  Context {K V : Type} {cmp : K -> K -> comparison} {vcmp : V -> V -> comparison}.
  Context (HO : TotalOrd cmp) (HVO : TotalOrd vcmp).
  Lemma triple_order : TotalOrd (triple_cmp cmp vcmp).
  Proof.
    (* a triple is compared as three consecutive comparisons *)
    assert (T : forall (c1 : K -> K -> comparison) (c2 : K * V -> K * V -> comparison),
      TotalOrd c1 -> TotalOrd c2 -> TotalOrd (fun x y : K * (K * V) =>
        match c1 (fst x) (fst y) with Eq => c2 (snd x) (snd y) | o => o end)).
    { intros c1 c2 H1 H2. split.
      - intros x. rewrite (ord_refl _ H1). apply (ord_refl _ H2).
      - intros x y. rewrite (ord_dual _ H1 (fst x)). destruct (c1 (fst x) (fst y)); cbn; auto.
        apply (ord_dual _ H2).
      - intros o x y z. destruct (c1 (fst x) (fst y)) eqn:E1, (c1 (fst y) (fst z)) eqn:E2; intros A B; try congruence.
        + rewrite (ord_trans _ H1 Eq _ _ _ E1 E2). eapply (ord_trans _ H2); eauto.
        + rewrite (cmp_Eq_Lt H1 _ _ _ E1 E2). congruence.
        + apply (cmp_Lt_Gt H1) in E2. apply (cmp_Eq_sym H1) in E1.
          pose proof (cmp_Lt_Eq H1 _ _ _ E2 E1) as E3. apply (cmp_Lt_Gt H1) in E3. rewrite E3. congruence.
        + rewrite (cmp_Lt_Eq H1 _ _ _ E1 E2). congruence.
        + rewrite (ord_trans _ H1 Lt _ _ _ E1 E2). congruence.
        + apply (cmp_Lt_Gt H1) in E1. apply (cmp_Eq_sym H1) in E2.
          pose proof (cmp_Eq_Lt H1 _ _ _ E2 E1) as E3. apply (cmp_Lt_Gt H1) in E3. rewrite E3. congruence.
        + rewrite (ord_trans _ H1 Gt _ _ _ E1 E2). congruence. }
    assert (P : TotalOrd (fun x y : K * V => match cmp (fst x) (fst y) with Eq => vcmp (snd x) (snd y) | o => o end)).
    { split.
      - intros x. rewrite (ord_refl _ HO). apply (ord_refl _ HVO).
      - intros x y. rewrite (ord_dual _ HO (fst x)). destruct (cmp (fst x) (fst y)); cbn; auto.
        apply (ord_dual _ HVO).
      - intros o x y z. destruct (cmp (fst x) (fst y)) eqn:E1, (cmp (fst y) (fst z)) eqn:E2; intros A B; try congruence.
        + rewrite (ord_trans _ HO Eq _ _ _ E1 E2). eapply (ord_trans _ HVO); eauto.
        + rewrite (cmp_Eq_Lt HO _ _ _ E1 E2). congruence.
        + apply (cmp_Lt_Gt HO) in E2. apply (cmp_Eq_sym HO) in E1.
          pose proof (cmp_Lt_Eq HO _ _ _ E2 E1) as E3. apply (cmp_Lt_Gt HO) in E3. rewrite E3. congruence.
        + rewrite (cmp_Lt_Eq HO _ _ _ E1 E2). congruence.
        + rewrite (ord_trans _ HO Lt _ _ _ E1 E2). congruence.
        + apply (cmp_Lt_Gt HO) in E1. apply (cmp_Eq_sym HO) in E2.
          pose proof (cmp_Eq_Lt HO _ _ _ E2 E1) as E3. apply (cmp_Lt_Gt HO) in E3. rewrite E3. congruence.
        + rewrite (ord_trans _ HO Gt _ _ _ E1 E2). congruence. }
    specialize (T _ _ HO P).
    assert (E : forall x y, triple_cmp cmp vcmp x y =
      (fun x y : K * (K * V) => match cmp (fst x) (fst y) with
         Eq => match cmp (fst (snd x)) (fst (snd y)) with Eq => vcmp (snd (snd x)) (snd (snd y)) | o => o end
       | o => o end) (fst (fst x), (snd (fst x), snd x)) (fst (fst y), (snd (fst y), snd y))).
    { intros [[a b] v] [[a' b'] v']. reflexivity. }
    split.
    - intros x. rewrite E. apply (ord_refl _ T).
    - intros x y. rewrite !E. apply (ord_dual _ T).
    - intros o x y z. rewrite !E. apply (ord_trans _ T).
  Qed.
  Lemma triple_Eq x y : triple_cmp cmp vcmp x y = Eq <->
    cmp (fst (fst x)) (fst (fst y)) = Eq /\ cmp (snd (fst x)) (snd (fst y)) = Eq /\ vcmp (snd x) (snd y) = Eq.
  Proof.
    destruct x as [[a b] v], y as [[a' b'] v']. cbn.
    destruct (cmp a a'), (cmp b b'), (vcmp v v'); split; intros H; try discriminate;
      try (destruct H as (? & ? & ?)); splits; congruence.
  Qed.
End Triple.

Section More.
  Context {K V : Type} {cmp : K -> K -> comparison} {veqb : V -> V -> bool}.
  Context (HO : TotalOrd cmp) (HV : PartialEquiv veqb).

  Notation ltb := (ltb cmp).
  Notation leb := (leb cmp).
  Notation eqb := (eqb cmp).
  Notation c_start := (cmp_start cmp).
  Notation entry := (range K * V)%type.
  Notation st e := (r_start (fst e)).
  Notation en e := (r_end (fst e)).
  Notation WF := (@WF K V cmp veqb).
  Notation sep := (@sep K V cmp veqb).
  Notation lk := (@lk K V cmp).
  Notation osame := (same_opt veqb).
  Notation spec := (spec_run (V := V) (valid_range cmp) (in_range cmp)).
  Notation spec1 := (spec_op (V := V) (valid_range cmp) (in_range cmp)).
  Notation run := (rm_run cmp veqb).
  Notation exec := (rm_exec cmp veqb).
  Notation ins l := (map (fun e : entry => OInsert (fst e) (snd e)) l).

  (** ** Bulk construction *)
  Lemma extend_prefix (good bad : list entry) m :
    (forall e, In e good -> valid_range cmp (fst e) = true) ->
    match bad with [] => True | e :: _ => valid_range cmp (fst e) = false end ->
    WF m ->
    rm_extend cmp veqb (good ++ bad) m =
      (match bad with [] => Ret tt | _ => Panicked PAssert end, run_ops exec (ins good) m).
  Proof.
    revert m. induction good as [|e good IH]; intros m Hg Hb HW.
    - destruct bad as [|e bad]; [reflexivity|]. unfold rm_extend. cbn [app for_each]. unfold bind.
      rewrite insert_panics by exact Hb. reflexivity.
    - unfold rm_extend in *. cbn [app for_each map run_ops fold_left]. unfold bind at 1.
      assert (Hv : valid_range cmp (fst e) = true) by (apply Hg; left; reflexivity).
      destruct (insert_ok HO HV m (fst e) (snd e) HW Hv) as (m' & H1 & H2 & _).
      cbn [rm_exec]. rewrite H1. cbn [snd]. apply IH; auto. intros x Hx. apply Hg. right; exact Hx.
  Qed.

  Lemma extend_all (l : list entry) m : WF m ->
    (forall e, In e l -> valid_range cmp (fst e) = true) ->
    rm_extend cmp veqb l m = (Ret tt, run_ops exec (ins l) m).
  Proof.
    intros HW H. rewrite <- (app_nil_r l) at 1. rewrite extend_prefix; auto.
  Qed.

  Lemma from_array_loop_eq (l : list entry) : forall m,
    rm_from_array_loop cmp veqb l m = rm_extend cmp veqb l m.
  Proof.
    induction l as [|[r v] l IH]; intros m; [reflexivity|]. unfold rm_extend in *.
    cbn [rm_from_array_loop for_each fst snd]. unfold bind.
    destruct (rm_insert cmp veqb r v m) as [[[]|p|] m']; auto.
  Qed.
  Lemma from_array_eq l : rm_from_array cmp veqb l = rm_from_iter cmp veqb l.
  Proof. unfold rm_from_array, rm_from_iter. rewrite from_array_loop_eq. reflexivity. Qed.

  Lemma from_iter_prefix (good bad : list entry) :
    (forall e, In e good -> valid_range cmp (fst e) = true) ->
    match bad with [] => True | e :: _ => valid_range cmp (fst e) = false end ->
    rm_from_iter cmp veqb (good ++ bad) =
      match bad with [] => Ret (run (ins good)) | _ => Panicked PAssert end.
  Proof.
    intros Hg Hb. unfold rm_from_iter. rewrite extend_prefix; auto; [|apply WF_nil].
    destruct bad; reflexivity.
  Qed.

  (** ** serde *)
  Lemma insert_append (A : rmap K V) e : WF (A ++ [e]) ->
    rm_insert cmp veqb (fst e) (snd e) A = (Ret tt, A ++ [e]).
  Proof.
    intros HW. pose proof HW as HW0. apply WF_app in HW0 as (HWA & HWe & HAe).
    apply WF_cons in HWe as (He & _ & _).
    assert (HA : forall a, In a A -> ltb (st a) (st e) = true).
    { intros a Ha. destruct (HAe a e Ha (or_introl eq_refl)) as [H _].
      pose proof (proj2 HWA a Ha). ord. }
    destruct e as [r v]. cbn [fst snd] in *.
    unfold rm_insert. unfold bind at 1, assert_. rewrite He. unfold ret at 1.
    unfold bind at 1, get at 1, bind at 1, lift at 1.
    assert (HR : bt_range c_start Unbounded (Included r) A = Ret A).
    { unfold bt_range. cbn [bad_bounds]. f_equal. rewrite drop_while_none.
      - apply take_while_all. intros a Ha. specialize (HA a Ha). cbn. unfold cmp_start.
        unfold Order.ltb in HA. destruct (cmp (st a) (r_start r)); try discriminate; reflexivity.
      - destruct A; cbn; auto. }
    rewrite HR. unfold bind at 1.
    assert (Hadj : match filter (fun e => r_touches cmp (fst e) r) (firstn 2 (rev A)) with
             | [] => ret r
             | [(s, sv)] => rm_adjust_touching_ranges_for_insert cmp veqb s sv r v
             | _ :: (s, sv) :: _ => rm_adjust_touching_ranges_for_insert cmp veqb s sv r v
             end A = (Ret r, A)).
    { destruct (rev_cases A) as [->|(A' & [x xv] & ->)]; [reflexivity|].
      rewrite rev_app_distr. cbn [rev app firstn].
      destruct (HAe (x, xv) (r, v) (in_mid A' (x, xv) []) (or_introl eq_refl)) as [Hx1 Hx2]. cbn in Hx1, Hx2.
      pose proof (proj2 HWA (x, xv) (in_mid A' (x, xv) [])) as Hxne. cbn in Hxne.
      assert (Hadj : r_touches cmp x r = true ->
        rm_adjust_touching_ranges_for_insert cmp veqb x xv r v (A' ++ [(x, xv)]) = (Ret r, A' ++ [(x, xv)])).
      { intros T. rewrite (touch_iff HO x r He) in T by (auto; ord).
        unfold rm_adjust_touching_ranges_for_insert. rewrite Hx2 by ord.
        assert (E : r_overlaps cmp r x = false).
        { unfold r_overlaps, kmax, kmin. destruct (ltb (r_start x) (r_start r)) eqn:?, (ltb (r_end x) (r_end r)) eqn:?; ord. }
        rewrite E. reflexivity. }
      destruct (rev A') as [|[y yv] rA] eqn:ER.
      - cbn. destruct (r_touches cmp x r) eqn:T; [apply Hadj; reflexivity|reflexivity].
      - assert (Hy : In (y, yv) A') by (apply in_rev; rewrite ER; left; reflexivity).
        pose proof HWA as HWA0. apply WF_app in HWA0 as (_ & _ & HA'x).
        destruct (HA'x (y, yv) (x, xv) Hy (or_introl eq_refl)) as [Hy1 _]. cbn in Hy1.
        assert (Ty : r_touches cmp y r = false).
        { pose proof (proj2 HWA (y, yv) (in_or_app _ _ _ (or_introl Hy))) as Hyne. cbn in Hyne.
          rewrite (touch_iff HO y r He) by (auto; ord). ord. }
        cbn. rewrite Ty. destruct (r_touches cmp x r) eqn:T; [apply Hadj; reflexivity|reflexivity]. }
    rewrite Hadj. unfold bind at 1, get at 1, bind at 1.
    replace (length A + 2) with (S (length A + 1)) by nlia. cbn [rm_insert_loop].
    unfold bind at 1, get at 1, bind at 1, lift at 1.
    assert (HR2 : bt_range c_start (Included r) (Included (mkR (r_end r) (r_end r))) A = Ret []).
    { unfold bt_range. cbn [bad_bounds]. unfold cmp_start at 1. cbn [r_start].
      assert (E : cmp (r_start r) (r_end r) = Lt) by ord. rewrite E. f_equal.
      rewrite drop_while_all; [reflexivity|]. intros a Ha. specialize (HA a Ha). cbn. unfold cmp_start.
      assert (E2 : cmp (st a) (r_start r) = Lt) by ord. rewrite E2. reflexivity. }
    rewrite HR2. cbn [it_next fst]. unfold ret, modify. f_equal.
    rewrite <- (app_nil_r A) at 1. rewrite (bt_insert_split HO A [] r v); auto.
  Qed.

  Lemma insert_all_app (l : list entry) : forall A, WF (A ++ l) -> run_ops exec (ins l) A = A ++ l.
  Proof.
    induction l as [|e l IH]; intros A HW; [rewrite app_nil_r; reflexivity|].
    cbn [map run_ops fold_left rm_exec].
    change (e :: l) with ([e] ++ l) in *. rewrite app_assoc in HW.
    pose proof HW as HW0. apply WF_app in HW0 as (HW0 & _ & _).
    rewrite (insert_append A e HW0). cbn [snd]. rewrite app_assoc. apply (IH (A ++ [e])). exact HW.
  Qed.

  Lemma visit_seq_prefix {E} (good : list entry) (rest : list (E + (K * K) * V)) m :
    (forall e, In e good -> valid_range cmp (fst e) = true) -> WF m ->
    match rest with inr ((s, e), v) :: _ => ltb s e = false | _ => True end ->
    rm_visit_seq cmp veqb (map (fun e => inr (r_start (fst e), r_end (fst e), snd e)) good ++ rest) m =
    (match rest with
     | [] => Ret (inr tt) | inl err :: _ => Ret (inl err) | inr _ :: _ => Panicked PAssert end,
     run_ops exec (ins good) m).
  Proof.
    revert m. induction good as [|[[s e] v] good IH]; intros m Hg HW Hr.
    - cbn [map app]. destruct rest as [|[err|[[s e] v]] rest]; [reflexivity|reflexivity|].
      cbn [rm_visit_seq]. unfold bind. rewrite insert_panics by exact Hr. reflexivity.
    - cbn [map app rm_visit_seq fst snd r_start r_end]. unfold bind at 1.
      assert (Hv : valid_range cmp (mkR s e) = true) by (apply (Hg (mkR s e, v)); left; reflexivity).
      destruct (insert_ok HO HV m (mkR s e) v HW Hv) as (m' & H1 & H2 & _).
      cbn [run_ops fold_left rm_exec fst snd]. rewrite H1. cbn [snd]. apply IH; auto.
      intros x Hx. apply Hg. right; exact Hx.
  Qed.

  Lemma deserialize_prefix {E} (good : list entry) (rest : list (E + (K * K) * V)) :
    (forall e, In e good -> valid_range cmp (fst e) = true) ->
    match rest with inr ((s, e), v) :: _ => ltb s e = false | _ => True end ->
    rm_deserialize cmp veqb (map (fun e => inr (r_start (fst e), r_end (fst e), snd e)) good ++ rest) =
    match rest with
    | [] => Ret (inr (run (ins good)))
    | inl err :: _ => Ret (inl err)
    | inr _ :: _ => Panicked PAssert
    end.
  Proof.
    intros Hg Hr. unfold rm_deserialize. rewrite visit_seq_prefix; auto; [|apply WF_nil].
    destruct rest as [|[err|x] rest]; reflexivity.
  Qed.

  Lemma round_trip (E : Type) m : WF m ->
    rm_deserialize (E := E) cmp veqb (map inr (snd (rm_serialize m))) = Ret (inr m).
  Proof.
    intros HW. unfold rm_serialize, rm_iter. cbn [snd]. rewrite map_map.
    rewrite <- (app_nil_r (map _ m)).
    rewrite (deserialize_prefix (E := E) m []); auto.
    - do 2 f_equal. apply (insert_all_app m []). exact HW.
    - intros e He. apply (proj2 HW e He).
  Qed.

  (** ** Hash *)
  Lemma hash_eq {T} (hk : K -> list T) (hv : V -> list T) a b :
    (forall x y, eqb x y = true -> hk x = hk y) ->
    (forall x y, veqb x y = true -> hv x = hv y) ->
    rm_eqb cmp veqb a b = true -> rm_hash hk hv a = rm_hash hk hv b.
  Proof.
    intros Hk Hv H. apply rm_eqb_Forall2 in H. unfold rm_hash, rm_iter. f_equal.
    - f_equal. induction H; cbn; congruence.
    - induction H as [|x y a b (H1 & H2 & H3) HF IH]; cbn; [reflexivity|].
      rewrite (Hk _ _ H1), (Hk _ _ H2), (Hv _ _ H3), IH. reflexivity.
  Qed.

  Lemma map_HUser_inj {T} (a b : list T) : forall x y : list (hwrite T),
    map HUser a ++ x = map HUser b ++ y ->
    (exists s t, a ++ s = b ++ t /\ (s = [] \/ t = [])).
  Proof.
    revert b. induction a as [|u a IH]; intros b x y H.
    - exists b, []. rewrite app_nil_r. auto.
    - destruct b as [|w b]; [exists [], (u :: a); rewrite app_nil_r; auto|].
      cbn in H. injection H as -> H. destruct (IH _ _ _ H) as (s & t & E & D).
      exists s, t. cbn. rewrite E. auto.
  Qed.

  (** prefix-free encodings are decodable *)
  Lemma hash_inj {T} (hk : K -> list T) (hv : V -> list T) a b :
    (forall x y s t, hk x ++ s = hk y ++ t -> eqb x y = true /\ hk x = hk y) ->
    (forall x y s t, hv x ++ s = hv y ++ t -> veqb x y = true /\ hv x = hv y) ->
    forall s t, rm_hash hk hv a ++ s = rm_hash hk hv b ++ t ->
    rm_eqb cmp veqb a b = true /\ rm_hash hk hv a = rm_hash hk hv b.
  Proof.
    intros Hk Hv s t H.
    enough (G : Forall2 entry_eq a b /\ rm_hash hk hv a = rm_hash hk hv b)
      by (split; [apply rm_eqb_Forall2|]; apply G).
    unfold rm_hash, rm_iter in *. cbn [app] in H. injection H as Hl H. rewrite Hl.
    enough (G : Forall2 entry_eq a b /\ flat_map (fun e => map HUser (hk (r_start (fst e)) ++ hk (r_end (fst e)) ++ hv (snd e))) a =
       flat_map (fun e => map HUser (hk (r_start (fst e)) ++ hk (r_end (fst e)) ++ hv (snd e))) b)
      by (split; [|f_equal]; apply G).
    revert b Hl H. induction a as [|x a IH]; intros [|y b] Hl H; cbn in Hl; try discriminate; [split; constructor|].
    cbn [flat_map] in H |- *. rewrite !map_app, <- !app_assoc in H.
    destruct (map_HUser_inj _ _ _ _ H) as (s1 & t1 & E1 & _).
    destruct (Hk _ _ _ _ E1) as [K1 K2]. rewrite K2 in H. apply app_inv_head in H.
    destruct (map_HUser_inj _ _ _ _ H) as (s2 & t2 & E2 & _).
    destruct (Hk _ _ _ _ E2) as [K3 K4]. rewrite K4 in H. apply app_inv_head in H.
    destruct (map_HUser_inj _ _ _ _ H) as (s3 & t3 & E3 & _).
    destruct (Hv _ _ _ _ E3) as [K5 K6]. rewrite K6 in H. apply app_inv_head in H.
    destruct (IH b) as [G1 G2]; [congruence|exact H|]. rewrite K2, K4, K6, G2.
    split; [constructor; [unfold entry_eq; auto|exact G1]|reflexivity].
  Qed.

  (** ** Ord *)
  Lemma rm_cmp_order (vcmp : V -> V -> comparison) : TotalOrd vcmp ->
    TotalOrd (@rm_cmp K V cmp vcmp).
  Proof.
    intros HVO. pose proof (lex_order (triple_order HO HVO)) as H. unfold rm_cmp. split.
    - intros x. apply (ord_refl _ H).
    - intros x y. apply (ord_dual _ H).
    - intros o x y z. apply (ord_trans _ H).
  Qed.
  Lemma rm_cmp_Eq (vcmp : V -> V -> comparison) a b :
    (forall x y, vcmp x y = Eq <-> veqb x y = true) ->
    rm_cmp cmp vcmp a b = Eq <-> rm_eqb cmp veqb a b = true.
  Proof.
    intros Hv. rewrite rm_eqb_Forall2. unfold rm_cmp. rewrite lex_Eq. unfold rm_expanded_iter.
    assert (Ec : forall x y, cmp x y = Eq <-> eqb x y = true).
    { intros x y. unfold Order.eqb. destruct (cmp x y); split; congruence. }
    revert b. induction a as [|x a IH]; intros [|y b]; cbn; split; intros H; try constructor; try (inversion H; fail).
    - inversion H as [|? ? ? ? H1 H2]; subst. apply triple_Eq in H1. cbn in H1.
      rewrite !Ec, Hv in H1. exact H1.
    - inversion H; subst. apply IH. assumption.
    - inversion H as [|? ? ? ? H1 H2]; subst. apply triple_Eq. cbn. rewrite !Ec, Hv. exact H1.
    - inversion H; subst. apply IH. assumption.
  Qed.
  Lemma rm_partial_cmp_total (vcmp : V -> V -> comparison) pcmp vpcmp a b :
    (forall x y, pcmp x y = Some (cmp x y)) -> (forall x y, vpcmp x y = Some (vcmp x y)) ->
    rm_partial_cmp pcmp vpcmp a b = Some (rm_cmp cmp vcmp a b).
  Proof.
    intros H1 H2. unfold rm_partial_cmp, rm_cmp. apply lex_pcmp_total.
    intros [[x y] v] [[x' y'] v']. unfold triple_pcmp, triple_cmp. rewrite !H1, !H2.
    destruct (cmp x x'); auto. destruct (cmp y y'); auto.
  Qed.

  (** ** Minimality *)
  Lemma pigeon {A B} (P : A -> B -> Prop) : forall (m : list A) (l : list B),
    NoDup m -> (forall a, In a m -> exists b, In b l /\ P a b) ->
    (forall a a' b, In a m -> In a' m -> P a b -> P a' b -> a = a') ->
    length m <= length l.
  Proof.
    induction m as [|a m IH]; intros l Hnd He Hi; [cbn; lia|].
    destruct (He a (or_introl eq_refl)) as (b & Hb & Pb).
    destruct (in_split _ _ Hb) as (l1 & l2 & ->).
    inversion Hnd as [|? ? Hna Hnd']; subst.
    assert (length m <= length (l1 ++ l2)).
    { apply IH; auto.
      - intros a' Ha'. destruct (He a' (or_intror Ha')) as (b' & Hb' & Pb').
        exists b'. split; [|exact Pb']. apply in_app_or in Hb' as [H|[<-|H]]; [apply in_or_app; auto| |apply in_or_app; auto].
        exfalso. apply Hna. rewrite (Hi a a' b (or_introl eq_refl) (or_intror Ha') Pb Pb'). exact Ha'.
      - intros x y z Hx Hy. apply Hi; right; assumption. }
    rewrite app_length in *. cbn. lia.
  Qed.

  Lemma WF_NoDup m : WF m -> NoDup m.
  Proof.
    induction m as [|e m IH]; intros HW; constructor.
    - apply WF_cons in HW as (H1 & _ & H2). intros Hin. destruct (H2 e Hin) as [H3 _]. ord.
    - apply WF_cons in HW as (_ & HW & _). auto.
  Qed.

  Lemma pigeon_in {A B} (P : A -> B -> Prop) (m : list A) (l : list B) :
    NoDup m -> (forall a, In a m -> exists b, In b l /\ P a b) ->
    (forall a a' b, In a m -> In a' m -> In b l -> P a b -> P a' b -> a = a') ->
    length m <= length l.
  Proof.
    intros H1 H2 H3. apply (pigeon (fun a b => In b l /\ P a b)); auto.
    - intros a Ha. destruct (H2 a Ha) as (b & Hb & Pb). eauto.
    - intros a a' b Ha Ha' (Hb & Pa) (_ & Pb). eapply H3; eauto.
  Qed.

  Lemma minimal (Hrefl : forall v, veqb v v = true) m (f : K -> option V) (l : list entry) :
    WF m -> (forall k, osame (lk m k) (f k)) -> describes (in_range cmp) veqb l f ->
    length m <= length l.
  Proof.
    intros HW Hf HD.
    assert (Hv : forall a b, same_val veqb a b -> veqb a b = true) by (intros a b [->|H]; auto).
    apply (pigeon_in (fun e x => in_range cmp (fst x) (st e) = true)).
    - apply WF_NoDup, HW.
    - intros [r v] Hin. destruct (HD (r_start r)) as [_ H].
      pose proof (proj2 HW _ Hin) as Hr. cbn in Hr.
      assert (E : lk m (r_start r) = Some v).
      { apply (lk_WF_In HO m r v _ HW Hin). unfold r_contains. ord. }
      specialize (Hf (r_start r)). rewrite E in Hf.
      destruct H as (x & vx & H1 & H2).
      + destruct (f (r_start r)); [discriminate|destruct Hf].
      + exists (x, vx). auto.
    - (* two entries starting in the same piece coincide *)
      assert (Key : forall a b x vx, In a m -> In b m -> In (x, vx) l ->
        in_range cmp x (st a) = true -> in_range cmp x (st b) = true -> sep a b -> False).
      { intros [ra va] [rb vb] x vx Ha Hb Hx Xa Xb [S1 S2]. cbn in *.
        pose proof (proj2 HW _ Ha) as Ra. pose proof (proj2 HW _ Hb) as Rb. cbn in Ra, Rb.
        unfold in_range in Xa, Xb.
        assert (Ea : lk m (r_start ra) = Some va).
        { apply (lk_WF_In HO m ra va _ HW Ha). unfold r_contains. ord. }
        destruct (HD (r_start ra)) as [Da _]. specialize (Da x vx Hx).
        destruct (HD (r_end ra)) as [Db _]. specialize (Db x vx Hx).
        pose proof (Hf (r_start ra)) as Fa. pose proof (Hf (r_end ra)) as Fb. rewrite Ea in Fa.
        destruct (f (r_start ra)) as [wa|]; [|destruct Fa]. cbn in Fa, Da.
        specialize (Da ltac:(unfold in_range; ord)). specialize (Db ltac:(unfold in_range; ord)).
        destruct (f (r_end ra)) as [wb|]; [|destruct Db]. cbn in Db.
        destruct (lk m (r_end ra)) as [w|] eqn:Ew; [|destruct Fb]. cbn in Fb.
        apply Hv in Fa. apply Hv in Fb. apply Hv in Da. apply Hv in Db.
        assert (Q : veqb va w = true).
        { eapply (veq_trans _ HV); [exact Fa|]. eapply (veq_trans _ HV); [apply (veq_sym _ HV); exact Da|].
          eapply (veq_trans _ HV); [exact Db|]. apply (veq_sym _ HV); exact Fb. }
        destruct (lk_In _ _ _ Ew) as (rw & W1 & W2). unfold r_contains in W2.
        pose proof (proj2 HW _ W1) as Rw. cbn in Rw.
        destruct (SS_In_cases _ _ _ _ (proj1 HW) Ha W1) as [[= <- <-]|[[H3 H4]|[H3 _]]]; cbn in *.
        - ord.
        - rewrite H4 in Q; [discriminate|]. ord.
        - ord. }
      intros a b [x vx] Ha Hb Hx. cbn [fst]. intros Xa Xb.
      destruct (SS_In_cases _ _ _ _ (proj1 HW) Ha Hb) as [->|[H|H]]; [reflexivity|exfalso|exfalso]; eauto.
  Qed.

  (** ** Order by end *)
  Lemma cmp_start_order : TotalOrd (cmp_start cmp).
  Proof.
    split; unfold cmp_start; intros; [apply (ord_refl _ HO)|apply (ord_dual _ HO)|].
    eapply (ord_trans _ HO); eauto.
  Qed.
  Lemma cmp_end_order : TotalOrd (cmp_end cmp).
  Proof.
    split; unfold cmp_end; intros; [apply (ord_refl _ HO)|apply (ord_dual _ HO)|].
    eapply (ord_trans _ HO); eauto.
  Qed.
  Lemma WF_sorted_by m : WF m -> sorted_by (cmp_start cmp) m /\ sorted_by (cmp_end cmp) m.
  Proof.
    intros HW. split; intros l1 a l2 b l3 ->; apply WF_app in HW as (_ & HW & _);
      apply WF_cons in HW as (Ha & HWb & Hs);
      destruct (Hs b (in_mid l2 b l3)) as [H _]; pose proof (proj2 HWb b (in_mid l2 b l3)) as Hb;
      unfold cmp_start, cmp_end; ord.
  Qed.
  Lemma tree_search m (t : tree (range K * V)) : WF m -> elems t = m ->
    forall c, c = cmp_start cmp \/ c = cmp_end cmp ->
    forall lo hi, bad_bounds c lo hi = false -> bt_range c lo hi m = Ret (tree_range c lo hi t).
  Proof.
    intros HW <- c Hc lo hi Hb. destruct (WF_sorted_by _ HW) as [H1 H2].
    destruct Hc as [-> | ->]; apply tree_range_ok; auto using cmp_start_order, cmp_end_order.
  Qed.

  (** ** Update laws *)
  Lemma spec_app ops1 ops2 : spec (ops1 ++ ops2) = fold_left spec1 ops2 (spec ops1).
  Proof. unfold spec_run. apply fold_left_app. Qed.

  Lemma law (Hrefl : forall v, veqb v v = true) ops a b :
    (forall f k, fold_left spec1 a f k = fold_left spec1 b f k) ->
    rm_eqb cmp veqb (run (ops ++ a)) (run (ops ++ b)) = true.
  Proof.
    intros H. apply (run_eqb_spec HO HV Hrefl). intros k. rewrite !spec_app, H. apply osame_refl.
  Qed.

  Definition disjoint (r1 r2 : range K) : Prop :=
    forall k, in_range cmp r1 k = true -> in_range cmp r2 k = true -> False.

  Lemma law_insert_insert r v f k :
    fold_left spec1 [OInsert r v; OInsert r v] f k = fold_left spec1 [OInsert r v] f k.
  Proof. cbn. destruct (valid_range cmp r); [|reflexivity]. unfold put. destruct (in_range cmp r k); reflexivity. Qed.
  Lemma law_remove_remove r f k :
    fold_left spec1 [ORemove r; ORemove r] f k = fold_left (B:=op (range K) V) spec1 [ORemove r] f k.
  Proof. cbn. destruct (valid_range cmp r); [|reflexivity]. unfold del. destruct (in_range cmp r k); reflexivity. Qed.
  Lemma law_insert_remove r v f k :
    fold_left spec1 [OInsert r v; ORemove r] f k = fold_left spec1 [ORemove r] f k.
  Proof. cbn. destruct (valid_range cmp r); [|reflexivity]. unfold put, del. destruct (in_range cmp r k); reflexivity. Qed.
  Lemma law_remove_insert r v f k :
    fold_left spec1 [ORemove r; OInsert r v] f k = fold_left spec1 [OInsert r v] f k.
  Proof. cbn. destruct (valid_range cmp r); [|reflexivity]. unfold put, del. destruct (in_range cmp r k); reflexivity. Qed.
  Lemma law_covered r1 v1 r2 v2 f k :
    (forall x, in_range cmp r1 x = true -> in_range cmp r2 x = true) ->
    fold_left spec1 [OInsert r1 v1; OInsert r2 v2] f k = fold_left spec1 [OInsert r2 v2] f k.
  Proof.
    intros H. specialize (H k). cbn. destruct (valid_range cmp r1) eqn:E1; [|reflexivity].
    destruct (valid_range cmp r2) eqn:E2; unfold put.
    - destruct (in_range cmp r2 k); [reflexivity|]. destruct (in_range cmp r1 k); [|reflexivity].
      discriminate H; reflexivity.
    - destruct (in_range cmp r1 k) eqn:Ek; [exfalso|reflexivity].
      specialize (H eq_refl). unfold in_range, valid_range in *. ord.
  Qed.
  Lemma law_commute r1 v1 r2 v2 f k : disjoint r1 r2 ->
    fold_left spec1 [OInsert r1 v1; OInsert r2 v2] f k = fold_left spec1 [OInsert r2 v2; OInsert r1 v1] f k.
  Proof.
    intros H. specialize (H k). cbn. destruct (valid_range cmp r1), (valid_range cmp r2); try reflexivity.
    unfold put. destruct (in_range cmp r1 k), (in_range cmp r2 k); try reflexivity. exfalso; auto.
  Qed.
  Lemma law_commute_remove r1 r2 f k :
    fold_left spec1 [ORemove r1; ORemove r2] f k =
    fold_left (B:=op (range K) V) spec1 [ORemove r2; ORemove r1] f k.
  Proof.
    cbn. destruct (valid_range cmp r1), (valid_range cmp r2); try reflexivity.
    unfold del. destruct (in_range cmp r1 k), (in_range cmp r2 k); reflexivity.
  Qed.
  Lemma law_commute_mixed r1 v1 r2 f k : disjoint r1 r2 ->
    fold_left spec1 [OInsert r1 v1; ORemove r2] f k = fold_left spec1 [ORemove r2; OInsert r1 v1] f k.
  Proof.
    intros H. specialize (H k). cbn. destruct (valid_range cmp r1), (valid_range cmp r2); try reflexivity.
    unfold put, del. destruct (in_range cmp r1 k), (in_range cmp r2 k); try reflexivity. exfalso; auto.
  Qed.
End More.
