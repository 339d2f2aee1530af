(** Interrupted queries of [RangeInclusiveMap]. *)
From Coq Require Import List Bool Arith Lia Sorting.Sorted.
From Verif Require Import Order Outcome BTree Ranges History Spec SpecHalt ListLemmas IterFacts
  MapModel IMapModel MapProofs MapIter ISim IFacts Cuts Exhausted AnyFacts ProgFacts HaltModel HaltFacts.
Import ListNotations.

Section Incl.
  Context {K V : Type} {cmp : K -> K -> comparison} {st : stepfns K} (HO : TotalOrd cmp).
  Notation ltb := (ltb cmp).
  Notation leb := (leb cmp).
  Notation entry := (rangei K * V)%type.

  (** what the queries rely on; the exhausted flags do not matter *)
  Definition ok (l : list entry) : Prop :=
    ascendingi cmp l /\ (forall e, In e l -> leb (ri_start (fst e)) (ri_end (fst e)) = true).
  Lemma ok_cons e l : ok (e :: l) -> ok l /\
    (forall b, In b l -> ltb (ri_end (fst e)) (ri_start (fst b)) = true) /\
    leb (ri_start (fst e)) (ri_end (fst e)) = true.
  Proof.
    intros [H1 H2]. apply SS_cons in H1 as [H1 H3]. split; [split; [exact H1|]|split; [exact H3|]].
    - intros b Hb. apply H2. right; exact Hb.
    - apply H2. left; reflexivity.
  Qed.
  Lemma ok_app l1 l2 : ok (l1 ++ l2) -> ok l1 /\ ok l2.
  Proof.
    intros [H1 H2]. apply SS_app in H1 as (H1 & H3 & _). split; (split; [assumption|]);
      intros e He; apply H2, in_or_app; auto.
  Qed.
  Lemma ok_drops n l l' : drops n l l' -> ok l -> ok l'.
  Proof.
    intros HD [H1 H2]. split; [eapply drops_SS; eassumption|]. intros e He. apply H2. eapply drops_In; eauto.
  Qed.

  (** *** [Overlapping] *)
  Definition before (q : rangei K) (e : entry) : bool := ltb (ri_end (fst e)) (ri_start q).
  Lemma overlapping_at (m : imap K V) q :
    im_overlapping cmp m q = Ret (mkOverlappingI q (drop_while (before q) m)).
  Proof.
    unfold im_overlapping, bt_range. cbn [bad_bounds obind]. rewrite take_while_all by (intros; reflexivity).
    do 2 f_equal.
  Qed.
  Lemma before_split (m : imap K V) q : ok m ->
    exists L, m = L ++ drop_while (before q) m /\ (forall a, In a L -> before q a = true) /\
      (forall b, In b (drop_while (before q) m) -> before q b = false).
  Proof.
    intros Hm. exists (take_while (before q) m). splits.
    - symmetry. apply take_drop_while.
    - clear Hm. induction m as [|b m IH]; cbn; [intros a []|]. destruct (before q b) eqn:E; [|intros a []].
      intros a [<- | Ha]; [exact E|apply IH, Ha].
    - induction m as [|a m IH]; cbn; [intros b []|]. apply ok_cons in Hm as (Hm & H2 & H3).
      destruct (before q a) eqn:E; [apply IH, Hm|]. intros b [<- | Hb]; [exact E|].
      specialize (H2 b Hb). destruct Hm as [_ Hv]. specialize (Hv b Hb). unfold before in *. ord.
  Qed.

  Definition ovi_rel (q : rangei K) (o : overlappingi K V) (D : list entry) : Prop :=
    ovi_query o = q /\ ok (ovi_iter o) /\ D = filter (fun e => leb (ri_start (fst e)) (ri_end q)) (ovi_iter o).
  Lemma ovhi_next_eq q (e : entry) l :
    ovhi_next cmp (mkOverlappingI q (e :: l)) =
    (let o' := mkOverlappingI q l in
     ([(UBorrow, o'); (UCmp, o')], (Ret (if leb (ri_start (fst e)) (ri_end q) then Some e else None), o'))).
  Proof. reflexivity. Qed.
  Lemma ovhi_loop_eq (e : entry) rl (o : overlappingi K V) :
    ovhi_back_loop cmp (e :: rl) o =
    (let o' := mkOverlappingI (ovi_query o) (rev rl) in
     if leb (ri_start (fst e)) (ri_end (ovi_query o))
     then ([(UBorrow, o'); (UCmp, o')], (Ret (Some e), o'))
     else let (t, x) := ovhi_back_loop cmp rl o' in ((UBorrow, o') :: (UCmp, o') :: t, x)).
  Proof.
    cbn [ovhi_back_loop]. unfold hbind, hmodify, hget, user, hret. cbn [ovi_query].
    destruct (leb (ri_start (fst e)) (ri_end (ovi_query o))); [reflexivity|].
    destruct (ovhi_back_loop cmp rl (mkOverlappingI (ovi_query o) (rev rl))) as [t [[a|p|] x]]; reflexivity.
  Qed.
  Lemma ovhi_back_eq (o : overlappingi K V) : ovhi_next_back cmp o = ovhi_back_loop cmp (rev (ovi_iter o)) o.
  Proof.
    unfold ovhi_next_back, hbind, hget.
    destruct (ovhi_back_loop cmp (rev (ovi_iter o)) o) as [t [[a|p|] x]]; reflexivity.
  Qed.
  (** forgetting the user calls *)
  Lemma ovhi_loop_erase q rl : forall o : overlappingi K V, ovi_query o = q -> ovi_iter o = rev rl ->
    snd (ovhi_back_loop cmp rl o) =
    (Ret (fst (ovi_back_loop cmp q rl)), mkOverlappingI q (rev (snd (ovi_back_loop cmp q rl)))).
  Proof.
    induction rl as [|e rl IH]; intros o <- Ho.
    - destruct o as [q l]. cbn in Ho |- *. subst l. reflexivity.
    - rewrite ovhi_loop_eq. cbv zeta. cbn [ovi_back_loop].
      destruct (leb (ri_start (fst e)) (ri_end (ovi_query o))); [reflexivity|].
      specialize (IH (mkOverlappingI (ovi_query o) (rev rl)) eq_refl eq_refl).
      destruct (ovhi_back_loop cmp rl (mkOverlappingI (ovi_query o) (rev rl))) as [t x]. exact IH.
  Qed.
  Lemma ovhi_step_erase d (o : overlappingi K V) :
    snd (ovhi_step cmp d o) =
    (Ret (fst (both (ovi_next cmp) (ovi_next_back cmp) d o)), snd (both (ovi_next cmp) (ovi_next_back cmp) d o)).
  Proof.
    destruct d; cbn [ovhi_step both].
    - destruct o as [q [|e l]]; reflexivity.
    - rewrite ovhi_back_eq, (ovhi_loop_erase (ovi_query o)) by (rewrite ?rev_involutive; reflexivity).
      unfold ovi_next_back. destruct (ovi_back_loop cmp (ovi_query o) (rev (ovi_iter o))). reflexivity.
  Qed.
  Lemma ovhi_done q d (o : overlappingi K V) D : ovi_rel q o D ->
    fst (snd (ovhi_step cmp d o)) = Ret (fst (deque_step d D)) /\
    ovi_rel q (snd (snd (ovhi_step cmp d o))) (snd (deque_step d D)).
  Proof.
    intros (<- & HW & ->). destruct o as [q l]. cbn [ovi_query ovi_iter] in *. destruct d; cbn [ovhi_step].
    - destruct l as [|e l]; [cbn; split; [reflexivity|]; unfold ovi_rel; cbn; auto|].
      rewrite ovhi_next_eq. cbn [fst snd]. apply ok_cons in HW as (HW & Hs & Hv). cbn [filter].
      destruct (leb (ri_start (fst e)) (ri_end q)) eqn:E.
      + cbn. split; [reflexivity|]. unfold ovi_rel; cbn; auto.
      + rewrite filter_all_false.
        * cbn. split; [reflexivity|]. unfold ovi_rel; cbn. splits; auto. symmetry. apply filter_all_false.
          intros a Ha. specialize (Hs a Ha). ord.
        * intros a Ha. specialize (Hs a Ha). ord.
    - rewrite ovhi_back_eq. cbn [ovi_iter].
      generalize (mkOverlappingI q l), (eq_refl : ovi_query (mkOverlappingI q l) = q), (eq_refl : ovi_iter (mkOverlappingI q l) = l).
      induction l as [|e l IH] using rev_ind; intros o Ho Hi.
      + cbn. destruct o as [q' l']. cbn in Ho, Hi. subst. split; [reflexivity|]. unfold ovi_rel; cbn; auto.
      + rewrite rev_app_distr. cbn [rev app]. rewrite ovhi_loop_eq. cbv zeta. rewrite rev_involutive, Ho.
        apply ok_app in HW as (HW & _). rewrite filter_app. cbn [filter].
        destruct (leb (ri_start (fst e)) (ri_end q)) eqn:E.
        * rewrite deque_back_snoc. cbn [fst snd]. split; [reflexivity|]. unfold ovi_rel; cbn; auto.
        * rewrite app_nil_r. specialize (IH HW (mkOverlappingI q l) eq_refl eq_refl).
          destruct (ovhi_back_loop cmp (rev l) (mkOverlappingI q l)) as [t x]. exact IH.
  Qed.
  Lemma ovhi_halt q d (o : overlappingi K V) D u o' : ovi_rel q o D -> In (u, o') (fst (ovhi_step cmp d o)) ->
    ovi_rel q o' D \/ ovi_rel q o' (snd (deque_step d D)).
  Proof.
    intros HR. destruct d.
    - intros Hin. right. destruct (ovhi_done q Front o D HR) as [_ H].
      replace o' with (snd (snd (ovhi_step cmp Front o))); [exact H|].
      destruct o as [q0 [|e l]]; cbn in Hin |- *; [destruct Hin|].
      destruct Hin as [[= _ <-] | [[= _ <-] | []]]; reflexivity.
    - cbn [ovhi_step]. rewrite ovhi_back_eq. destruct HR as (<- & HW & ->). destruct o as [q l].
      cbn [ovi_query ovi_iter] in *. generalize (mkOverlappingI q l), (eq_refl : ovi_query (mkOverlappingI q l) = q).
      induction l as [|e l IH] using rev_ind; intros o Ho Hin; [destruct Hin|].
      rewrite rev_app_distr in Hin. cbn [rev app] in Hin. rewrite ovhi_loop_eq in Hin. cbv zeta in Hin.
      rewrite rev_involutive, Ho in Hin. apply ok_app in HW as (HW & _).
      rewrite filter_app. cbn [filter]. destruct (leb (ri_start (fst e)) (ri_end q)) eqn:E.
      + rewrite deque_back_snoc. right. unfold ovi_rel. cbn [snd].
        destruct Hin as [[= _ <-] | [[= _ <-] | []]]; cbn; auto.
      + rewrite app_nil_r. destruct (ovhi_back_loop cmp (rev l) (mkOverlappingI q l)) as [t x] eqn:E2. cbn [fst] in Hin.
        destruct Hin as [[= _ <-] | [[= _ <-] | Hin]]; [left; unfold ovi_rel; cbn; auto..|].
        apply (IH HW (mkOverlappingI q l) eq_refl). rewrite E2. exact Hin.
  Qed.

  Lemma overlapping_ihalts (m : imap K V) q sched : ok m ->
    exists o, im_overlapping cmp m q = Ret o /\
    exists j D, drops j (filter (fun e => meetsi cmp q (fst e)) m) D /\
      j <= length (panics (halt_run (ovhi_step cmp) sched o)) /\
      map snd (completed (halt_run (ovhi_step cmp) sched o)) =
      map Ret (deque_run (map fst (completed (halt_run (ovhi_step cmp) sched o))) D).
  Proof.
    intros HW. rewrite overlapping_at. eexists. split; [reflexivity|].
    apply (deque_halts (ovhi_step cmp) (ovi_rel q)).
    - intros d s D H. apply ovhi_done; exact H.
    - intros d s D u s' H. apply ovhi_halt; exact H.
    - destruct (before_split m q HW) as (L & E & HL & HN). unfold ovi_rel. cbn [ovi_query ovi_iter].
      rewrite E in HW. apply ok_app in HW as [_ HW]. splits; auto.
      rewrite E at 1. rewrite filter_app. rewrite (filter_all_false _ L).
      + cbn. apply filter_ext_in. intros a Ha. specialize (HN a Ha). unfold before, meetsi in *. ord.
      + intros a Ha. specialize (HL a Ha). unfold before, meetsi in *. ord.
  Qed.

  (** *** [Gaps] *)
  Context (HS : StepLaws cmp st).

  (** the gap at the end, the gap before an entry, the gaps still to be yielded *)
  Definition itail (needs : bool) (cand qend : K) : list (rangei K) :=
    if needs
    then if ltb cand qend then match add_one st cand with Some s => [incl s qend] | None => [] end else []
    else if leb cand qend then [incl cand qend] else [].
  Definition igap (needs : bool) (cand s : K) : list (rangei K) :=
    match (if needs then add_one st cand else Some cand) with
    | Some c => if ltb c s then match sub_one st s with Some p => [incl c p] | None => [] end else []
    | None => []
    end.
  Fixpoint iglist (needs : bool) (cand qend : K) (l : list entry) : list (rangei K) :=
    match l with
    | [] => itail needs cand qend
    | (o, _) :: l' =>
        if ltb qend (ri_start o) then itail needs cand qend
        else igap needs cand (ri_start o) ++ iglist true (ri_end o) qend l'
    end.
  Lemma itail_length n c q : length (itail n c q) <= 1.
  Proof. unfold itail. destruct n; [destruct (ltb c q); [destruct (add_one st c)|]|destruct (leb c q)]; cbn; lia. Qed.
  Lemma igap_length n c s : length (igap n c s) <= 1.
  Proof.
    unfold igap. destruct (if n then add_one st c else Some c) as [x|]; [|cbn; lia].
    destruct (ltb x s); [destruct (sub_one st s)|]; cbn; lia.
  Qed.

  Definition iginv (g : gapsi K V) : Prop :=
    ok (gpi_iter g) /\
    (gpi_needs_plus_one g = true -> forall e, In e (gpi_iter g) -> ltb (gpi_candidate_start g) (ri_start (fst e)) = true).
  Definition igswap (g : gapsi K V) (l : list entry) : gapsi K V :=
    mkGapsI (gpi_needs_plus_one g) (gpi_candidate_start g) (gpi_query_end g) l.
  Definition igrest (g : gapsi K V) : list (rangei K) :=
    iglist (gpi_needs_plus_one g) (gpi_candidate_start g) (gpi_query_end g) (gpi_iter g).

  Lemma gphi_loop_eq o (v : V) l needs cand qend l0 :
    gphi_loop cmp st ((o, v) :: l) (mkGapsI needs cand qend l0) =
    (let g1 := mkGapsI needs cand qend l in
     let g2 := mkGapsI true (ri_end o) qend l in
     let u := if needs then UStep else UClone in
     if ltb qend (ri_start o) then ([(UCmp, g1)], (Ret None, g1))
     else match (if needs then step_o (add_one st cand) else Ret cand) with
          | Ret cur =>
              if ltb cur (ri_start o)
              then ([(UCmp, g1); (u, g2); (UCmp, g2); (UStep, g2)],
                    (omap (fun p => Some (incl cur p)) (step_o (sub_one st (ri_start o))), g2))
              else let (t, x) := gphi_loop cmp st l g2 in ((UCmp, g1) :: (u, g2) :: (UCmp, g2) :: t, x)
          | Panicked p => ([(UCmp, g1); (u, g2)], (Panicked p, g2))
          | OutOfFuel => ([(UCmp, g1); (u, g2)], (OutOfFuel, g2))
          end).
  Proof.
    cbn [gphi_loop]. unfold hbind, hmodify, hget, user, hret, hlift.
    cbn [gpi_candidate_start gpi_query_end gpi_iter gpi_needs_plus_one].
    destruct (ltb qend (ri_start o)); [reflexivity|].
    destruct needs; cbn -[gphi_loop].
    - destruct (add_one st cand) as [c|]; [|reflexivity]. cbn -[gphi_loop].
      destruct (ltb c (ri_start o)).
      + destruct (sub_one st (ri_start o)); reflexivity.
      + destruct (gphi_loop cmp st l (mkGapsI true (ri_end o) qend l)) as [t [[a|p|] x]]; reflexivity.
    - destruct (ltb cand (ri_start o)).
      + destruct (sub_one st (ri_start o)); reflexivity.
      + destruct (gphi_loop cmp st l (mkGapsI true (ri_end o) qend l)) as [t [[a|p|] x]]; reflexivity.
  Qed.
  Lemma gphi_next_eq needs cand qend (l : list entry) :
    gphi_next cmp st (mkGapsI needs cand qend l) =
    let (t, x) := gphi_loop cmp st l (mkGapsI needs cand qend l) in
    match x with
    | (Ret None, g) =>
        let g' := mkGapsI true (gpi_query_end g) (gpi_query_end g) (gpi_iter g) in
        if gpi_needs_plus_one g
        then if ltb (gpi_candidate_start g) (gpi_query_end g)
             then match add_one st (gpi_candidate_start g) with
                  | Some s => (t ++ [(UCmp, g'); (UStep, g'); (UClone, g')], (Ret (Some (incl s (gpi_query_end g))), g'))
                  | None => (t ++ [(UCmp, g'); (UStep, g')], (Panicked PStep, g'))
                  end
             else (t ++ [(UCmp, g')], (Ret None, g'))
        else if leb (gpi_candidate_start g) (gpi_query_end g)
        then (t ++ [(UCmp, g'); (UClone, g'); (UClone, g')],
              (Ret (Some (incl (gpi_candidate_start g) (gpi_query_end g))), g'))
        else (t ++ [(UCmp, g')], (Ret None, g'))
    | _ => (t, x)
    end.
  Proof.
    unfold gphi_next. unfold hbind, hget, hmodify, user, hret, hlift. cbn [gpi_iter].
    destruct (gphi_loop cmp st l (mkGapsI needs cand qend l)) as [t [[[r|]|p|] g]]; cbn; rewrite ?app_nil_r; try reflexivity.
    destruct (gpi_needs_plus_one g).
    - destruct (ltb (gpi_candidate_start g) (gpi_query_end g)); [|reflexivity].
      destruct (add_one st (gpi_candidate_start g)); reflexivity.
    - destruct (leb (gpi_candidate_start g) (gpi_query_end g)); reflexivity.
  Qed.
  Lemma gphi_loop_erase qend (l : list entry) : forall needs cand,
    snd (gphi_loop cmp st l (mkGapsI needs cand qend l)) =
    match gpi_loop cmp st needs cand qend l with (o, n, c, l1) => (o, mkGapsI n c qend l1) end.
  Proof.
    induction l as [|[o v] l IH]; intros needs cand; [reflexivity|]. rewrite gphi_loop_eq. cbv zeta. cbn [gpi_loop].
    destruct (ltb qend (ri_start o)); [reflexivity|].
    destruct (if needs then step_o (add_one st cand) else Ret cand) as [cur|p|]; [|reflexivity..].
    destruct (ltb cur (ri_start o)); [reflexivity|].
    rewrite <- IH. destruct (gphi_loop cmp st l (mkGapsI true (ri_end o) qend l)). reflexivity.
  Qed.
  Lemma gphi_next_erase (g : gapsi K V) : snd (gphi_next cmp st g) = gpi_next cmp st g.
  Proof.
    destruct g as [needs cand qend l]. rewrite gphi_next_eq. unfold gpi_next.
    cbn [gpi_candidate_start gpi_query_end gpi_iter gpi_needs_plus_one].
    pose proof (gphi_loop_erase qend l needs cand) as E.
    destruct (gpi_loop cmp st needs cand qend l) as [[[[[r|]|p|] n] c] l1];
      destruct (gphi_loop cmp st l (mkGapsI needs cand qend l)) as [t x]; cbn [snd] in E; subst x; try reflexivity.
    cbn [gpi_candidate_start gpi_query_end gpi_iter gpi_needs_plus_one]. cbv zeta. destruct n.
    - destruct (ltb c qend); [|reflexivity]. destruct (add_one st c); reflexivity.
    - destruct (leb c qend); reflexivity.
  Qed.

  Lemma iglist_beyond needs cand qend l : (forall e, In e l -> ltb qend (ri_start (fst e)) = true) ->
    iglist needs cand qend l = itail needs cand qend.
  Proof.
    destruct l as [|[o v] l]; intros Hb; [reflexivity|]. cbn [iglist].
    specialize (Hb (o, v) (or_introl eq_refl)). cbn [fst] in Hb. rewrite Hb. reflexivity.
  Qed.
  Lemma iglist_end qend l : (forall e, In e l -> ltb qend (ri_start (fst e)) = true) ->
    iglist true qend qend l = [].
  Proof.
    intros Hb. rewrite iglist_beyond by exact Hb. unfold itail.
    assert (X : ltb qend qend = false) by ord. rewrite X. reflexivity.
  Qed.
  Lemma iginv_cons o (v : V) l needs cand qend : iginv (mkGapsI needs cand qend ((o, v) :: l)) ->
    iginv (mkGapsI needs cand qend l) /\ iginv (mkGapsI true (ri_end o) qend l) /\
    (forall e, In e l -> ltb (ri_end o) (ri_start (fst e)) = true) /\ leb (ri_start o) (ri_end o) = true /\
    (needs = true -> ltb cand (ri_start o) = true).
  Proof.
    unfold iginv. cbn [gpi_iter gpi_candidate_start gpi_needs_plus_one]. intros [HW Hc].
    apply ok_cons in HW as (HW & Hs & Ho). cbn in Ho, Hs. splits; auto.
    - intros Hn e He. apply Hc; [exact Hn|right; exact He].
    - intros Hn. apply (Hc Hn (o, v)). left; reflexivity.
  Qed.

  (** the loop of [Gaps::next] *)
  Lemma gphi_loop_ok qend l : forall needs cand, iginv (mkGapsI needs cand qend l) ->
    (forall u g', In (u, g') (fst (gphi_loop cmp st l (mkGapsI needs cand qend l))) ->
       gpi_query_end g' = qend /\ iginv g' /\
       exists di x, di + length x <= 1 /\ di <= length (filter is_cmp [u]) /\
       forall i l1, drops i (gpi_iter g') l1 -> exists l', drops (di + i) l l' /\
         iglist needs cand qend l' = x ++ igrest (igswap g' l1)) /\
    exists o g', snd (gphi_loop cmp st l (mkGapsI needs cand qend l)) = (Ret o, g') /\ gpi_query_end g' = qend /\
      iginv g' /\ (o = None -> forall e, In e (gpi_iter g') -> ltb qend (ri_start (fst e)) = true) /\
      forall i l1, drops i (gpi_iter g') l1 -> exists l', drops i l l' /\
        match o with
        | Some a => iglist needs cand qend l' = a :: igrest (igswap g' l1)
        | None => iglist needs cand qend l' = itail (gpi_needs_plus_one g') (gpi_candidate_start g') qend
        end.
  Proof.
    induction l as [|[o v] l IH]; intros needs cand HI.
    - split; [intros u g' []|]. eexists _, _. split; [reflexivity|]. split; [reflexivity|]. split; [exact HI|].
      split; [intros _ e []|].
      cbn [gpi_iter gpi_candidate_start]. intros i l1 HD. apply drops_nil_inv in HD as [-> ->].
      exists []. split; [constructor|reflexivity].
    - destruct (iginv_cons _ _ _ _ _ _ HI) as (I1 & I2 & Hs & Hv & Hn). rewrite gphi_loop_eq. cbv zeta.
      assert (Skip : forall u g', (u, g') = (UCmp, mkGapsI needs cand qend l) ->
        gpi_query_end g' = qend /\ iginv g' /\
        exists di x, di + length x <= 1 /\ di <= length (filter is_cmp [u]) /\
        forall i l1, drops i (gpi_iter g') l1 -> exists l', drops (di + i) ((o, v) :: l) l' /\
          iglist needs cand qend l' = x ++ igrest (igswap g' l1)).
      { intros u g' [= -> ->]. split; [reflexivity|]. split; [exact I1|]. exists 1, []. cbn.
        split; [lia|]. split; [lia|]. intros i l1 HD. exists l1. split; [constructor; exact HD|reflexivity]. }
      destruct (ltb qend (ri_start o)) eqn:E1.
      + split; [intros u g' [E | []]; apply Skip; congruence|].
        eexists _, _. split; [reflexivity|]. split; [reflexivity|]. split; [exact I1|].
        cbn [gpi_iter gpi_candidate_start]. split.
        * intros _ e He. specialize (Hs e He). ord.
        * intros i l1 HD. exists ((o, v) :: l1). split; [constructor; exact HD|].
          cbn [iglist]. rewrite E1. reflexivity.
      + assert (Move : forall u,
          gpi_query_end (mkGapsI true (ri_end o) qend l) = qend /\ iginv (mkGapsI true (ri_end o) qend l) /\
          exists di x, di + length x <= 1 /\ di <= length (filter is_cmp [u]) /\
          forall i l1, drops i (gpi_iter (mkGapsI true (ri_end o) qend l)) l1 -> exists l', drops (di + i) ((o, v) :: l) l' /\
            iglist needs cand qend l' = x ++ igrest (igswap (mkGapsI true (ri_end o) qend l) l1)).
        { intros u. split; [reflexivity|]. split; [exact I2|]. exists 0, (igap needs cand (ri_start o)).
          split; [pose proof (igap_length needs cand (ri_start o)); lia|]. split; [lia|].
          cbn [gpi_iter]. intros i l1 HD. exists ((o, v) :: l1).
          split; [constructor; exact HD|]. cbn [iglist]. rewrite E1. reflexivity. }
        assert (Hcur : exists cur, (if needs then step_o (add_one st cand) else Ret cand) = Ret cur /\
                                   (if needs then add_one st cand else Some cand) = Some cur).
        { destruct needs; [|exists cand; auto]. destruct (step_succ _ _ HS _ _ (Hn eq_refl)) as (s & Hs' & _).
          rewrite Hs'. exists s. auto. }
        destruct Hcur as (cur & C1 & C2). rewrite C1.
        destruct (ltb cur (ri_start o)) eqn:E2.
        * destruct (step_pred _ _ HS _ _ E2) as (p & Hp & _). split.
          -- intros u g' [E | [[= <- <-] | [[= <- <-] | [[= <- <-] | []]]]]; [apply Skip; congruence|apply Move..].
          -- rewrite Hp. cbn [step_o omap snd]. eexists _, _. split; [reflexivity|]. split; [reflexivity|].
             split; [exact I2|]. split; [discriminate|].
             cbn [gpi_iter gpi_candidate_start]. intros i l1 HD. exists ((o, v) :: l1).
             split; [constructor; exact HD|]. cbn [iglist]. rewrite E1. unfold igap. rewrite C2, E2, Hp. reflexivity.
        * destruct (IH true (ri_end o) I2) as (J1 & o' & g' & J2 & J3 & J4 & J6 & J5).
          assert (EG : igap needs cand (ri_start o) = []) by (unfold igap; rewrite C2, E2; reflexivity).
          destruct (gphi_loop cmp st l (mkGapsI true (ri_end o) qend l)) as [t x]. cbn [fst snd] in *. subst x. split.
          -- intros u g1 [E | [[= <- <-] | [[= <- <-] | Hin]]]; [apply Skip; congruence|apply Move..|].
             destruct (J1 u g1 Hin) as (A1 & A2 & di & x & A3 & A4 & A5).
             split; [exact A1|]. split; [exact A2|]. exists di, x. split; [exact A3|]. split; [exact A4|].
             intros i l1 HD. destruct (A5 i l1 HD) as (l' & B1 & B2). exists ((o, v) :: l').
             split; [constructor; exact B1|]. cbn [iglist]. rewrite E1, EG. exact B2.
          -- exists o', g'. split; [reflexivity|]. split; [exact J3|]. split; [exact J4|]. split; [exact J6|].
             intros i l1 HD. destruct (J5 i l1 HD) as (l' & B1 & B2). exists ((o, v) :: l').
             split; [constructor; exact B1|]. cbn [iglist]. rewrite E1, EG. exact B2.
  Qed.

  Lemma gphi_walk (cuts : list (unit * option nat)) g : iginv g ->
    exists i l j gs, drops i (gpi_iter g) l /\ drops j (igrest (igswap g l)) gs /\
      i <= length (filter is_cmp (panics (halt_run (fun _ => gphi_next cmp st) cuts g))) /\
      i + j <= length (panics (halt_run (fun _ => gphi_next cmp st) cuts g)) /\
      map snd (completed (halt_run (fun _ => gphi_next cmp st) cuts g)) =
      map Ret (yields (length (completed (halt_run (fun _ => gphi_next cmp st) cuts g))) gs).
  Proof.
    apply (walk_halts (gphi_next cmp st) (@gpi_iter K V) igswap igrest iginv).
    - intros [n c q l]. reflexivity.
    - intros [needs cand qend l] HI. destruct (gphi_loop_ok qend l needs cand HI) as (_ & o & g' & J2 & J3 & J4 & J6 & J5).
      rewrite gphi_next_eq. destruct (gphi_loop cmp st l (mkGapsI needs cand qend l)) as [t x]. cbn [snd] in J2. subst x.
      destruct g' as [n c q l']. cbn [gpi_query_end] in J3. subst q.
      cbn [gpi_candidate_start gpi_query_end gpi_iter gpi_needs_plus_one] in *. cbv zeta.
      destruct o as [a|].
      + exists (Some a). cbn [fst snd]. split; [reflexivity|]. split; [exact J4|exact J5].
      + assert (HE : iginv (mkGapsI true qend qend l')) by (split; [apply J4|intros _; apply (J6 eq_refl)]).
        assert (HB : forall i l1, drops i l' l1 -> iglist true qend qend l1 = []).
        { intros i l1 HD. apply iglist_end. intros e He. apply (J6 eq_refl). eapply drops_In; eauto. }
        destruct n; [destruct (ltb c qend) eqn:Ec; [destruct (step_succ _ _ HS _ _ Ec) as (s & Hs & _); rewrite Hs|]
                    |destruct (leb c qend) eqn:Ec]; cbn [fst snd];
          (eexists; split; [reflexivity|]; split; [exact HE|]; cbn [gpi_iter]; intros i l1 HD;
           destruct (J5 i l1 HD) as (l2 & B1 & B2); exists l2; split; [exact B1|];
           unfold igrest, igswap; cbn [gpi_candidate_start gpi_query_end gpi_iter gpi_needs_plus_one];
           rewrite B2, (HB i l1 HD); unfold itail; rewrite Ec, ?Hs; auto).
    - intros [needs cand qend l] u g' HI Hin.
      destruct (gphi_loop_ok qend l needs cand HI) as (J1 & o & g1 & J2 & J3 & J4 & J6 & J5).
      rewrite gphi_next_eq in Hin. destruct (gphi_loop cmp st l (mkGapsI needs cand qend l)) as [t x].
      cbn [fst snd] in *. subst x.
      assert (Loop : In (u, g') t -> iginv g' /\
        exists di x, di + length x <= 1 /\ di <= length (filter is_cmp [u]) /\
        forall i l1, drops i (gpi_iter g') l1 -> exists l', drops (di + i) l l' /\
          igrest (igswap (mkGapsI needs cand qend l) l') = x ++ igrest (igswap g' l1)).
      { intros Ht. destruct (J1 u g' Ht) as (_ & A2 & A3). auto. }
      destruct o as [a|]; [apply Loop, Hin|]. cbv zeta in Hin. rewrite J3 in Hin.
      assert (Tail : g' = mkGapsI true qend qend (gpi_iter g1) -> iginv g' /\
        exists di x, di + length x <= 1 /\ di <= length (filter is_cmp [u]) /\
        forall i l1, drops i (gpi_iter g') l1 -> exists l', drops (di + i) l l' /\
          igrest (igswap (mkGapsI needs cand qend l) l') = x ++ igrest (igswap g' l1)).
      { intros ->. split; [split; [apply J4|intros _; apply (J6 eq_refl)]|].
        exists 0, (itail (gpi_needs_plus_one g1) (gpi_candidate_start g1) qend).
        split; [pose proof (itail_length (gpi_needs_plus_one g1) (gpi_candidate_start g1) qend); lia|]. split; [lia|].
        cbn [gpi_iter]. intros i l1 HD. destruct (J5 i l1 HD) as (l2 & B1 & B2). exists l2. split; [exact B1|].
        unfold igrest, igswap. cbn [gpi_candidate_start gpi_query_end gpi_iter gpi_needs_plus_one]. rewrite B2.
        rewrite iglist_end, app_nil_r; [reflexivity|]. intros e He. apply (J6 eq_refl). eapply drops_In; eauto. }
      destruct (gpi_needs_plus_one g1);
        [destruct (ltb (gpi_candidate_start g1) qend); [destruct (add_one st (gpi_candidate_start g1))|]
        |destruct (leb (gpi_candidate_start g1) qend)];
        cbn [fst] in Hin; apply in_app_or in Hin as [Hin|Hin]; try (apply Loop, Hin);
        cbn [In] in Hin; repeat destruct Hin as [Hin|Hin]; try (injection Hin as _ <-; apply Tail; reflexivity); destruct Hin.
  Qed.

  (** calls that are not interrupted *)
  Lemma gphi_calm n : forall g : gapsi K V,
    panics (halt_run (fun _ : unit => gphi_next cmp st) (repeat (tt, None) n) g) = [] /\
    length (completed (halt_run (fun _ : unit => gphi_next cmp st) (repeat (tt, None) n) g)) = n /\
    map snd (completed (halt_run (fun _ : unit => gphi_next cmp st) (repeat (tt, None) n) g)) =
    nexts_m (gpi_next cmp st) n g.
  Proof.
    induction n as [|n IH]; intros g; [splits; reflexivity|]. cbn [repeat halt_run halting].
    rewrite gphi_next_erase. cbn [nexts_m]. destruct (gpi_next cmp st g) as [o g']. cbn [fst snd completed panics length map].
    destruct (IH g') as (-> & -> & ->). splits; reflexivity.
  Qed.
  Lemma drops0_eq {A} (l l' : list A) : drops 0 l l' -> l' = l.
  Proof. intros HD. remember 0 as n. induction HD; [reflexivity|f_equal; auto|discriminate]. Qed.
  Lemma gphi_yields g gs : iginv g ->
    (forall n, nexts_m (gpi_next cmp st) n g = map Ret (yields n gs)) -> gs = igrest g.
  Proof.
    intros HI HN. apply yields_inj. intros n.
    destruct (gphi_walk (repeat (tt, None) n) g HI) as (i & l & j & gs' & H1 & H2 & H3 & H4 & H5).
    destruct (gphi_calm n g) as (E1 & E2 & E3). rewrite E1 in H4. rewrite E2, E3 in H5. cbn in H4.
    assert (i = 0) by lia. assert (j = 0) by lia. subst i j. apply drops0_eq in H1, H2. subst l gs'.
    rewrite HN in H5. destruct g as [nd c q l].
    apply (f_equal (map (fun x => match x with Ret a => a | _ => None end))) in H5.
    rewrite !map_map in H5. cbn in H5. rewrite !map_id in H5. exact H5.
  Qed.

  Notation never := (fun _ _ : V => false).
  Notation WWi := (@WFi K (cut K) V (cmp_cut cmp st) never Before After).
  Notation fe := (@freshen_entry K V).
  Notation HC := (cuts cmp st HO HS).
  Notation HO' := (cut_order cmp st HO HS).

  Lemma WWi_ok m : WWi (map fe m) -> ok m.
  Proof.
    intros HW. apply (WFi_iff HC HO') in HW as (_ & HA & HV & _). split.
    - revert HA. unfold ascendingi. generalize m. induction m0 as [|e m0 IH]; cbn [map]; intros H; [constructor|].
      apply SS_cons in H as [H1 H2]. apply SS_cons. split; [apply IH, H1|]. intros b Hb. exact (H2 (fe b) (in_map fe _ _ Hb)).
    - intros e He. specialize (HV (fst (fe e)) (snd e)). unfold valid_rangei in HV. cbn [fst freshen_entry] in HV.
      cbn [ri_start ri_end freshen] in HV. rewrite <- (negb_involutive (leb _ _)).
      assert (X : negb (ltb (ri_end (fst e)) (ri_start (fst e))) = true) by (apply HV; apply (in_map fe _ _ He)).
      ord.
  Qed.
  Lemma WWi_drops n l l' : drops n l l' -> WWi (map fe l) -> WWi (map fe l').
  Proof.
    intros HD [H1 H2]. apply (drops_map fe) in HD. split.
    - intros e He. apply H1. eapply drops_In; eauto.
    - eapply drops_WF; [|exact H2]. apply drops_map. exact HD.
  Qed.
  Lemma iglist_fe qend l : forall needs cand, iglist needs cand qend (map fe l) = iglist needs cand qend l.
  Proof.
    induction l as [|[o v] l IH]; intros needs cand; [reflexivity|]. cbn [map iglist freshen_entry fst snd freshen ri_start ri_end].
    rewrite IH. reflexivity.
  Qed.
  Lemma lki_fe m k : lki (cmp := cmp) (map fe m) k = None <-> find (fun e => in_rangei cmp (fst e) k) m = None.
  Proof.
    unfold lki. induction m as [|e m IH]; [split; reflexivity|]. cbn [map find].
    replace (in_rangei cmp (fst (fe e)) k) with (in_rangei cmp (fst e) k) by reflexivity.
    destruct (in_rangei cmp (fst e) k); [split; discriminate|exact IH].
  Qed.

  Lemma gaps_ihalts m outer cuts : WWi (map fe m) ->
    exists g, im_gaps cmp m outer = Ret g /\
    exists i kept gs j gs', drops i m kept /\
      gapsi_of cmp (fun k => find (fun e => in_rangei cmp (fst e) k) kept) outer gs /\ drops j gs gs' /\
      i <= length (filter is_cmp (panics (halt_run (fun _ : unit => gphi_next cmp st) cuts g))) /\
      i + j <= length (panics (halt_run (fun _ : unit => gphi_next cmp st) cuts g)) /\
      map snd (completed (halt_run (fun _ : unit => gphi_next cmp st) cuts g)) =
      map Ret (yields (length (completed (halt_run (fun _ : unit => gphi_next cmp st) cuts g))) gs').
  Proof.
    intros HW. pose proof (WWi_ok _ HW) as Hm. unfold im_gaps. rewrite overlapping_at. cbn [omap obind ovi_iter].
    eexists. split; [reflexivity|]. destruct (before_split m outer Hm) as (L & E & HL & HN).
    remember (drop_while (before outer) m) as N eqn:EN. clear EN. subst m.
    destruct (ok_app _ _ Hm) as [_ HokN].
    destruct (gphi_walk cuts (mkGapsI false (ri_start outer) (ri_end outer) N)) as (i & l & j & gs & H1 & H2 & H3 & H4 & H5).
    { split; [exact HokN|discriminate]. }
    cbn [gpi_iter] in H1. unfold igswap in H2. cbn [gpi_candidate_start gpi_query_end gpi_iter gpi_needs_plus_one] in H2.
    assert (HD : drops i (L ++ N) (L ++ l)) by (apply (drops_app L L N l 0 i); [apply drops_refl|exact H1]).
    exists i, (L ++ l), (iglist false (ri_start outer) (ri_end outer) l), j, gs. splits; try assumption.
    pose proof (WWi_drops _ _ _ HD HW) as HW2.
    destruct (gaps_iok HC HO' (map fe (L ++ l)) outer HW2) as (g & gs2 & G1 & G2 & G3).
    assert (Eg : g = mkGapsI false (ri_start outer) (ri_end outer) (map fe l)).
    { unfold im_gaps in G1. rewrite overlapping_at in G1. cbn in G1. injection G1 as <-. f_equal.
      rewrite map_app, drop_while_app, drop_while_none; [reflexivity| |].
      - intros a Ha. apply in_map_iff in Ha as (b & <- & Hb). apply (HN b). eapply drops_In; eauto.
      - intros a Ha. apply in_map_iff in Ha as (b & <- & Hb). apply (HL b Hb). }
    subst g. assert (E2 : gs2 = iglist false (ri_start outer) (ri_end outer) l).
    { rewrite <- iglist_fe. apply (gphi_yields (mkGapsI false (ri_start outer) (ri_end outer) (map fe l))); [|exact G2].
      split; [|discriminate]. cbn [gpi_iter]. apply (WFi_iff HC HO') in HW2 as (_ & HA & _ & _).
      rewrite map_app in HA. split.
      - apply SS_app in HA as (_ & HA & _). exact HA.
      - intros e He. apply in_map_iff in He as (b & <- & Hb). apply (proj2 HokN b). eapply drops_In; eauto. }
    rewrite <- E2. eapply gapsi_of_ext; [|exact G3]. intros k. apply lki_fe.
  Qed.

  Context {veqb : V -> V -> bool}.
  Notation run := (im_run cmp veqb st).
  Lemma run_fe ops : WWi (map fe (run ops)).
  Proof. rewrite <- x_run. apply (irun_any HO HS). apply freshen_fresh. Qed.
End Incl.
