(** Exhausted [RangeInclusive]s in a [RangeInclusiveSet] (C81): as in the map, the
    flag makes no difference to updates, gaps, overlapping ranges and [cmp].
    Intersection does not look at it either.  [Union] does ([merge] asks
    [contains]): its pieces may then share a key, but still cover the union. *)
From Coq Require Import List Bool Sorting.Sorted Lia.
From Verif Require Import Order Outcome BTree Ranges History Spec MapModel IMapModel OpsModel SetModel ISetModel
  ListLemmas IterFacts IFacts IMapProps Exhausted OpsProofs SetFacts ISetProps.
Import ListNotations.

Section Union.
  Context {K : Type} {cmp : K -> K -> comparison} {st : stepfns K}.
  Context (HO : TotalOrd cmp) (HS : StepLaws cmp st).
  Notation it := (list (rangei K * unit)).
  Notation c := cmp.
  Notation leb := (leb cmp).
  Notation ltb := (ltb cmp).
  Notation s := (@ri_start K).
  Notation e := (@ri_end K).
  Notation ok := (fun r => valid_rangei cmp r = true).
  Notation inext := (is_iter_next (K := K)).
  Notation ilen := (@length (rangei K * unit)).
  Notation order_start := (ri_order_start cmp).
  Notation merge := (ri_merge cmp).
  Notation un := (is_union_next cmp).
  Notation laws := (is_laws HO HS).
  Notation lv := (lv (view := @map (rangei K * unit) (rangei K) fst)).
  Notation rv := (rv (view := @map (rangei K * unit) (rangei K) fst)).
  Notation uok := (uok (view := @map (rangei K * unit) (rangei K) fst)).
  Notation peek_left_ok := (peek_left_ok laws).
  Notation peek_right_ok := (peek_right_ok laws).
  Notation next_left_ok := (next_left_ok laws).
  Notation next_right_ok := (next_right_ok laws).
  Notation fuel_ok := (fuel_ok laws).
  Notation asc := (StronglySorted (fun a b => ltb (e a) (s b) = true)).

  Definition xcov (r : rangei K) (x : K) : Prop := leb (s r) x = true /\ leb x (e r) = true.
  Definition xcovs (l : list (rangei K)) (x : K) : Prop := exists r, In r l /\ xcov r x.
  Notation cov := xcov.
  Notation covs := xcovs.
  Lemma xcovs_app l l' x : covs (l ++ l') x <-> covs l x \/ covs l' x.
  Proof.
    unfold covs. split.
    - intros (r & H & Hc). apply in_app_or in H as [H|H]; [left|right]; eauto.
    - intros [(r & H & Hc)|(r & H & Hc)]; exists r; split; auto; apply in_or_app; auto.
  Qed.
  Lemma xcovs_nil x : covs [] x <-> False.
  Proof. split; [intros (r & [] & _)|tauto]. Qed.
  Lemma xcovs_cons r l x : covs (r :: l) x <-> cov r x \/ covs l x.
  Proof.
    unfold covs. split.
    - intros (r' & [-> |H] & Hc); eauto.
    - intros [H|(r' & H & Hc)]; [exists r|exists r']; cbn; auto.
  Qed.

  (** [b] begins after the end of [a], or at its end if [a] is exhausted *)
  Definition near (a b : rangei K) : Prop :=
    ltb (e a) (s b) = true \/ (ri_exhausted a = true /\ eqb cmp (e a) (s b) = true).
  Lemma vld r : ok r -> leb (s r) (e r) = true.
  Proof. unfold valid_rangei. intros H. ord. Qed.
  Lemma near_up a b d : near a b -> leb (s b) (s d) = true -> near a d.
  Proof.
    unfold near. intros [H|[H H']] H2.
    - left. ord.
    - destruct (eqb cmp (e a) (s d)) eqn:E; [auto|]. left. ord.
  Qed.
  Lemma near_trans a b d : near a b -> leb (s b) (e b) = true -> ltb (e b) (s d) = true -> near a d.
  Proof. intros H H1 H2. apply (near_up a b d H). ord. Qed.
  Lemma xmerge range nxt : ok range -> ok nxt -> leb (s range) (s nxt) = true ->
    (exists r, merge range nxt = (true, r) /\ ok r /\ c (s r) (s range) = Eq /\
       (ri_exhausted r = true -> r = range) /\
       (forall x, cov r x <-> cov range x \/ cov nxt x)) \/
    (merge range nxt = (false, range) /\ near range nxt).
  Proof.
    intros Hr Hn Hs. apply vld in Hr as V1. apply vld in Hn as V2. unfold ri_merge, ri_contains. rewrite Hs. cbn [andb].
    destruct (if ri_exhausted range then ltb (s nxt) (e range) else leb (s nxt) (e range)) eqn:E; cbn [negb].
    - left. eexists. split; [reflexivity|].
      assert (E' : leb (s nxt) (e range) = true) by (destruct (ri_exhausted range); ord).
      destruct (gtb cmp (e nxt) (e range)) eqn:G; cbn [ri_start ri_end ri_exhausted]; unfold valid_rangei, xcov in *;
        cbn [ri_start ri_end]; splits; auto; try discriminate; try ord.
      + intros x. split.
        * intros [A B]. destruct (leb x (e range)) eqn:E3; [left|right]; split; ord.
        * intros [[A B]|[A B]]; split; ord.
      + intros x. split; [intros [A B]; left; split; ord|]. intros [[A B]|[A B]]; split; ord.
    - right. split; [reflexivity|]. unfold near. destruct (ri_exhausted range).
      + destruct (eqb cmp (e range) (s nxt)) eqn:G; [auto|]. left. ord.
      + left. ord.
  Qed.

  Lemma xunion_loop : forall fuel u range,
    uok u -> ok range -> Forall ok (lv u) -> Forall ok (rv u) ->
    asc (lv u) -> asc (rv u) ->
    Forall (fun r => leb (s range) (s r) = true) (lv u) ->
    Forall (fun r => leb (s range) (s r) = true) (rv u) ->
    length (lv u) + length (rv u) < fuel ->
    exists range' u' l1 r1, un_loop inext merge fuel range u = (Ret range', u') /\
      uok u' /\ ok range' /\ lv u = l1 ++ lv u' /\ rv u = r1 ++ rv u' /\
      c (s range') (s range) = Eq /\ (ri_exhausted range' = true -> range' = range) /\
      (forall x, cov range' x <-> cov range x \/ covs l1 x \/ covs r1 x) /\
      Forall (near range') (lv u') /\
      Forall (near range') (rv u').
  Proof.
    induction fuel as [|fuel IH]; intros u range Hu Hr HL1 HR1 HLs HRs HLb HRb Hf; [lia|].
    pose proof (fun nxt => xmerge range nxt Hr) as Hm.
    cbn [un_loop]. unfold un_join at 1.
    destruct (peek_left_ok u Hu) as (u1 & P1 & U1 & L1 & R1).
    unfold bind at 1. unfold bind at 1. rewrite P1.
    destruct (lv u) as [|a l] eqn:El; cbn [hd_error].
    - (* left exhausted *)
      cbn [fst snd ret]. unfold un_join.
      destruct (peek_right_ok u1 U1) as (u2 & P2 & U2 & L2 & R2).
      unfold bind at 1. unfold bind at 1. rewrite P2. rewrite R1 in *.
      destruct (rv u) as [|b r] eqn:Er; cbn [hd_error].
      + cbn. exists range, u2, [], []. rewrite L2, L1, R2. cbn.
        splits; auto; [apply (ord_refl _ HO)|]. intros x. rewrite xcovs_nil. tauto.
      + apply Forall_cons_iff in HR1 as [Hb HR1]. apply Forall_cons_iff in HRb as [Hbs HRb].
        apply StronglySorted_inv in HRs as [HRs HRh].
        destruct (Hm b Hb Hbs) as [(rg & M1 & M2 & M3 & MF & M4)|[M1 M2]]; rewrite M1.
        * destruct (next_right_ok u2 U2) as (u3 & P3 & U3 & L3 & R3).
          unfold bind at 1. rewrite P3. cbn [fst snd ret]. rewrite L2, L1 in L3. rewrite R2 in R3. cbn in R3.
          destruct (IH u3 rg U3 M2) as (range' & u' & l1 & r1 & E & A1 & A2 & A3 & A4 & A5 & AF & A6 & A7 & A8).
          -- rewrite L3. constructor.
          -- rewrite R3. assumption.
          -- rewrite L3. constructor.
          -- rewrite R3. assumption.
          -- rewrite L3. constructor.
          -- rewrite R3. eapply Forall_impl; [|exact HRb]. cbn. intros x Hx. ord.
          -- rewrite L3, R3. cbn in *. lia.
          -- exists range', u', l1, (b :: r1). rewrite E. rewrite L3 in A3. rewrite R3 in A4.
             splits; auto; [rewrite A4; reflexivity|ord|intros F; rewrite (AF F) in F |- *; auto|].
             intros x. rewrite A6, M4, xcovs_cons. tauto.
        * cbn. exists range, u2, [], []. rewrite L2, L1, R2. cbn.
          splits; auto; [apply (ord_refl _ HO)| |].
          -- intros x. rewrite xcovs_nil. tauto.
          -- constructor; [exact M2|]. pose proof (vld _ Hb) as V.
             eapply Forall_impl; [|exact HRh]. cbn. intros x Hx. eapply near_trans; eauto.
    - apply Forall_cons_iff in HL1 as [Ha HL1]. apply Forall_cons_iff in HLb as [Has HLb].
      apply StronglySorted_inv in HLs as [HLs HLh].
      destruct (Hm a Ha Has) as [(rg & M1 & M2 & M3 & MF & M4)|[M1 M2]]; rewrite M1.
      + destruct (next_left_ok u1 U1) as (u3 & P3 & U3 & L3 & R3).
        unfold bind at 1. rewrite P3. cbn [fst snd ret]. rewrite L1 in L3. rewrite R1 in R3. cbn in L3.
        destruct (IH u3 rg U3 M2) as (range' & u' & l1 & r1 & E & A1 & A2 & A3 & A4 & A5 & AF & A6 & A7 & A8).
        * rewrite L3. assumption.
        * rewrite R3. assumption.
        * rewrite L3. assumption.
        * rewrite R3. assumption.
        * rewrite L3. eapply Forall_impl; [|exact HLb]. cbn. intros x Hx. ord.
        * rewrite R3. eapply Forall_impl; [|exact HRb]. cbn. intros x Hx. ord.
        * rewrite L3, R3. cbn in *. lia.
        * exists range', u', (a :: l1), r1. rewrite E. rewrite L3 in A3. rewrite R3 in A4.
          splits; auto; [rewrite A3; reflexivity|ord|intros F; rewrite (AF F) in F |- *; auto|].
          intros x. rewrite A6, M4, xcovs_cons. tauto.
      + (* left head beyond; try right *)
        assert (Hleft : Forall (near range) (a :: l)).
        { constructor; [exact M2|]. pose proof (vld _ Ha) as V.
          eapply Forall_impl; [|exact HLh]. cbn. intros x Hx. eapply near_trans; eauto. }
        cbn [fst snd ret]. unfold un_join.
        destruct (peek_right_ok u1 U1) as (u2 & P2 & U2 & L2 & R2).
        unfold bind at 1. unfold bind at 1. rewrite P2. rewrite R1 in *.
        destruct (rv u) as [|b r] eqn:Er; cbn [hd_error].
        * cbn. exists range, u2, [], []. rewrite L2, L1, R2. cbn.
          splits; auto; [apply (ord_refl _ HO)|]. intros x. rewrite xcovs_nil. tauto.
        * apply Forall_cons_iff in HR1 as [Hb HR1]. apply Forall_cons_iff in HRb as [Hbs HRb].
          apply StronglySorted_inv in HRs as [HRs HRh].
          destruct (Hm b Hb Hbs) as [(rg & N1 & N2 & N3 & NF & N4)|[N1 N2]]; rewrite N1.
          -- destruct (next_right_ok u2 U2) as (u3 & P3 & U3 & L3 & R3).
             unfold bind at 1. rewrite P3. cbn [fst snd ret]. rewrite L2, L1 in L3. rewrite R2 in R3. cbn in R3.
             destruct (IH u3 rg U3 N2) as (range' & u' & l1 & r1 & E & A1 & A2 & A3 & A4 & A5 & AF & A6 & A7 & A8).
             ++ rewrite L3. constructor; assumption.
             ++ rewrite R3. assumption.
             ++ rewrite L3. constructor; assumption.
             ++ rewrite R3. assumption.
             ++ rewrite L3. constructor; [ord|]. eapply Forall_impl; [|exact HLb]. cbn. intros x Hx. ord.
             ++ rewrite R3. eapply Forall_impl; [|exact HRb]. cbn. intros x Hx. ord.
             ++ rewrite L3, R3. cbn in *. lia.
             ++ exists range', u', l1, (b :: r1). rewrite E. rewrite L3 in A3. rewrite R3 in A4.
                splits; auto; [rewrite A4; reflexivity|ord|intros F; rewrite (AF F) in F |- *; auto|].
                intros x. rewrite A6, N4, xcovs_cons. tauto.
          -- cbn. exists range, u2, [], []. rewrite L2, L1, R2. cbn.
             splits; auto; [apply (ord_refl _ HO)| |].
             ++ intros x. rewrite xcovs_nil. tauto.
             ++ constructor; [exact N2|]. pose proof (vld _ Hb) as V.
                eapply Forall_impl; [|exact HRh]. cbn. intros x Hx. eapply near_trans; eauto.
  Qed.

  Lemma xunion_next u :
    uok u -> Forall ok (lv u) -> Forall ok (rv u) -> asc (lv u) -> asc (rv u) ->
    exists o u', un u = (Ret o, u') /\ uok u' /\
      match o with
      | None => lv u = [] /\ rv u = [] /\ lv u' = [] /\ rv u' = []
      | Some r => exists l1 r1, lv u = l1 ++ lv u' /\ rv u = r1 ++ rv u' /\ 0 < length l1 + length r1 /\
          ok r /\ (ri_exhausted r = true -> In r l1 \/ In r r1) /\ (forall x, cov r x <-> covs l1 x \/ covs r1 x) /\
          Forall (near r) (lv u') /\
          Forall (near r) (rv u')
      end.
  Proof.
    intros Hu HL1 HR1 HLs HRs. unfold is_union_next, un_next.
    destruct (peek_left_ok u Hu) as (u1 & P1 & U1 & L1 & R1).
    destruct (peek_right_ok u1 U1) as (u2 & P2 & U2 & L2 & R2).
    rewrite L1 in L2. rewrite R1 in R2, P2.
    unfold bind at 1. rewrite P1. unfold bind at 1. rewrite P2.
    (* popping the head of one side and then joining *)
    assert (Hleft : forall a l, lv u = a :: l -> Forall (fun r => leb (s a) (s r) = true) (rv u) ->
      exists o u', (first <- (o <- next_left inext ;; r <- unwrap o ;; ret (Some r)) ;;
         match first with
         | None => ret None
         | Some range => v <- get ;;
             range' <- un_loop inext merge (pk_len ilen (op_left v) + pk_len ilen (op_right v) + 1) range ;;
             ret (Some range')
         end)%M u2 = (Ret o, u') /\ uok u' /\
        match o with
        | None => lv u = [] /\ rv u = [] /\ lv u' = [] /\ rv u' = []
        | Some r => exists l1 r1, lv u = l1 ++ lv u' /\ rv u = r1 ++ rv u' /\ 0 < length l1 + length r1 /\
            ok r /\ (ri_exhausted r = true -> In r l1 \/ In r r1) /\ (forall x, cov r x <-> covs l1 x \/ covs r1 x) /\
            Forall (near r) (lv u') /\
            Forall (near r) (rv u')
        end).
    { intros a l El HB. rewrite El in *. destruct (next_left_ok u2 U2) as (u3 & P3 & U3 & L3 & R3).
      rewrite L2 in L3, P3. rewrite R2 in R3. cbn in L3, P3.
      apply Forall_cons_iff in HL1 as [Ha HL1]. apply StronglySorted_inv in HLs as [HLs HLh].
      unfold bind at 1. unfold bind at 1. rewrite P3. cbn. unfold bind at 1.
      destruct (xunion_loop (pk_len ilen (op_left u3) + pk_len ilen (op_right u3) + 1) u3 a U3 Ha)
        as (range' & u' & l1 & r1 & E & A1 & A2 & A3 & A4 & A5 & AF & A6 & A7 & A8).
      - rewrite L3. assumption.
      - rewrite R3. assumption.
      - rewrite L3. assumption.
      - rewrite R3. assumption.
      - rewrite L3. eapply Forall_impl; [|exact HLh]. cbn. intros x Hx.
        pose proof (vld _ Ha) as V. ord.
      - rewrite R3. assumption.
      - pose proof (fuel_ok u3). lia.
      - cbn. rewrite E. exists (Some range'), u'. splits; auto.
        exists (a :: l1), r1. rewrite <- L3, A3, <- R3, A4. cbn. splits; auto; [lia|intros F; rewrite (AF F); auto|].
        intros x. rewrite A6, xcovs_cons. tauto. }
    assert (Hright : forall b r, rv u = b :: r -> Forall (fun r => leb (s b) (s r) = true) (lv u) ->
      exists o u', (first <- (o <- next_right inext ;; r <- unwrap o ;; ret (Some r)) ;;
         match first with
         | None => ret None
         | Some range => v <- get ;;
             range' <- un_loop inext merge (pk_len ilen (op_left v) + pk_len ilen (op_right v) + 1) range ;;
             ret (Some range')
         end)%M u2 = (Ret o, u') /\ uok u' /\
        match o with
        | None => lv u = [] /\ rv u = [] /\ lv u' = [] /\ rv u' = []
        | Some r => exists l1 r1, lv u = l1 ++ lv u' /\ rv u = r1 ++ rv u' /\ 0 < length l1 + length r1 /\
            ok r /\ (ri_exhausted r = true -> In r l1 \/ In r r1) /\ (forall x, cov r x <-> covs l1 x \/ covs r1 x) /\
            Forall (near r) (lv u') /\
            Forall (near r) (rv u')
        end).
    { clear Hleft. intros b r Er HB. rewrite Er in *. destruct (next_right_ok u2 U2) as (u3 & P3 & U3 & L3 & R3).
      rewrite L2 in L3. rewrite R2 in R3, P3. cbn in R3, P3.
      apply Forall_cons_iff in HR1 as [Hb HR1]. apply StronglySorted_inv in HRs as [HRs HRh].
      unfold bind at 1. unfold bind at 1. rewrite P3. cbn. unfold bind at 1.
      destruct (xunion_loop (pk_len ilen (op_left u3) + pk_len ilen (op_right u3) + 1) u3 b U3 Hb)
        as (range' & u' & l1 & r1 & E & A1 & A2 & A3 & A4 & A5 & AF & A6 & A7 & A8).
      - rewrite L3. assumption.
      - rewrite R3. assumption.
      - rewrite L3. assumption.
      - rewrite R3. assumption.
      - rewrite L3. assumption.
      - rewrite R3. eapply Forall_impl; [|exact HRh]. cbn. intros x Hx.
        pose proof (vld _ Hb) as V. ord.
      - pose proof (fuel_ok u3). lia.
      - cbn. rewrite E. exists (Some range'), u'. splits; auto.
        exists l1, (b :: r1). rewrite <- L3, A3, <- R3, A4. cbn. splits; auto; [lia|intros F; rewrite (AF F); auto|].
        intros x. rewrite A6, xcovs_cons. tauto. }
    assert (Hhead : forall l a l', l = a :: l' -> Forall ok l -> asc l ->
      Forall (fun r => leb (s a) (s r) = true) l).
    { intros l a l' -> Hok Hs. apply Forall_cons_iff in Hok as [Ha Hok].
      apply StronglySorted_inv in Hs as [Hs Hh]. constructor; [ord|].
      pose proof (vld _ Ha) as V.
      eapply Forall_impl; [|exact Hh]. cbn. intros x Hx. ord. }
    destruct (lv u) as [|a l] eqn:El, (rv u) as [|b r] eqn:Er; cbn [hd_error].
    - cbn. exists None, u2. rewrite L2, R2. auto 10.
    - apply (Hright b r eq_refl). constructor.
    - apply (Hleft a l eq_refl). constructor.
    - pose proof (Hhead _ a l eq_refl HL1 HLs) as Ba. pose proof (Hhead _ b r eq_refl HR1 HRs) as Bb.
      pose proof HL1 as HL1'. pose proof HR1 as HR1'.
      apply Forall_cons_iff in HL1' as [Ha _]. apply Forall_cons_iff in HR1' as [Hb _].
      unfold ri_order_start.
      destruct (c (s a) (s b)) eqn:Ec.
      + apply (Hright b r eq_refl). eapply Forall_impl; [|exact Ba]. cbn. intros x Hx. ord.
      + apply (Hleft a l eq_refl). eapply Forall_impl; [|exact Bb]. cbn. intros x Hx. ord.
      + apply (Hright b r eq_refl). eapply Forall_impl; [|exact Ba]. cbn. intros x Hx. ord.
  Qed.

  Lemma xunion_drains : forall n u, length (lv u) + length (rv u) <= n ->
    uok u -> Forall ok (lv u) -> Forall ok (rv u) -> asc (lv u) -> asc (rv u) ->
    exists us, drains un u us /\ Forall ok us /\ StronglySorted near us /\
      (forall r, In r us -> ri_exhausted r = true -> In r (lv u) \/ In r (rv u)) /\
      length us <= length (lv u) + length (rv u) /\
      (forall x, covs us x <-> covs (lv u) x \/ covs (rv u) x) /\
      (forall z, Forall (near z) (lv u) -> Forall (near z) (rv u) -> Forall (near z) us).
  Proof.
    intros n. induction n as [|n IH]; intros u Hn Hu HL1 HR1 HLs HRs.
    - assert (El : lv u = []) by (destruct (lv u); cbn in Hn; [reflexivity|lia]).
      assert (Er : rv u = []) by (destruct (rv u); cbn in Hn; [reflexivity|rewrite El in Hn; cbn in Hn; lia]).
      exists []. rewrite El, Er. splits; auto; try constructor; auto; cbn; auto.
      + apply (drains_nil un (fun u => uok u /\ lv u = [] /\ rv u = [])); [|auto].
        intros v (V1 & V2 & V3).
        destruct (xunion_next v V1) as (o & v' & E & W1 & W2); rewrite ?V2, ?V3; try constructor.
        destruct o as [r|].
        * destruct W2 as (l1 & r1 & A & B & C & _). rewrite V2 in A. rewrite V3 in B.
          symmetry in A, B. apply app_eq_nil in A as [-> _], B as [-> _]. cbn in C. lia.
        * exists v'. tauto.
      + intros [H|H]; exact H.
    - destruct (xunion_next u Hu HL1 HR1 HLs HRs) as (o & u' & E & U' & H). destruct o as [r|].
      + destruct H as (l1 & r1 & A & B & C & D1 & DF & D2 & D3 & D4).
        assert (Q1 : Forall ok (lv u')) by (rewrite A in HL1; apply Forall_app in HL1; tauto).
        assert (Q2 : Forall ok (rv u')) by (rewrite B in HR1; apply Forall_app in HR1; tauto).
        assert (Q3 : asc (lv u')) by (rewrite A in HLs; apply SS_app in HLs; tauto).
        assert (Q4 : asc (rv u')) by (rewrite B in HRs; apply SS_app in HRs; tauto).
        destruct (IH u') as (us & G1 & G2 & G3 & GF & G4 & G5 & G6); auto.
        { rewrite A, B, !app_length in Hn. lia. }
        exists (r :: us). splits.
        * eapply drains_cons; eauto.
        * constructor; auto.
        * constructor; auto.
        * intros q [<-|Hq] F.
          -- destruct (DF F); [left; rewrite A|right; rewrite B]; apply in_or_app; auto.
          -- destruct (GF q Hq F); [left; rewrite A|right; rewrite B]; apply in_or_app; auto.
        * rewrite A, B, !app_length. cbn. lia.
        * intros x. rewrite xcovs_cons, D2, G5, A, B, !xcovs_app. tauto.
        * intros z Z1 Z2. constructor; [|apply G6].
          -- pose proof (vld _ D1) as V.
             destruct (proj1 (D2 (s r))) as [(q & Q5 & Q6)|(q & Q5 & Q6)]; [unfold xcov; split; ord| |].
             ++ rewrite A in Z1. apply Forall_app in Z1 as [Z1 _]. rewrite Forall_forall in Z1.
                specialize (Z1 _ Q5). destruct Q6 as [Q6 _]. exact (near_up z q r Z1 Q6).
             ++ rewrite B in Z2. apply Forall_app in Z2 as [Z2 _]. rewrite Forall_forall in Z2.
                specialize (Z2 _ Q5). destruct Q6 as [Q6 _]. exact (near_up z q r Z2 Q6).
          -- rewrite A in Z1. apply Forall_app in Z1. tauto.
          -- rewrite B in Z2. apply Forall_app in Z2. tauto.
      + destruct H as (A & B & A' & B').
        destruct (IH u) as (us & G); auto; [rewrite A, B; cbn; lia|]. exists us. exact G.
  Qed.
End Union.

Section Sets.
  Context {K : Type} {cmp : K -> K -> comparison} {st : stepfns K}.
  Context (HO : TotalOrd cmp) (HS : StepLaws cmp st).
  Notation run := (is_run cmp st).
  Notation valid := (valid_rangei cmp).
  Notation covers := (in_rangei cmp).
  Notation mem := (mem_run valid covers).
  Notation memx := (mem_sexp valid covers).
  Notation ranges s := (map fst (is_iter s)).
  Notation fr := (@freshen K).
  Notation fe := (@freshen_entry K unit).
  Notation HV := unit_per.

  (** ** Histories *)
  Lemma to_freshen (ops : list (sop (rangei K))) : to_ops (map freshen_sop ops) = map freshen_op (to_ops ops).
  Proof.
    unfold to_ops. rewrite !map_map. apply map_ext. intros [r|r| |l]; try reflexivity. cbn. rewrite !map_map. reflexivity.
  Qed.
  Lemma sfreshen_fresh (ops : list (sop (rangei K))) : fresh_sops (map freshen_sop ops).
  Proof.
    unfold fresh_sops. induction ops as [|o ops IH]; [reflexivity|]. cbn. rewrite IH, andb_true_r.
    destruct o as [r|r| |l]; cbn; try reflexivity. induction l as [|x l IHl]; [reflexivity|exact IHl].
  Qed.
  Lemma xs_exec o (s : iset K) : is_exec cmp st (freshen_sop o) (map fe s) =
    (fst (is_exec cmp st o s), map fe (snd (is_exec cmp st o s))).
  Proof.
    rewrite !iexec_to_op. assert (E : to_op (freshen_sop o) = freshen_op (to_op o)) by exact
      (f_equal (hd (to_op SClear)) (to_freshen [o])).
    rewrite E, x_exec. unfold fres. destruct (im_exec cmp unit_eqb st (to_op o) s) as [[[]|p|] s']; reflexivity.
  Qed.
  Lemma xs_run ops : run (map freshen_sop ops) = map fe (run ops).
  Proof. rewrite !irun_to_ops, to_freshen. apply x_run. Qed.
  Lemma xs_outcome ops o :
    fst (is_exec cmp st (freshen_sop o) (run (map freshen_sop ops))) = fst (is_exec cmp st o (run ops)).
  Proof. rewrite xs_run, xs_exec. reflexivity. Qed.
  Lemma xs_mem_op f o : mem_op valid covers f (freshen_sop o) = mem_op valid covers f o.
  Proof.
    destruct o as [r|r| |l]; try reflexivity. cbn. revert f. induction l as [|r l IH]; intros f; [reflexivity|].
    cbn. change (valid (fr r)) with (valid r). change (covers (fr r)) with (covers r). rewrite IH. reflexivity.
  Qed.
  Lemma xs_mem ops : mem (map freshen_sop ops) = mem ops.
  Proof.
    unfold mem_run. generalize (fun _ : K => false). induction ops as [|o ops IH]; intros f; [reflexivity|].
    cbn [map fold_left]. rewrite xs_mem_op. apply IH.
  Qed.
  Lemma franges (s : iset K) : ranges (map fe s) = map fr (ranges s).
  Proof. unfold is_iter, im_iter. rewrite !map_map. reflexivity. Qed.
  Lemma xs_runs ops : runsi_of cmp (mem ops) (map fr (ranges (run ops))).
  Proof. rewrite <- franges, <- xs_run, <- xs_mem. apply (isrun_runs HO HS), sfreshen_fresh. Qed.
  Lemma fr_runs f (l : list (rangei K)) : runsi_of cmp f (map fr l) ->
    (forall r, In r l -> valid r = true) /\
    StronglySorted (fun a b => exists k, ltb cmp (ri_end a) k = true /\ ltb cmp k (ri_start b) = true) l /\
    (forall k, (exists r, In r l /\ covers r k = true) <-> f k = true).
  Proof.
    intros (H1 & H2 & H3). splits.
    - intros r Hr. exact (proj2 (H1 _ (in_map fr _ _ Hr))).
    - clear - H2. induction l as [|a l IH]; [constructor|]. cbn in H2. apply StronglySorted_inv in H2 as [H2 HF].
      constructor; [apply IH, H2|]. rewrite Forall_forall in *. intros b Hb. exact (HF (fr b) (in_map fr _ _ Hb)).
    - intros k. rewrite <- H3. split.
      + intros (r & Hr & Hk). exists (fr r). split; [apply in_map, Hr|exact Hk].
      + intros (r & Hr & Hk). apply in_map_iff in Hr as (r' & <- & Hr'). exists r'. auto.
  Qed.
  Lemma xs_runs' ops :
    (forall r, In r (ranges (run ops)) -> valid r = true) /\
    StronglySorted (fun a b => exists k, ltb cmp (ri_end a) k = true /\ ltb cmp k (ri_start b) = true) (ranges (run ops)) /\
    (forall k, (exists r, In r (ranges (run ops)) /\ covers r k = true) <-> mem ops k = true).
  Proof. apply fr_runs, xs_runs. Qed.
  Lemma gap_asc (l : list (rangei K)) :
    StronglySorted (fun a b => exists k, ltb cmp (ri_end a) k = true /\ ltb cmp k (ri_start b) = true) l ->
    StronglySorted (fun a b => ltb cmp (ri_end a) (ri_start b) = true) l.
  Proof. apply SS_impl. intros a b _ _ (k & H1 & H2). ord. Qed.

  (** ** Lookups *)
  Definition hidden (s : iset K) (k : K) : bool :=
    existsb (fun r => ri_exhausted r && eqb cmp k (ri_end r)) (ranges s).
  Lemma hidden_iff s k : hidden s k = true <->
    exists e, In e s /\ ri_exhausted (fst e) = true /\ eqb cmp k (ri_end (fst e)) = true.
  Proof.
    unfold hidden. rewrite existsb_exists. split.
    - intros (r & Hr & H). apply in_map_iff in Hr as (e & <- & He). apply andb_prop in H as [H1 H2]. eauto.
    - intros (e & He & H1 & H2). exists (fst e). split; [apply in_map, He|]. rewrite H1, H2. reflexivity.
  Qed.
  Lemma xs_contains ops k : is_contains cmp (run ops) k = Ret (mem ops k && negb (hidden (run ops) k)).
  Proof.
    destruct (x_get HO HS HV (to_ops ops) k) as [G1 G2]. rewrite <- irun_to_ops in G1, G2.
    unfold is_contains, im_contains_key, im_get.
    destruct (hidden (run ops) k) eqn:E.
    - apply hidden_iff in E. rewrite (G1 E), andb_false_r. reflexivity.
    - rewrite andb_true_r. pose proof (isrun_contains HO HS (map freshen_sop ops) k (sfreshen_fresh ops)) as H.
      rewrite xs_mem in H. rewrite <- H. unfold is_contains, im_contains_key, im_get.
      rewrite (irun_to_ops (map freshen_sop ops)), to_freshen, G2.
      + destruct (im_get_key_value cmp (run ops) k) as [[e|]|p|]; reflexivity.
      + intros e He Hx. destruct (eqb cmp k (ri_end (fst e))) eqn:E2; [|reflexivity].
        rewrite <- E. symmetry. apply hidden_iff. exists e. auto.
  Qed.
  Lemma contains_covers r k : ri_contains cmp r k = true -> covers r k = true.
  Proof. unfold ri_contains, in_rangei. destruct (ri_exhausted r); intros H; ord. Qed.
  Lemma xs_unique ops a b k : In a (ranges (run ops)) -> In b (ranges (run ops)) ->
    covers a k = true -> covers b k = true -> a = b.
  Proof.
    destruct (xs_runs' ops) as (_ & A & _). apply gap_asc in A. intros Ha Hb Hca Hcb.
    induction A as [|x l A IH HF]; [destruct Ha|]. rewrite Forall_forall in HF.
    destruct Ha as [-> | Ha], Hb as [-> | Hb]; auto; exfalso.
    - pose proof (HF _ Hb) as H. unfold in_rangei in *. ord.
    - pose proof (HF _ Ha) as H. unfold in_rangei in *. ord.
  Qed.
  Lemma xs_get ops k r : is_get cmp (run ops) k = Ret (Some r) <->
    In r (ranges (run ops)) /\ ri_contains cmp r k = true.
  Proof.
    assert (Gc : forall r, is_get cmp (run ops) k = Ret (Some r) ->
      In r (ranges (run ops)) /\ ri_contains cmp r k = true).
    { clear r. intros r. unfold is_get. rewrite (floor_get (run ops) k).
      destruct (floor_ret (cmp := cmp) (run ops) k) as (o & -> & Ho). cbn.
      destruct o as [x|]; [|discriminate]. destruct (ri_contains cmp (fst x) k) eqn:Ec; [|discriminate].
      intros [= <-]. split; [apply in_map, (Ho x eq_refl)|exact Ec]. }
    split; [apply Gc|]. intros [Hr Hk]. pose proof (contains_covers _ _ Hk) as Hc.
    pose proof (xs_contains ops k) as G.
    assert (E : hidden (run ops) k = false).
    { destruct (hidden (run ops) k) eqn:E; [|reflexivity]. exfalso. apply hidden_iff in E as (e & He & Hx & Hke).
      assert (Re : In (fst e) (ranges (run ops))) by (apply in_map, He).
      rewrite (xs_unique ops r (fst e) k Hr Re Hc) in Hk.
      - unfold ri_contains in Hk. rewrite Hx in Hk. ord.
      - pose proof (proj1 (xs_runs' ops) _ Re) as V. unfold valid_rangei in V. unfold in_rangei. ord. }
    rewrite E, (proj1 (proj2 (proj2 (xs_runs' ops)) k)) in G by eauto. cbn [andb negb] in G.
    assert (G' : exists q, is_get cmp (run ops) k = Ret (Some q)).
    { unfold is_contains, im_contains_key, im_get in G. unfold is_get.
      destruct (im_get_key_value cmp (run ops) k) as [[x|]|p|]; try discriminate. exists (fst x). reflexivity. }
    destruct G' as (q & G'). rewrite G'. destruct (Gc q G') as [Q1 Q2].
    rewrite (xs_unique ops q r k Q1 Hr (contains_covers _ _ Q2) Hc). reflexivity.
  Qed.

  Lemma xs_get_iff ops k r : is_get cmp (run ops) k = Ret (Some r) <->
    In r (ranges (run ops)) /\ covers r k = true /\ (ri_exhausted r = true -> eqb cmp k (ri_end r) = false).
  Proof.
    rewrite xs_get. unfold ri_contains, in_rangei. destruct (ri_exhausted r).
    - split; intros (H1 & H2); splits; auto.
      + ord.
      + intros _. ord.
      + destruct H2 as [H2 H3]. specialize (H3 eq_refl). ord.
    - split; intros (H1 & H2); splits; auto; try discriminate; [ord|]. destruct H2. ord.
  Qed.

  (** ** Comparisons *)
  Lemma xs_cmp a b : is_cmp cmp (run a) (run b) = Eq <-> forall k, mem a k = mem b k.
  Proof.
    rewrite <- (xs_mem a), <- (xs_mem b), <- (proj2 (iscmp_spec HO HS) _ _ (sfreshen_fresh a) (sfreshen_fresh b)).
    rewrite !xs_run. unfold is_cmp. rewrite x_cmp. reflexivity.
  Qed.
  Lemma veq_fst (a : list (rangei K * unit)) : forall b, map fst a = map fst b -> a = b.
  Proof.
    induction a as [|[r []] a IH]; intros [|[q []] b] H; try discriminate; [reflexivity|]. injection H as -> H.
    rewrite (IH b H). reflexivity.
  Qed.

  (** ** Intersection *)
  Notation pit := (pair_iter (rangei K) (list (rangei K * unit))).
  Definition fpk (p : peekable (list (rangei K * unit)) (rangei K)) :=
    mkPeek (map fe (pk_iter p)) (option_map (option_map fr) (pk_peeked p)).
  Definition fpr (u : pit) : pit := mkPair (fpk (op_left u)) (fpk (op_right u)).
  Lemma x_peek p : pk_peek is_iter_next (fpk p) =
    (option_map fr (fst (pk_peek is_iter_next p)), fpk (snd (pk_peek is_iter_next p))).
  Proof. destruct p as [[|[r []] i] [[q|]|]]; reflexivity. Qed.
  Lemma x_pnext p : pk_next is_iter_next (fpk p) =
    (option_map fr (fst (pk_next is_iter_next p)), fpk (snd (pk_next is_iter_next p))).
  Proof. destruct p as [[|[r []] i] [[q|]|]]; reflexivity. Qed.
  Definition hp {A B} (F : A -> B) (c : M pit A) (c' : M pit B) : Prop :=
    forall u, c' (fpr u) = (omap F (fst (c u)), fpr (snd (c u))).
  Lemma hp_bind {A B C D} (F : A -> B) (G : C -> D) c c' h h' :
    hp F c c' -> (forall a, hp G (h a) (h' (F a))) -> hp G (bind c h) (bind c' h').
  Proof.
    intros H1 H2 u. unfold bind. rewrite H1.
    destruct (c u) as [[a|p|] u1]; cbn; [|reflexivity|reflexivity]. apply H2.
  Qed.
  Lemma hp_ret {A B} (F : A -> B) a : hp F (ret a) (ret (F a)).
  Proof. intros u. reflexivity. Qed.
  Lemma hp_peek_left : hp (option_map fr) (peek_left is_iter_next) (peek_left is_iter_next).
  Proof. intros [l r]. unfold peek_left. cbn [fpr op_left op_right]. rewrite x_peek. destruct (pk_peek is_iter_next l). reflexivity. Qed.
  Lemma hp_peek_right : hp (option_map fr) (peek_right is_iter_next) (peek_right is_iter_next).
  Proof. intros [l r]. unfold peek_right. cbn [fpr op_left op_right]. rewrite x_peek. destruct (pk_peek is_iter_next r). reflexivity. Qed.
  Lemma hp_next_left : hp (option_map fr) (next_left is_iter_next) (next_left is_iter_next).
  Proof. intros [l r]. unfold next_left. cbn [fpr op_left op_right]. rewrite x_pnext. destruct (pk_next is_iter_next l). reflexivity. Qed.
  Lemma hp_next_right : hp (option_map fr) (next_right is_iter_next) (next_right is_iter_next).
  Proof. intros [l r]. unfold next_right. cbn [fpr op_left op_right]. rewrite x_pnext. destruct (pk_next is_iter_next r). reflexivity. Qed.
  Lemma x_in_loop fuel : hp (fun x => x)
    (in_loop is_iter_next (ri_order_end cmp) (ri_intersect cmp) fuel)
    (in_loop is_iter_next (ri_order_end cmp) (ri_intersect cmp) fuel).
  Proof.
    induction fuel as [|fuel IH]; [intros u; reflexivity|]. cbn [in_loop].
    eapply hp_bind; [apply hp_peek_left|]. intros a. eapply hp_bind; [apply hp_peek_right|]. intros b.
    destruct a as [a|], b as [b|]; cbn [option_map]; try apply (hp_ret (fun x => x)).
    change (ri_intersect cmp (fr a) (fr b)) with (ri_intersect cmp a b).
    change (ri_order_end cmp (fr a) (fr b)) with (ri_order_end cmp a b).
    eapply hp_bind with (F := option_map fr).
    - destruct (ri_order_end cmp a b); [apply hp_next_right|apply hp_next_left|apply hp_next_right].
    - intros _. destruct (ri_intersect cmp a b); [apply (hp_ret (fun x => x))|exact IH].
  Qed.
  Lemma x_in_next u : is_intersection_next cmp (fpr u) =
    (fst (is_intersection_next cmp u), fpr (snd (is_intersection_next cmp u))).
  Proof.
    unfold is_intersection_next, in_next. unfold bind, get.
    assert (E : forall p, pk_len (@length (rangei K * unit)) (fpk p) = pk_len (@length (rangei K * unit)) p).
    { intros [i [[q|]|]]; unfold pk_len; cbn; rewrite map_length; reflexivity. }
    cbn [fpr op_left op_right]. rewrite !E. 
    pose proof (x_in_loop (pk_len (@length (rangei K * unit)) (op_left u) + pk_len (@length (rangei K * unit)) (op_right u) + 1) u) as H.
    etransitivity; [exact H|]. destruct (fst _); reflexivity.
  Qed.
  Lemma x_in_nexts n : forall u, nexts_m (is_intersection_next cmp) n (fpr u) = nexts_m (is_intersection_next cmp) n u.
  Proof.
    induction n as [|n IH]; intros u; [reflexivity|]. cbn [nexts_m]. rewrite x_in_next.
    destruct (is_intersection_next cmp u) as [o u']. cbn. rewrite IH. reflexivity.
  Qed.
  Lemma xs_intersection a b : exists us,
    (forall n, nexts_m (is_intersection_next cmp) n (is_intersection (run a) (run b)) = map Ret (yields n us)) /\
    runsi_of cmp (fun k => mem a k && mem b k) us /\
    length us <= is_len (run a) + is_len (run b).
  Proof.
    destruct (isintersection HO HS _ _ (sfreshen_fresh a) (sfreshen_fresh b)) as (us & H1 & H2 & H3).
    rewrite !xs_mem in H2. exists us. splits; auto.
    - intros n. rewrite <- H1, !xs_run. symmetry. apply (x_in_nexts n (is_intersection (run a) (run b))).
    - rewrite !xs_run in H3. unfold is_len, im_len in *. rewrite !map_length in H3. exact H3.
  Qed.

  (** ** Union *)
  Lemma xcovs_iff (l : list (rangei K)) k : xcovs (cmp := cmp) l k <-> exists r, In r l /\ covers r k = true.
  Proof.
    unfold xcovs, xcov, in_rangei. split; intros (r & Hr & H); exists r; (split; [exact Hr|]); [destruct H|split]; ord.
  Qed.
  Lemma xs_union a b : exists us,
    (forall n, nexts_m (is_union_next cmp) n (is_union (run a) (run b)) = map Ret (yields n us)) /\
    (forall r, In r us -> valid r = true) /\
    StronglySorted (fun p q => ltb cmp (ri_end p) (ri_start q) = true \/
                               ri_exhausted p = true /\ eqb cmp (ri_end p) (ri_start q) = true) us /\
    (forall k, (exists r, In r us /\ covers r k = true) <-> mem a k || mem b k = true) /\
    (forall r, In r us -> ri_exhausted r = true -> In r (ranges (run a)) \/ In r (ranges (run b))) /\
    length us <= is_len (run a) + is_len (run b).
  Proof.
    destruct (xs_runs' a) as (A1 & A2 & A3), (xs_runs' b) as (B1 & B2 & B3).
    destruct (xunion_drains HO HS _ (is_union (run a) (run b)) (le_n _)) as (us & H1 & H2 & H3 & HF & H4 & H5 & _).
    - split; apply (pok_new (view := map fst)).
    - apply Forall_forall. exact A1.
    - apply Forall_forall. exact B1.
    - apply gap_asc, A2.
    - apply gap_asc, B2.
    - exists us. splits; auto.
      + apply Forall_forall. exact H2.
      + intros k. rewrite <- xcovs_iff, H5, orb_true_iff, <- A3, <- B3, <- !xcovs_iff. reflexivity.
      + unfold is_len, im_len. unfold lv, rv in H4. cbn in H4. rewrite !map_length in H4. exact H4.
  Qed.

  (** ** [|], [&] and programs *)
  Lemma extend_run l : forall s, fst (is_extend cmp st l s) = Ret tt ->
    snd (is_extend cmp st l s) = run_ops (is_exec cmp st) (map SInsert l) s.
  Proof.
    induction l as [|r l IH]; intros s; [reflexivity|]. cbn [is_extend for_each map]. unfold is_extend in *.
    cbn [for_each]. unfold bind, run_ops. cbn [fold_left is_exec].
    destruct (is_insert cmp st r s) as [[u|p|] s']; cbn; try discriminate. apply IH.
  Qed.
  Lemma xs_from_iter (l : list (rangei K)) : (forall r, In r l -> valid r = true) ->
    is_from_iter cmp st l = Ret (run (map SInsert l)).
  Proof.
    intros H. unfold is_from_iter.
    assert (E : fst (is_extend cmp st l is_new) = Ret tt).
    { pose proof (xs_exec (SExtend l) (@is_new K)) as X. change (map fe is_new) with (@is_new K) in X.
      cbn [is_exec freshen_sop] in X.
      pose proof (isextend HO HS [] (map fr l) [] eq_refl) as Y. rewrite app_nil_r in Y.
      change (run []) with (@is_new K) in Y. rewrite Y in X.
      - injection X as X _. symmetry. exact X.
      - intros r Hr. apply in_map_iff in Hr as (q & <- & Hq). split; [reflexivity|]. exact (H q Hq).
      - exact Logic.I. }
    pose proof (extend_run l is_new E) as E2. destruct (is_extend cmp st l is_new) as [o s']. cbn in E, E2.
    rewrite E, E2. reflexivity.
  Qed.
  Lemma xmem_all_valid (l : list (rangei K)) : (forall r, In r l -> valid r = true) ->
    forall k, mem (map SInsert l) k = existsb (fun r => covers r k) l.
  Proof. intros H. apply mem_inserts. apply forallb_forall. exact H. Qed.
  Lemma xs_bitor a b : exists ops, is_bitor cmp st (run a) (run b) = Ret (run ops) /\
    forall k, mem ops k = mem a k || mem b k.
  Proof.
    destruct (xs_union a b) as (us & H1 & H2 & H3 & H4 & HF & H5). exists (map SInsert us).
    unfold is_bitor. rewrite (drain_ok _ us) by (try exact H1; lia). cbn [obind]. split.
    - apply xs_from_iter, H2.
    - intros k. rewrite (xmem_all_valid us H2). apply (existsb_cov covers us (fun k => mem a k || mem b k)). apply H4.
  Qed.
  Lemma xs_bitand a b : exists ops, is_bitand cmp st (run a) (run b) = Ret (run ops) /\
    forall k, mem ops k = mem a k && mem b k.
  Proof.
    destruct (xs_intersection a b) as (us & H1 & (H2 & H3 & H4) & H5). exists (map SInsert us).
    assert (H2' : forall r, In r us -> valid r = true) by (intros r Hr; apply H2, Hr).
    unfold is_bitand. rewrite (drain_ok _ us) by (try exact H1; lia). cbn [obind]. split.
    - apply xs_from_iter, H2'.
    - intros k. rewrite (xmem_all_valid us H2'). apply (existsb_cov covers us (fun k => mem a k && mem b k)). apply H4.
  Qed.
  Lemma xs_eval x : exists ops, is_eval cmp st x = Ret (run ops) /\ forall k, mem ops k = memx x k.
  Proof.
    induction x as [|x IH o|x IHx y IHy|x IHx y IHy].
    - exists []. repeat split.
    - destruct IH as (ops & H1 & H2). exists (ops ++ [o]).
      cbn. rewrite H1. cbn. rewrite isrun_snoc. split; [reflexivity|]. intros k. rewrite mem_snoc. apply mem_op_ext. exact H2.
    - destruct IHx as (a & A1 & A2), IHy as (b & B1 & B2). destruct (xs_bitor a b) as (c & C1 & C2).
      exists c. cbn. rewrite A1, B1. cbn. split; [exact C1|]. intros k. rewrite C2, A2, B2. reflexivity.
    - destruct IHx as (a & A1 & A2), IHy as (b & B1 & B2). destruct (xs_bitand a b) as (c & C1 & C2).
      exists c. cbn. rewrite A1, B1. cbn. split; [exact C1|]. intros k. rewrite C2, A2, B2. reflexivity.
  Qed.
  Lemma xs_eval_cmp x y : exists a b, is_eval cmp st x = Ret a /\ is_eval cmp st y = Ret b /\
    (is_cmp cmp a b = Eq <-> forall k, memx x k = memx y k).
  Proof.
    destruct (xs_eval x) as (a & A1 & A2), (xs_eval y) as (b & B1 & B2).
    exists (run a), (run b). refine (conj A1 (conj B1 _)). rewrite xs_cmp.
    split; intros H k; specialize (H k); rewrite ?A2, ?B2 in *; exact H.
  Qed.

  (** ** Queries *)
  Lemma xs_gaps ops outer : exists g gs, is_gaps cmp (run ops) outer = Ret g /\
    (forall n, nexts_m (is_gaps_next cmp st) n g = map Ret (yields n gs)) /\
    runsi_of cmp (fun k => covers outer k && negb (mem ops k)) gs.
  Proof.
    destruct (isgaps HO HS _ (fr outer) (sfreshen_fresh ops)) as (g & gs & H1 & H2 & H3).
    rewrite xs_mem in H3.
    destruct (x_gaps_all (cmp := cmp) (veqb := unit_eqb) (st := st) (to_ops ops) outer) as (g1 & g2 & G1 & G2 & G3).
    rewrite <- to_freshen, <- !irun_to_ops in G2. rewrite <- irun_to_ops in G1.
    exists g1, gs. splits; auto. intros n. unfold is_gaps in H1. assert (g2 = g) by congruence. subst g2.
    rewrite <- H2. symmetry. apply G3.
  Qed.
  Lemma xs_overlapping ops q sched : exists o, is_overlapping cmp (run ops) q = Ret o /\
      map (fun x => option_map fr (fst x)) (sched_trace (both (is_ov_next cmp) (is_ov_next_back cmp)) (fun _ => tt) sched o) =
      deque_run sched (filter (meetsi cmp q) (map fr (ranges (run ops)))).
  Proof.
    destruct (isoverlapping HO HS _ (fr q) sched (sfreshen_fresh ops)) as (o' & H1 & H2).
    rewrite xs_run, franges in H2.
    destruct (x_overlapping_all (cmp := cmp) (veqb := unit_eqb) (st := st) (to_ops ops) q) as (o & o2 & G1 & G2 & G3).
    rewrite <- to_freshen, <- !irun_to_ops in G2. rewrite <- irun_to_ops in G1.
    unfold is_overlapping in H1. assert (o2 = o') by congruence. subst o2.
    exists o. split; [exact G1|]. etransitivity; [|exact H2].
    assert (P : forall s o, sched_trace (both (is_ov_next cmp) (is_ov_next_back cmp)) (fun _ => tt) s o =
      map (fun x : option (rangei K * unit) * unit => (option_map fst (fst x), snd x))
        (sched_trace (both (ovi_next cmp) (ovi_next_back cmp)) (fun _ => tt) s o)).
    { intros s x. apply (sched_map fst). intros d y. destruct d; cbn [both]; unfold is_ov_next, is_ov_next_back.
      - destruct (ovi_next cmp y); reflexivity.
      - destruct (ovi_next_back cmp y); reflexivity. }
    rewrite !P, G3, !map_map. apply map_ext. intros [[x|] []]; reflexivity.
  Qed.
  Lemma xs_overlaps ops q : is_overlaps cmp (run ops) q = Ret (existsb (meetsi cmp q) (ranges (run ops))).
  Proof.
    pose proof (isoverlaps HO HS _ (fr q) (sfreshen_fresh ops)) as H. rewrite xs_run, franges in H.
    assert (E : existsb (meetsi cmp (fr q)) (map fr (ranges (run ops))) = existsb (meetsi cmp q) (ranges (run ops))).
    { generalize (ranges (run ops)). induction l as [|r l IH]; [reflexivity|]. cbn. rewrite <- IH. reflexivity. }
    rewrite E in H. rewrite <- H. unfold is_overlaps, is_overlapping. rewrite x_overlapping.
    destruct (im_overlapping cmp (run ops) q) as [o|p|]; try reflexivity. cbn. f_equal.
    unfold is_ov_next. pose proof (x_ov_step (cmp := cmp) Front o) as X. cbn [both] in X. rewrite X.
    destruct (ovi_next cmp o) as [[e|] o']; reflexivity.
  Qed.
  Lemma xs_round_trip (E : Type) ops :
    is_deserialize (E := E) cmp st (map inr (snd (is_serialize (run ops)))) = Ret (inr (map fe (run ops))).
  Proof.
    destruct (isround_trip HO HS E _ (sfreshen_fresh ops)) as [H _]. rewrite xs_run in H.
    etransitivity; [|exact H]. do 2 f_equal. unfold is_serialize, is_iter, im_iter. cbn [snd]. rewrite map_map. reflexivity.
  Qed.
End Sets.
Section Maps.
  Context {K V : Type} {cmp : K -> K -> comparison} {veqb : V -> V -> bool} {st : stepfns K}.
  Context (HO : TotalOrd cmp) (HS : StepLaws cmp st) (HV : PartialEquiv veqb).
  Lemma x_round_trip (E : Type) ops :
    im_deserialize (E := E) cmp veqb st (map inr (snd (im_serialize (im_run cmp veqb st ops)))) =
      Ret (inr (map freshen_entry (im_run cmp veqb st ops))).
  Proof.
    destruct (irun_round_trip HO HS HV E _ (freshen_fresh ops)) as [H _]. rewrite x_run in H.
    etransitivity; [|exact H]. do 2 f_equal. unfold im_serialize, im_iter. cbn [snd]. rewrite map_map. reflexivity.
  Qed.
End Maps.
