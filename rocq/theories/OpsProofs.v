(** Correctness of the union and intersection iterators, once for both range
    types: a range is seen through the positions [s] and [e] of its two ends in
    a total order [P] ([P] is the key type for half-open ranges, the cuts
    between keys for inclusive ones). *)
From Coq Require Import List Bool Sorting.Sorted Lia.
From Verif Require Import Order Outcome Ranges History Spec ListLemmas IterFacts OpsModel.
Import ListNotations.

(** An iterator state that yields exactly [l], then [None] forever. *)
Definition drains {S A} (next : M S (option A)) (st : S) (l : list A) : Prop :=
  forall n, nexts_m next n st = map Ret (yields n l).

Lemma drains_nil {S A} (next : M S (option A)) (Q : S -> Prop) :
  (forall s, Q s -> exists s', next s = (Ret None, s') /\ Q s') ->
  forall s, Q s -> drains next s [].
Proof.
  intros H s Hs n. rewrite yields_nil. revert s Hs.
  induction n as [|n IH]; intros s Hs; cbn; [reflexivity|].
  destruct (H s Hs) as (s' & -> & Hs'). rewrite (IH _ Hs'). reflexivity.
Qed.
Lemma drains_cons {S A} (next : M S (option A)) s s' a l :
  next s = (Ret (Some a), s') -> drains next s' l -> drains next s (a :: l).
Proof.
  intros H1 H2 [|n]; [reflexivity|]. rewrite yields_cons. cbn [nexts_m map]. rewrite H1, H2. reflexivity.
Qed.
Lemma drain_ok {S A} (next : M S (option A)) : forall l fuel s,
  drains next s l -> length l < fuel -> fst (drain next fuel s) = Ret l.
Proof.
  induction l as [|a l IH]; intros [|fuel] s H Hf; cbn in Hf; try lia.
  - specialize (H 1). cbn in H. cbn. unfold bind. destruct (next s) as [o s']. injection H as ->. reflexivity.
  - pose proof (H 1) as H1. cbn in H1. cbn. unfold bind at 1. destruct (next s) as [o s'] eqn:E.
    injection H1 as ->. assert (H' : drains next s' l).
    { intros n. specialize (H (Datatypes.S n)). rewrite yields_cons in H. cbn [nexts_m map] in H.
      rewrite E in H. injection H as H. exact H. }
    specialize (IH fuel s' H' ltac:(lia)). unfold bind. destruct (drain next fuel s') as [o s2].
    cbn in IH. subst o. reflexivity.
Qed.

Record OpsLaws {R I P} (c : P -> P -> comparison) (s e : R -> P) (ok : R -> Prop)
    (inext : I -> option R * I) (ilen : I -> nat) (view : I -> list R)
    (order_start order_end : R -> R -> comparison)
    (merge : R -> R -> bool * R) (intersect : R -> R -> option R) : Prop := {
  ol_valid : forall r, ok r -> ltb c (s r) (e r) = true;
  ol_start : forall a b, ok a -> ok b -> order_start a b = c (s a) (s b);
  ol_end : forall a b, ok a -> ok b -> order_end a b = c (e a) (e b);
  ol_merge : forall a b, ok a -> ok b ->
    if leb c (s a) (s b) && ltb c (s b) (e a)
    then exists r, merge a b = (true, r) /\ ok r /\ c (s r) (s a) = Eq /\ c (e r) (kmax c (e a) (e b)) = Eq
    else merge a b = (false, a);
  ol_intersect : forall a b, ok a -> ok b ->
    if ltb c (kmax c (s a) (s b)) (kmin c (e a) (e b))
    then exists r, intersect a b = Some r /\ ok r /\ c (s r) (kmax c (s a) (s b)) = Eq /\
                   c (e r) (kmin c (e a) (e b)) = Eq
    else intersect a b = None;
  ol_next : forall i, match view i with
    | [] => exists i', inext i = (None, i') /\ view i' = []
    | a :: l => exists i', inext i = (Some a, i') /\ view i' = l
    end;
  ol_len : forall i, ilen i = length (view i)
}.

Section Ops.
  Context {R I P : Type} {c : P -> P -> comparison} (HO : TotalOrd c).
  Context {s e : R -> P} {ok : R -> Prop} {inext : I -> option R * I} {ilen : I -> nat}.
  Context {view : I -> list R} {order_start order_end : R -> R -> comparison}.
  Context {merge : R -> R -> bool * R} {intersect : R -> R -> option R}.
  Context (HL : OpsLaws c s e ok inext ilen view order_start order_end merge intersect).

  Notation ltb := (ltb c).
  Notation leb := (leb c).
  Notation pk := (peekable I R).
  Notation pairs := (pair_iter R I).
  Notation un := (un_next inext ilen order_start merge).
  Notation inn := (in_next inext ilen order_end intersect).

  (** ** Peekable *)
  Definition pview (p : pk) : list R :=
    match pk_peeked p with
    | None => view (pk_iter p)
    | Some None => []
    | Some (Some a) => a :: view (pk_iter p)
    end.
  Definition pok (p : pk) : Prop := pk_peeked p = Some None -> view (pk_iter p) = [].

  Lemma pview_len p : pk_len ilen p = length (pview p) \/ pk_len ilen p >= length (pview p).
  Proof.
    unfold pk_len, pview. rewrite (ol_len _ _ _ _ _ _ _ _ _ _ _ HL). destruct (pk_peeked p) as [[a|]|]; cbn; lia.
  Qed.
  Lemma pok_new i : pok (pk_new i).
  Proof. intros H. discriminate H. Qed.
  Lemma pview_new i : pview (pk_new i) = view i.
  Proof. reflexivity. Qed.
  Lemma peek_ok p : pok p -> exists p', pk_peek inext p = (hd_error (pview p), p') /\
    pok p' /\ pview p' = pview p /\ pk_peeked p' = Some (hd_error (pview p)).
  Proof.
    intros Hp. unfold pk_peek, pview, pok in *. destruct (pk_peeked p) as [[a|]|] eqn:E.
    - exists p. rewrite E. auto.
    - exists p. rewrite E. auto.
    - pose proof (ol_next _ _ _ _ _ _ _ _ _ _ _ HL (pk_iter p)) as H.
      destruct (view (pk_iter p)) as [|a l] eqn:Ev; destruct H as (i' & -> & Hv);
        eexists; (split; [reflexivity|]); cbn; rewrite ?Hv; splits; auto; discriminate.
  Qed.
  Lemma pnext_ok p : pok p -> exists p', pk_next inext p = (hd_error (pview p), p') /\
    pok p' /\ pview p' = tl (pview p).
  Proof.
    intros Hp. unfold pk_next, pview, pok in *. destruct (pk_peeked p) as [[a|]|] eqn:E.
    - eexists. cbn. splits; [reflexivity|discriminate|reflexivity].
    - eexists. cbn. splits; [reflexivity|discriminate|auto].
    - pose proof (ol_next _ _ _ _ _ _ _ _ _ _ _ HL (pk_iter p)) as H.
      destruct (view (pk_iter p)) as [|a l] eqn:Ev; destruct H as (i' & -> & Hv); eexists; cbn; splits; eauto;
        discriminate.
  Qed.

  (** ** The pair of iterators *)
  Definition lv (u : pairs) : list R := pview (op_left u).
  Definition rv (u : pairs) : list R := pview (op_right u).
  Definition uok (u : pairs) : Prop := pok (op_left u) /\ pok (op_right u).

  Lemma peek_left_ok u : uok u -> exists u', peek_left inext u = (Ret (hd_error (lv u)), u') /\
    uok u' /\ lv u' = lv u /\ rv u' = rv u.
  Proof.
    intros [H1 H2]. unfold peek_left, lv, rv, uok.
    destruct (peek_ok _ H1) as (p' & -> & Q1 & Q2 & _). eexists. split; [reflexivity|]. cbn. splits; auto.
  Qed.
  Lemma peek_right_ok u : uok u -> exists u', peek_right inext u = (Ret (hd_error (rv u)), u') /\
    uok u' /\ lv u' = lv u /\ rv u' = rv u.
  Proof.
    intros [H1 H2]. unfold peek_right, lv, rv, uok.
    destruct (peek_ok _ H2) as (p' & -> & Q1 & Q2 & _). eexists. split; [reflexivity|]. cbn. splits; auto.
  Qed.
  Lemma next_left_ok u : uok u -> exists u', next_left inext u = (Ret (hd_error (lv u)), u') /\
    uok u' /\ lv u' = tl (lv u) /\ rv u' = rv u.
  Proof.
    intros [H1 H2]. unfold next_left, lv, rv, uok.
    destruct (pnext_ok _ H1) as (p' & -> & Q1 & Q2). eexists. split; [reflexivity|]. cbn. splits; auto.
  Qed.
  Lemma next_right_ok u : uok u -> exists u', next_right inext u = (Ret (hd_error (rv u)), u') /\
    uok u' /\ lv u' = lv u /\ rv u' = tl (rv u).
  Proof.
    intros [H1 H2]. unfold next_right, lv, rv, uok.
    destruct (pnext_ok _ H2) as (p' & -> & Q1 & Q2). eexists. split; [reflexivity|]. cbn. splits; auto.
  Qed.
  Lemma fuel_ok u : length (lv u) + length (rv u) <= pk_len ilen (op_left u) + pk_len ilen (op_right u).
  Proof.
    unfold lv, rv. pose proof (pview_len (op_left u)). pose proof (pview_len (op_right u)). lia.
  Qed.

  (** positions covered by a range / by some range of a list *)
  Definition cov (r : R) (x : P) : Prop := leb (s r) x = true /\ ltb x (e r) = true.
  Definition covs (l : list R) (x : P) : Prop := exists r, In r l /\ cov r x.
  Lemma covs_app l l' x : covs (l ++ l') x <-> covs l x \/ covs l' x.
  Proof.
    unfold covs. split.
    - intros (r & H & Hc). apply in_app_or in H as [H|H]; [left|right]; eauto.
    - intros [(r & H & Hc)|(r & H & Hc)]; exists r; split; auto; apply in_or_app; auto.
  Qed.
  Lemma covs_nil x : covs [] x <-> False.
  Proof. split; [intros (r & [] & _)|tauto]. Qed.
  Lemma covs_cons r l x : covs (r :: l) x <-> cov r x \/ covs l x.
  Proof.
    unfold covs. split.
    - intros (r' & [-> |H] & Hc); eauto.
    - intros [H|(r' & H & Hc)]; [exists r|exists r']; cbn; auto.
  Qed.

  Notation asc := (StronglySorted (fun a b => leb (e a) (s b) = true)).
  Notation sep := (StronglySorted (fun a b => ltb (e a) (s b) = true)).
  Lemma sep_asc l : sep l -> asc l.
  Proof.
    induction 1 as [|a l H IH HF]; constructor; auto.
    eapply Forall_impl; [|exact HF]. cbn. intros b Hb. ord.
  Qed.

  (** ** Union *)
  (** strictly inside a range *)
  Definition ins (r : R) (x : P) : Prop := ltb (s r) x = true /\ ltb x (e r) = true.
  Lemma union_loop : forall fuel u range,
    uok u -> ok range -> Forall ok (lv u) -> Forall ok (rv u) ->
    asc (lv u) -> asc (rv u) ->
    Forall (fun r => leb (s range) (s r) = true) (lv u) ->
    Forall (fun r => leb (s range) (s r) = true) (rv u) ->
    length (lv u) + length (rv u) < fuel ->
    exists range' u' l1 r1, un_loop inext merge fuel range u = (Ret range', u') /\
      uok u' /\ ok range' /\ lv u = l1 ++ lv u' /\ rv u = r1 ++ rv u' /\
      c (s range') (s range) = Eq /\
      (forall x, cov range' x <-> cov range x \/ covs l1 x \/ covs r1 x) /\
      Forall (fun r => leb (e range') (s r) = true) (lv u') /\
      Forall (fun r => leb (e range') (s r) = true) (rv u') /\
      (forall x, ins range' x -> ins range x \/ exists r, In r (l1 ++ r1) /\ ins r x).
  Proof.
    induction fuel as [|fuel IH]; intros u range Hu Hr HL1 HR1 HLs HRs HLb HRb Hf; [lia|].
    (* what a merge does *)
    assert (Hm : forall nxt, ok nxt -> leb (s range) (s nxt) = true ->
       (exists r, merge range nxt = (true, r) /\ ok r /\ c (s r) (s range) = Eq /\
          (forall x, cov r x <-> cov range x \/ cov nxt x) /\
          (forall x, ins r x -> ins range x \/ ins nxt x)) \/
       (merge range nxt = (false, range) /\ leb (e range) (s nxt) = true)).
    { intros nxt Hn Hs. pose proof (ol_merge _ _ _ _ _ _ _ _ _ _ _ HL range nxt Hr Hn) as H.
      rewrite Hs in H. cbn [andb] in H.
      pose proof (ol_valid _ _ _ _ _ _ _ _ _ _ _ HL _ Hn) as V1.
      pose proof (ol_valid _ _ _ _ _ _ _ _ _ _ _ HL _ Hr) as V2.
      destruct (Order.ltb c (s nxt) (e range)) eqn:E.
      - left. destruct H as (r & H1 & H2 & H3 & H4). exists r. splits; auto.
        2:{ intros x [A B]. unfold ins, kmax in *. destruct (Order.ltb c (e nxt) (e range)) eqn:E2.
            - left. split; ord.
            - destruct (Order.ltb c x (e range)) eqn:E3; [left|right]; split; ord. }
        intros x. unfold cov. unfold kmax in H4.
        destruct (Order.ltb c (e nxt) (e range)) eqn:E2.
        + split; [intros [A B]; left; split; ord|]. intros [[A B]|[A B]]; split; ord.
        + split.
          * intros [A B]. destruct (Order.ltb c x (e range)) eqn:E3; [left|right]; split; ord.
          * intros [[A B]|[A B]]; split; ord.
      - right. split; [exact H|ord]. }
    cbn [un_loop]. unfold un_join at 1.
    destruct (peek_left_ok u Hu) as (u1 & P1 & U1 & L1 & R1).
    unfold bind at 1. unfold bind at 1. rewrite P1.
    destruct (lv u) as [|a l] eqn:El; cbn [hd_error].
    - (* left exhausted *)
      cbn [fst snd ret]. unfold un_join.
      destruct (peek_right_ok u1 U1) as (u2 & P2 & U2 & L2 & R2).
      unfold bind at 1. unfold bind at 1. rewrite P2. rewrite R1 in *.
      destruct (rv u) as [|b r] eqn:Er; cbn [hd_error].
      + cbn. exists range, u2, [], []. rewrite L2, L1, R2. cbn.
        splits; auto; [apply (ord_refl _ HO)|]. intros x. rewrite covs_nil. tauto.
      + apply Forall_cons_iff in HR1 as [Hb HR1]. apply Forall_cons_iff in HRb as [Hbs HRb].
        apply StronglySorted_inv in HRs as [HRs HRh].
        destruct (Hm b Hb Hbs) as [(rg & M1 & M2 & M3 & M4 & M5)|[M1 M2]]; rewrite M1.
        * destruct (next_right_ok u2 U2) as (u3 & P3 & U3 & L3 & R3).
          unfold bind at 1. rewrite P3. cbn [fst snd ret]. rewrite L2, L1 in L3. rewrite R2 in R3. cbn in R3.
          destruct (IH u3 rg U3 M2) as (range' & u' & l1 & r1 & E & A1 & A2 & A3 & A4 & A5 & A6 & A7 & A8 & A9).
          -- rewrite L3. constructor.
          -- rewrite R3. assumption.
          -- rewrite L3. constructor.
          -- rewrite R3. assumption.
          -- rewrite L3. constructor.
          -- rewrite R3. eapply Forall_impl; [|exact HRb]. cbn. intros x Hx. ord.
          -- rewrite L3, R3. cbn in *. lia.
          -- exists range', u', l1, (b :: r1). rewrite E. rewrite L3 in A3. rewrite R3 in A4.
             splits; auto; [rewrite A4; reflexivity|ord| |].
             ++ intros x. rewrite A6, M4, covs_cons. tauto.
             ++ intros x Hx. destruct (A9 x Hx) as [Hx'|(q & Hq & Hx')].
                ** destruct (M5 x Hx'); [auto|]. right. exists b. split; [apply in_elt|assumption].
                ** right. exists q. split; [|exact Hx']. rewrite in_app_iff in *. cbn. tauto.
        * cbn. exists range, u2, [], []. rewrite L2, L1, R2. cbn.
          splits; auto; [apply (ord_refl _ HO)| |].
          -- intros x. rewrite covs_nil. tauto.
          -- constructor; [exact M2|]. pose proof (ol_valid _ _ _ _ _ _ _ _ _ _ _ HL _ Hb) as V.
             eapply Forall_impl; [|exact HRh]. cbn. intros x Hx. ord.
    - apply Forall_cons_iff in HL1 as [Ha HL1]. apply Forall_cons_iff in HLb as [Has HLb].
      apply StronglySorted_inv in HLs as [HLs HLh].
      destruct (Hm a Ha Has) as [(rg & M1 & M2 & M3 & M4 & M5)|[M1 M2]]; rewrite M1.
      + destruct (next_left_ok u1 U1) as (u3 & P3 & U3 & L3 & R3).
        unfold bind at 1. rewrite P3. cbn [fst snd ret]. rewrite L1 in L3. rewrite R1 in R3. cbn in L3.
        destruct (IH u3 rg U3 M2) as (range' & u' & l1 & r1 & E & A1 & A2 & A3 & A4 & A5 & A6 & A7 & A8 & A9).
        * rewrite L3. assumption.
        * rewrite R3. assumption.
        * rewrite L3. assumption.
        * rewrite R3. assumption.
        * rewrite L3. eapply Forall_impl; [|exact HLb]. cbn. intros x Hx. ord.
        * rewrite R3. eapply Forall_impl; [|exact HRb]. cbn. intros x Hx. ord.
        * rewrite L3, R3. cbn in *. lia.
        * exists range', u', (a :: l1), r1. rewrite E. rewrite L3 in A3. rewrite R3 in A4.
          splits; auto; [rewrite A3; reflexivity|ord| |].
          -- intros x. rewrite A6, M4, covs_cons. tauto.
          -- intros x Hx. destruct (A9 x Hx) as [Hx'|(q & Hq & Hx')].
             ++ destruct (M5 x Hx'); [auto|]. right. exists a. split; [left; reflexivity|assumption].
             ++ right. exists q. split; [|exact Hx']. right. exact Hq.
      + (* left head beyond; try right *)
        assert (Hleft : Forall (fun r => leb (e range) (s r) = true) (a :: l)).
        { constructor; [exact M2|]. pose proof (ol_valid _ _ _ _ _ _ _ _ _ _ _ HL _ Ha) as V.
          eapply Forall_impl; [|exact HLh]. cbn. intros x Hx. ord. }
        cbn [fst snd ret]. unfold un_join.
        destruct (peek_right_ok u1 U1) as (u2 & P2 & U2 & L2 & R2).
        unfold bind at 1. unfold bind at 1. rewrite P2. rewrite R1 in *.
        destruct (rv u) as [|b r] eqn:Er; cbn [hd_error].
        * cbn. exists range, u2, [], []. rewrite L2, L1, R2. cbn.
          splits; auto; [apply (ord_refl _ HO)|]. intros x. rewrite covs_nil. tauto.
        * apply Forall_cons_iff in HR1 as [Hb HR1]. apply Forall_cons_iff in HRb as [Hbs HRb].
          apply StronglySorted_inv in HRs as [HRs HRh].
          destruct (Hm b Hb Hbs) as [(rg & N1 & N2 & N3 & N4 & N5)|[N1 N2]]; rewrite N1.
          -- destruct (next_right_ok u2 U2) as (u3 & P3 & U3 & L3 & R3).
             unfold bind at 1. rewrite P3. cbn [fst snd ret]. rewrite L2, L1 in L3. rewrite R2 in R3. cbn in R3.
             destruct (IH u3 rg U3 N2) as (range' & u' & l1 & r1 & E & A1 & A2 & A3 & A4 & A5 & A6 & A7 & A8 & A9).
             ++ rewrite L3. constructor; assumption.
             ++ rewrite R3. assumption.
             ++ rewrite L3. constructor; assumption.
             ++ rewrite R3. assumption.
             ++ rewrite L3. constructor; [ord|]. eapply Forall_impl; [|exact HLb]. cbn. intros x Hx. ord.
             ++ rewrite R3. eapply Forall_impl; [|exact HRb]. cbn. intros x Hx. ord.
             ++ rewrite L3, R3. cbn in *. lia.
             ++ exists range', u', l1, (b :: r1). rewrite E. rewrite L3 in A3. rewrite R3 in A4.
                splits; auto; [rewrite A4; reflexivity|ord| |].
                ** intros x. rewrite A6, N4, covs_cons. tauto.
                ** intros x Hx. destruct (A9 x Hx) as [Hx'|(q & Hq & Hx')].
                   --- destruct (N5 x Hx'); [auto|]. right. exists b. split; [apply in_elt|assumption].
                   --- right. exists q. split; [|exact Hx']. rewrite in_app_iff in *. cbn. tauto.
          -- cbn. exists range, u2, [], []. rewrite L2, L1, R2. cbn.
             splits; auto; [apply (ord_refl _ HO)| |].
             ++ intros x. rewrite covs_nil. tauto.
             ++ constructor; [exact N2|]. pose proof (ol_valid _ _ _ _ _ _ _ _ _ _ _ HL _ Hb) as V.
                eapply Forall_impl; [|exact HRh]. cbn. intros x Hx. ord.
  Qed.

  Lemma union_next u :
    uok u -> Forall ok (lv u) -> Forall ok (rv u) -> asc (lv u) -> asc (rv u) ->
    exists o u', un u = (Ret o, u') /\ uok u' /\
      match o with
      | None => lv u = [] /\ rv u = [] /\ lv u' = [] /\ rv u' = []
      | Some r => exists l1 r1, lv u = l1 ++ lv u' /\ rv u = r1 ++ rv u' /\ 0 < length l1 + length r1 /\
          ok r /\ (forall x, cov r x <-> covs l1 x \/ covs r1 x) /\
          Forall (fun r' => leb (e r) (s r') = true) (lv u') /\
          Forall (fun r' => leb (e r) (s r') = true) (rv u') /\
          (forall x, ins r x -> exists q, In q (l1 ++ r1) /\ ins q x)
      end.
  Proof.
    intros Hu HL1 HR1 HLs HRs. unfold un_next.
    destruct (peek_left_ok u Hu) as (u1 & P1 & U1 & L1 & R1).
    destruct (peek_right_ok u1 U1) as (u2 & P2 & U2 & L2 & R2).
    rewrite L1 in L2. rewrite R1 in R2, P2.
    unfold bind at 1. rewrite P1. unfold bind at 1. rewrite P2.
    (* popping the head of one side and then joining *)
    assert (Hleft : forall a l, lv u = a :: l -> Forall (fun r => leb (s a) (s r) = true) (rv u) ->
      exists o u', (first <- (o <- next_left inext ;; r <- unwrap o ;; ret (Some r)) ;;
         match first with
         | None => ret None
         | Some range => v <- get ;;
             range' <- un_loop inext merge (pk_len ilen (op_left v) + pk_len ilen (op_right v) + 1) range ;;
             ret (Some range')
         end)%M u2 = (Ret o, u') /\ uok u' /\
        match o with
        | None => lv u = [] /\ rv u = [] /\ lv u' = [] /\ rv u' = []
        | Some r => exists l1 r1, lv u = l1 ++ lv u' /\ rv u = r1 ++ rv u' /\ 0 < length l1 + length r1 /\
            ok r /\ (forall x, cov r x <-> covs l1 x \/ covs r1 x) /\
            Forall (fun r' => leb (e r) (s r') = true) (lv u') /\
            Forall (fun r' => leb (e r) (s r') = true) (rv u') /\
            (forall x, ins r x -> exists q, In q (l1 ++ r1) /\ ins q x)
        end).
    { intros a l El HB. rewrite El in *. destruct (next_left_ok u2 U2) as (u3 & P3 & U3 & L3 & R3).
      rewrite L2 in L3, P3. rewrite R2 in R3. cbn in L3, P3.
      apply Forall_cons_iff in HL1 as [Ha HL1]. apply StronglySorted_inv in HLs as [HLs HLh].
      unfold bind at 1. unfold bind at 1. rewrite P3. cbn. unfold bind at 1.
      destruct (union_loop (pk_len ilen (op_left u3) + pk_len ilen (op_right u3) + 1) u3 a U3 Ha)
        as (range' & u' & l1 & r1 & E & A1 & A2 & A3 & A4 & A5 & A6 & A7 & A8 & A9).
      - rewrite L3. assumption.
      - rewrite R3. assumption.
      - rewrite L3. assumption.
      - rewrite R3. assumption.
      - rewrite L3. eapply Forall_impl; [|exact HLh]. cbn. intros x Hx.
        pose proof (ol_valid _ _ _ _ _ _ _ _ _ _ _ HL _ Ha) as V. ord.
      - rewrite R3. assumption.
      - pose proof (fuel_ok u3). lia.
      - cbn. rewrite E. exists (Some range'), u'. splits; auto.
        exists (a :: l1), r1. rewrite <- L3, A3, <- R3, A4. cbn. splits; auto; [lia| |].
        + intros x. rewrite A6, covs_cons. tauto.
        + intros x Hx. destruct (A9 x Hx) as [Hx'|(q & Hq & Hx')]; eauto. }
    assert (Hright : forall b r, rv u = b :: r -> Forall (fun r => leb (s b) (s r) = true) (lv u) ->
      exists o u', (first <- (o <- next_right inext ;; r <- unwrap o ;; ret (Some r)) ;;
         match first with
         | None => ret None
         | Some range => v <- get ;;
             range' <- un_loop inext merge (pk_len ilen (op_left v) + pk_len ilen (op_right v) + 1) range ;;
             ret (Some range')
         end)%M u2 = (Ret o, u') /\ uok u' /\
        match o with
        | None => lv u = [] /\ rv u = [] /\ lv u' = [] /\ rv u' = []
        | Some r => exists l1 r1, lv u = l1 ++ lv u' /\ rv u = r1 ++ rv u' /\ 0 < length l1 + length r1 /\
            ok r /\ (forall x, cov r x <-> covs l1 x \/ covs r1 x) /\
            Forall (fun r' => leb (e r) (s r') = true) (lv u') /\
            Forall (fun r' => leb (e r) (s r') = true) (rv u') /\
            (forall x, ins r x -> exists q, In q (l1 ++ r1) /\ ins q x)
        end).
    { clear Hleft. intros b r Er HB. rewrite Er in *. destruct (next_right_ok u2 U2) as (u3 & P3 & U3 & L3 & R3).
      rewrite L2 in L3. rewrite R2 in R3, P3. cbn in R3, P3.
      apply Forall_cons_iff in HR1 as [Hb HR1]. apply StronglySorted_inv in HRs as [HRs HRh].
      unfold bind at 1. unfold bind at 1. rewrite P3. cbn. unfold bind at 1.
      destruct (union_loop (pk_len ilen (op_left u3) + pk_len ilen (op_right u3) + 1) u3 b U3 Hb)
        as (range' & u' & l1 & r1 & E & A1 & A2 & A3 & A4 & A5 & A6 & A7 & A8 & A9).
      - rewrite L3. assumption.
      - rewrite R3. assumption.
      - rewrite L3. assumption.
      - rewrite R3. assumption.
      - rewrite L3. assumption.
      - rewrite R3. eapply Forall_impl; [|exact HRh]. cbn. intros x Hx.
        pose proof (ol_valid _ _ _ _ _ _ _ _ _ _ _ HL _ Hb) as V. ord.
      - pose proof (fuel_ok u3). lia.
      - cbn. rewrite E. exists (Some range'), u'. splits; auto.
        exists l1, (b :: r1). rewrite <- L3, A3, <- R3, A4. cbn. splits; auto; [lia| |].
        + intros x. rewrite A6, covs_cons. tauto.
        + intros x Hx. destruct (A9 x Hx) as [Hx'|(q & Hq & Hx')].
          * exists b. split; [apply in_elt|exact Hx'].
          * exists q. split; [|exact Hx']. rewrite in_app_iff in *. cbn. tauto. }
    assert (Hhead : forall l a l', l = a :: l' -> Forall ok l -> asc l ->
      Forall (fun r => leb (s a) (s r) = true) l).
    { intros l a l' -> Hok Hs. apply Forall_cons_iff in Hok as [Ha Hok].
      apply StronglySorted_inv in Hs as [Hs Hh]. constructor; [ord|].
      pose proof (ol_valid _ _ _ _ _ _ _ _ _ _ _ HL _ Ha) as V.
      eapply Forall_impl; [|exact Hh]. cbn. intros x Hx. ord. }
    destruct (lv u) as [|a l] eqn:El, (rv u) as [|b r] eqn:Er; cbn [hd_error].
    - cbn. exists None, u2. rewrite L2, R2. auto 10.
    - apply (Hright b r eq_refl). constructor.
    - apply (Hleft a l eq_refl). constructor.
    - pose proof (Hhead _ a l eq_refl HL1 HLs) as Ba. pose proof (Hhead _ b r eq_refl HR1 HRs) as Bb.
      pose proof HL1 as HL1'. pose proof HR1 as HR1'.
      apply Forall_cons_iff in HL1' as [Ha _]. apply Forall_cons_iff in HR1' as [Hb _].
      rewrite (ol_start _ _ _ _ _ _ _ _ _ _ _ HL a b Ha Hb).
      destruct (c (s a) (s b)) eqn:Ec.
      + apply (Hright b r eq_refl). eapply Forall_impl; [|exact Ba]. cbn. intros x Hx. ord.
      + apply (Hleft a l eq_refl). eapply Forall_impl; [|exact Bb]. cbn. intros x Hx. ord.
      + apply (Hright b r eq_refl). eapply Forall_impl; [|exact Ba]. cbn. intros x Hx. ord.
  Qed.

  Lemma union_drains : forall n u, length (lv u) + length (rv u) <= n ->
    uok u -> Forall ok (lv u) -> Forall ok (rv u) -> asc (lv u) -> asc (rv u) ->
    exists us, drains un u us /\ Forall ok us /\ asc us /\
      length us <= length (lv u) + length (rv u) /\
      (forall x, covs us x <-> covs (lv u) x \/ covs (rv u) x) /\
      (forall z, Forall (fun r => leb z (s r) = true) (lv u) ->
                 Forall (fun r => leb z (s r) = true) (rv u) ->
                 Forall (fun r => leb z (s r) = true) us) /\
      (forall r, In r (lv u ++ rv u) -> exists q, In q us /\ leb (s q) (s r) = true /\ leb (e r) (e q) = true) /\
      (forall q x, In q us -> ins q x -> exists r, In r (lv u ++ rv u) /\ ins r x).
  Proof.
    intros n. induction n as [|n IH]; intros u Hn Hu HL1 HR1 HLs HRs.
    - assert (El : lv u = []) by (destruct (lv u); cbn in Hn; [reflexivity|lia]).
      assert (Er : rv u = []) by (destruct (rv u); cbn in Hn; [reflexivity|rewrite El in Hn; cbn in Hn; lia]).
      exists []. rewrite El, Er. splits; auto; try constructor; auto; cbn; auto.
      + apply (drains_nil un (fun u => uok u /\ lv u = [] /\ rv u = [])); [|auto].
        intros v (V1 & V2 & V3).
        destruct (union_next v V1) as (o & v' & E & W1 & W2); rewrite ?V2, ?V3; try constructor.
        destruct o as [r|].
        * destruct W2 as (l1 & r1 & A & B & C & _). rewrite V2 in A. rewrite V3 in B.
          symmetry in A, B. apply app_eq_nil in A as [-> _], B as [-> _]. cbn in C. lia.
        * exists v'. tauto.
      + intros [H|H]; exact H.
      + intros r [].
      + intros q x [].
    - destruct (union_next u Hu HL1 HR1 HLs HRs) as (o & u' & E & U' & H). destruct o as [r|].
      + destruct H as (l1 & r1 & A & B & C & D1 & D2 & D3 & D4 & D5).
        assert (Q1 : Forall ok (lv u')) by (rewrite A in HL1; apply Forall_app in HL1; tauto).
        assert (Q2 : Forall ok (rv u')) by (rewrite B in HR1; apply Forall_app in HR1; tauto).
        assert (Q3 : asc (lv u')) by (rewrite A in HLs; apply SS_app in HLs; tauto).
        assert (Q4 : asc (rv u')) by (rewrite B in HRs; apply SS_app in HRs; tauto).
        destruct (IH u') as (us & G1 & G2 & G3 & G4 & G5 & G6 & G7 & G8); auto.
        { rewrite A, B, !app_length in Hn. lia. }
        exists (r :: us). splits.
        * eapply drains_cons; eauto.
        * constructor; auto.
        * constructor; auto.
        * rewrite A, B, !app_length. cbn. lia.
        * intros x. rewrite covs_cons, D2, G5, A, B, !covs_app. tauto.
        * intros z Z1 Z2. constructor; [|apply G6].
          -- pose proof (ol_valid _ _ _ _ _ _ _ _ _ _ _ HL _ D1) as V.
             destruct (proj1 (D2 (s r))) as [(q & Q5 & Q6)|(q & Q5 & Q6)]; [unfold cov; split; ord| |].
             ++ rewrite A in Z1. apply Forall_app in Z1 as [Z1 _]. rewrite Forall_forall in Z1.
                specialize (Z1 _ Q5). cbn in Z1. destruct Q6. ord.
             ++ rewrite B in Z2. apply Forall_app in Z2 as [Z2 _]. rewrite Forall_forall in Z2.
                specialize (Z2 _ Q5). cbn in Z2. destruct Q6. ord.
          -- rewrite A in Z1. apply Forall_app in Z1. tauto.
          -- rewrite B in Z2. apply Forall_app in Z2. tauto.
        * intros q Hq. rewrite A, B in Hq.
          assert (Hcase : (In q l1 \/ In q r1) \/ In q (lv u' ++ rv u')) by (rewrite !in_app_iff in *; tauto).
          destruct Hcase as [Hq'|Hq'].
          -- exists r. split; [left; reflexivity|].
             assert (Hok : ok q).
             { rewrite A in HL1. rewrite B in HR1. rewrite Forall_forall in HL1, HR1.
               destruct Hq'; [apply HL1|apply HR1]; apply in_or_app; auto. }
             pose proof (ol_valid _ _ _ _ _ _ _ _ _ _ _ HL _ Hok) as V.
             assert (Hc : forall x, cov q x -> cov r x)
               by (intros x Hx; apply D2; destruct Hq'; [left|right]; exists q; auto).
             destruct (Hc (s q)) as [C1 C2]; [split; ord|]. split; [exact C1|].
             destruct (leb (e q) (e r)) eqn:G; [reflexivity|]. exfalso.
             destruct (Hc (e r)) as [_ C3]; [split; ord|]. ord.
          -- destruct (G7 q Hq') as (p & Hp & X). exists p. split; [right; exact Hp|exact X].
        * intros q x [<- | Hq] Hx.
          -- destruct (D5 x Hx) as (q & Hq & Hx'). exists q. split; [|exact Hx'].
             rewrite A, B. rewrite !in_app_iff in *. tauto.
          -- destruct (G8 q x Hq Hx) as (p & Hp & X). exists p. split; [|exact X].
             rewrite A, B. rewrite !in_app_iff in *. tauto.
      + destruct H as (A & B & A' & B').
        destruct (IH u) as (us & G); auto; [rewrite A, B; cbn; lia|]. exists us. exact G.
  Qed.

  (** ** Intersection *)
  Definition both_cov (u : pairs) (x : P) : Prop := covs (lv u) x /\ covs (rv u) x.
  Definition all_above (z : P) (l : list R) : Prop := Forall (fun r => ltb z (s r) = true) l.

  Lemma covs_above l z x : Forall ok l -> all_above z l -> covs l x -> ltb z x = true.
  Proof.
    intros Hok H (r & Hr & [H1 H2]). unfold all_above in H. rewrite Forall_forall in H. specialize (H r Hr). cbn in H. ord.
  Qed.

  Lemma inter_loop : forall fuel u,
    uok u -> Forall ok (lv u) -> Forall ok (rv u) -> sep (lv u) -> sep (rv u) ->
    length (lv u) + length (rv u) < fuel ->
    exists o u', in_loop inext order_end intersect fuel u = (Ret o, u') /\ uok u' /\
      (exists l1, lv u = l1 ++ lv u') /\ (exists r1, rv u = r1 ++ rv u') /\
      match o with
      | None => (lv u' = [] \/ rv u' = []) /\ forall x, ~ both_cov u x
      | Some r => length (lv u') + length (rv u') < length (lv u) + length (rv u) /\
          ok r /\ (forall x, both_cov u x <-> cov r x \/ both_cov u' x) /\
          (all_above (e r) (lv u') \/ all_above (e r) (rv u')) /\
          (forall z, all_above z (lv u) \/ all_above z (rv u) -> ltb z (s r) = true)
      end.
  Proof.
    induction fuel as [|fuel IH]; intros u Hu HL1 HR1 HLs HRs Hf; [lia|].
    cbn [in_loop].
    destruct (peek_left_ok u Hu) as (u1 & P1 & U1 & L1 & R1).
    destruct (peek_right_ok u1 U1) as (u2 & P2 & U2 & L2 & R2).
    rewrite L1 in L2. rewrite R1 in R2, P2.
    unfold bind at 1. rewrite P1. unfold bind at 1. rewrite P2.
    destruct (lv u) as [|a l] eqn:El; cbn [hd_error].
    { exists None, u2. rewrite L2, R2. splits; auto; try (exists []; reflexivity).
      intros x [H _]. rewrite El in H. apply covs_nil in H. exact H. }
    destruct (rv u) as [|b r] eqn:Er; cbn [hd_error].
    { exists None, u2. rewrite L2, R2. splits; auto; try (exists []; reflexivity).
      intros x [_ H]. rewrite Er in H. apply covs_nil in H. exact H. }
    pose proof HL1 as HL0. pose proof HR1 as HR0.
    apply Forall_cons_iff in HL1 as [Ha HL1]. apply Forall_cons_iff in HR1 as [Hb HR1].
    pose proof HLs as HLs0. pose proof HRs as HRs0.
    apply StronglySorted_inv in HLs as [HLs HLh]. apply StronglySorted_inv in HRs as [HRs HRh].
    pose proof (ol_valid _ _ _ _ _ _ _ _ _ _ _ HL _ Ha) as Va.
    pose proof (ol_valid _ _ _ _ _ _ _ _ _ _ _ HL _ Hb) as Vb.
    rewrite (ol_end _ _ _ _ _ _ _ _ _ _ _ HL a b Ha Hb).
    pose proof (ol_intersect _ _ _ _ _ _ _ _ _ _ _ HL a b Ha Hb) as HI.
    (* the popped side *)
    assert (Hpop : exists u3, (match c (e a) (e b) with Lt => next_left inext | _ => next_right inext end) u2
                     = (Ret (Some (match c (e a) (e b) with Lt => a | _ => b end)), u3) /\ uok u3 /\
       (exists l1, a :: l = l1 ++ lv u3) /\ (exists r1, b :: r = r1 ++ rv u3) /\
       length (lv u3) + length (rv u3) < length (a :: l) + length (b :: r) /\
       (forall x, both_cov u x <-> (cov a x /\ cov b x) \/ both_cov u3 x) /\
       (all_above (kmin c (e a) (e b)) (lv u3) \/ all_above (kmin c (e a) (e b)) (rv u3))).
    { destruct (c (e a) (e b)) eqn:Ec.
      - destruct (next_right_ok u2 U2) as (u3 & P3 & U3 & L3 & R3). rewrite R2 in P3, R3. rewrite L2 in L3.
        exists u3. cbn in P3, R3. splits; auto.
        + exists []. rewrite L3. reflexivity.
        + exists [b]. rewrite R3. reflexivity.
        + rewrite L3, R3. cbn. lia.
        + intros x. unfold both_cov. rewrite El, Er, L3, R3, !covs_cons.
          assert (N : cov b x -> covs l x -> False).
          { intros [_ Q1] Q2. eapply (covs_above l (e a)) in Q2; auto. ord. }
          tauto.
        + right. rewrite R3. unfold all_above. eapply Forall_impl; [|exact HRh]. cbn. intros y Hy.
          unfold kmin. destruct (Order.ltb c (e b) (e a)) eqn:E2; ord.
      - destruct (next_left_ok u2 U2) as (u3 & P3 & U3 & L3 & R3). rewrite L2 in P3, L3. rewrite R2 in R3.
        exists u3. cbn in P3, L3. splits; auto.
        + exists [a]. rewrite L3. reflexivity.
        + exists []. rewrite R3. reflexivity.
        + rewrite L3, R3. cbn. lia.
        + intros x. unfold both_cov. rewrite El, Er, L3, R3, !covs_cons.
          assert (N : cov a x -> covs r x -> False).
          { intros [_ Q1] Q2. eapply (covs_above r (e b)) in Q2; auto. ord. }
          tauto.
        + left. rewrite L3. unfold all_above. eapply Forall_impl; [|exact HLh]. cbn. intros y Hy.
          unfold kmin. destruct (Order.ltb c (e b) (e a)) eqn:E2; ord.
      - destruct (next_right_ok u2 U2) as (u3 & P3 & U3 & L3 & R3). rewrite R2 in P3, R3. rewrite L2 in L3.
        exists u3. cbn in P3, R3. splits; auto.
        + exists []. rewrite L3. reflexivity.
        + exists [b]. rewrite R3. reflexivity.
        + rewrite L3, R3. cbn. lia.
        + intros x. unfold both_cov. rewrite El, Er, L3, R3, !covs_cons.
          assert (N : cov b x -> covs l x -> False).
          { intros [_ Q1] Q2. eapply (covs_above l (e a)) in Q2; auto. ord. }
          tauto.
        + right. rewrite R3. unfold all_above. eapply Forall_impl; [|exact HRh]. cbn. intros y Hy.
          unfold kmin. destruct (Order.ltb c (e b) (e a)) eqn:E2; ord. }
    destruct Hpop as (u3 & P3 & U3 & (l1 & A3) & (r1 & B3) & Hlen & Hcov & Habove).
    unfold bind at 1. rewrite P3.
    destruct (Order.ltb c (kmax c (s a) (s b)) (kmin c (e a) (e b))) eqn:EI.
    - destruct HI as (q & -> & Q1 & Q2 & Q3). exists (Some q), u3. splits; auto; try (eexists; eassumption).
      + intros x. rewrite Hcov. unfold cov.
        unfold kmax, kmin in *. destruct (Order.ltb c (s b) (s a)) eqn:E1, (Order.ltb c (e b) (e a)) eqn:E2.
        all: assert (W : (leb (s q) x = true /\ ltb x (e q) = true) <->
               ((leb (s a) x = true /\ ltb x (e a) = true) /\ leb (s b) x = true /\ ltb x (e b) = true))
             by (split; [intros [X1 X2]; refine (conj (conj _ _) (conj _ _))|intros [[X1 X2] [X3 X4]]; split]; ord).
        all: tauto.
      + unfold all_above in *.
        destruct Habove as [H|H]; [left|right]; (eapply Forall_impl; [|exact H]); cbn; intros y Hy;
          unfold kmin in *; destruct (Order.ltb c (e b) (e a)) eqn:E2; ord.
      + intros z [H|H]; unfold all_above in H; apply Forall_cons_iff in H as [H _];
          unfold kmax in *; destruct (Order.ltb c (s b) (s a)) eqn:E1; ord.
    - rewrite HI.
      destruct (IH u3) as (o & u' & E & U' & (l2 & A4) & (r2 & B4) & Hres); auto.
      + rewrite A3 in HL0. apply Forall_app in HL0. tauto.
      + rewrite B3 in HR0. apply Forall_app in HR0. tauto.
      + rewrite A3 in HLs0. apply SS_app in HLs0. tauto.
      + rewrite B3 in HRs0. apply SS_app in HRs0. tauto.
      + cbn in *. lia.
      + assert (Hn : forall x, both_cov u x <-> both_cov u3 x).
        { intros x. rewrite Hcov. unfold cov.
          assert (W : ~ ((leb (s a) x = true /\ ltb x (e a) = true) /\ leb (s b) x = true /\ ltb x (e b) = true)).
          { intros [[X1 X2] [X3 X4]]. unfold kmax, kmin in *.
            destruct (Order.ltb c (s b) (s a)) eqn:E1, (Order.ltb c (e b) (e a)) eqn:E2; ord. }
          tauto. }
        exists o, u'. rewrite E. splits; auto.
        * exists (l1 ++ l2). rewrite <- app_assoc, <- A4. exact A3.
        * exists (r1 ++ r2). rewrite <- app_assoc, <- B4. exact B3.
        * destruct o as [q|].
          -- destruct Hres as (S1 & S2 & S3 & S4 & S5). splits; auto.
             ++ cbn in *. lia.
             ++ intros x. rewrite Hn. apply S3.
             ++ intros z Hz. apply S5. unfold all_above in *.
                destruct Hz as [Hz|Hz]; [left; rewrite A3 in Hz|right; rewrite B3 in Hz];
                  apply Forall_app in Hz; tauto.
          -- destruct Hres as (S1 & S2). split; auto. intros x Hx. apply (S2 x), Hn, Hx.
  Qed.

  Lemma inter_drains : forall n u, length (lv u) + length (rv u) <= n ->
    uok u -> Forall ok (lv u) -> Forall ok (rv u) -> sep (lv u) -> sep (rv u) ->
    exists us, drains inn u us /\ Forall ok us /\ sep us /\
      length us <= length (lv u) + length (rv u) /\
      (forall x, covs us x <-> covs (lv u) x /\ covs (rv u) x) /\
      (forall z, all_above z (lv u) \/ all_above z (rv u) -> all_above z us).
  Proof.
    intros n. induction n as [n IH] using (well_founded_induction Wf_nat.lt_wf).
    intros u Hn Hu HL1 HR1 HLs HRs.
    assert (Hf : length (lv u) + length (rv u) < pk_len ilen (op_left u) + pk_len ilen (op_right u) + 1)
      by (pose proof (fuel_ok u); lia).
    destruct (inter_loop _ u Hu HL1 HR1 HLs HRs Hf) as (o & u' & E & U' & (l1 & A) & (r1 & B) & H).
    assert (E' : inn u = (Ret o, u')) by exact E.
    destruct o as [r|].
    - destruct H as (H1 & H2 & H3 & H4 & H5).
      destruct (IH (length (lv u') + length (rv u')) ltac:(lia) u') as (us & G1 & G2 & G3 & G4 & G5 & G6); auto.
      + rewrite A in HL1. apply Forall_app in HL1. tauto.
      + rewrite B in HR1. apply Forall_app in HR1. tauto.
      + rewrite A in HLs. apply SS_app in HLs. tauto.
      + rewrite B in HRs. apply SS_app in HRs. tauto.
      + exists (r :: us). splits.
        * eapply drains_cons; eauto.
        * constructor; auto.
        * constructor; auto. apply G6. exact H4.
        * cbn. lia.
        * intros x. rewrite covs_cons, G5. symmetry. apply H3.
        * intros z Hz. constructor; [apply H5; exact Hz|]. apply G6. unfold all_above in *.
          destruct Hz as [Hz|Hz]; [left; rewrite A in Hz|right; rewrite B in Hz]; apply Forall_app in Hz; tauto.
    - destruct H as [H1 H2]. exists []. splits; auto; try constructor; cbn; try lia.
      + intros [|k]; [reflexivity|]. rewrite yields_nil. cbn [nexts_m repeat map]. rewrite E'.
        f_equal. rewrite <- yields_nil.
        apply (drains_nil inn (fun u => uok u /\ (lv u = [] \/ rv u = []))); [|auto].
        intros v (V1 & V2). unfold in_next. unfold bind at 1. cbn [get].
        replace (pk_len ilen (op_left v) + pk_len ilen (op_right v) + 1)
          with (S (pk_len ilen (op_left v) + pk_len ilen (op_right v))) by lia. cbn [in_loop].
        destruct (peek_left_ok v V1) as (v1 & P1 & W1 & L1 & R1).
        destruct (peek_right_ok v1 W1) as (v2 & P2 & W2 & L2 & R2).
        rewrite L1 in L2. rewrite R1 in R2, P2.
        unfold bind at 1. rewrite P1. unfold bind at 1. rewrite P2.
        exists v2. rewrite L2, R2. split; [|auto].
        destruct V2 as [-> | ->]; [reflexivity|destruct (lv v); reflexivity].
      + rewrite covs_nil in *. tauto.
      + intros Hx. destruct (H2 _ Hx).
  Qed.
End Ops.
