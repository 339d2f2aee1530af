(** Interrupted updates with an arbitrary [==] on values (no law is assumed of
    [veqb]): CrashFacts.v without its clause about values, as AnyEq.v is
    MapProofs.v without it. *)
From Coq Require Import List Bool Sorting.Sorted Lia.
From Verif Require Import Order Outcome BTree SearchTree Ranges History Spec MapModel IMapModel ListLemmas
  MapProofs MapRemove AnyEq MapFacts MapIter MapMore MapProps CrashModel CrashFacts AnyFacts.
Import ListNotations.

(** every recorded state except possibly the last one satisfies [J], the last one [L] *)
Section Last.
  Context {S : Type} (J L : S -> Prop).
  Definition goodE {A} (c : C S A) (s : S) : Prop :=
    exists T, (fst (c s) = T \/ exists x, fst (c s) = T ++ [x] /\ L x /\ exists a, snd (c s) = (Ret a, x)) /\ Forall J T.
  Lemma goodE_bind {A B} (c : C S A) (f : A -> C S B) s Q :
    good J c s Q -> (forall a s', Q a s' -> goodE (f a) s') -> goodE (cbind c f) s.
  Proof.
    intros [H1 H2] H3. unfold goodE, cbind.
    destruct (c s) as [t [[a|p|] s']]; cbn in *; [|exists t; auto|exists t; auto].
    destruct (H3 a s' H2) as (T & HT & HF). destruct (f a s') as [t' y]. cbn in *. exists (t ++ T).
    split; [|apply Forall_app; auto]. destruct HT as [-> | [x [-> HL]]]; [left; reflexivity|right; exists x].
    split; [apply app_assoc|exact HL].
  Qed.
  Lemma goodE_modify f s : L (f s) -> goodE (cmodify f) s.
  Proof. intros H. exists []. split; [right; exists (f s); splits; auto; exists tt; reflexivity|constructor]. Qed.
End Last.

Lemma bt_insert_In {Q V} (c : Q -> Q -> comparison) k v (m : list (Q * V)) e :
  In e m -> c k (fst e) <> Eq -> In e (bt_insert c k v m).
Proof.
  intros H1 H2. induction m as [|[k' v'] m IH]; [destruct H1|]. cbn.
  destruct (c k k') eqn:E; destruct H1 as [<-|H1]; cbn in *; auto. congruence.
Qed.

Lemma good_ext {S A} (J : S -> Prop) (c d : C S A) s Q : (forall z, c z = d z) -> good J d s Q -> good J c s Q.
Proof. intros H1 H2. unfold good. rewrite H1. exact H2. Qed.

Lemma removelast_In {A} (l : list A) x : In x (removelast l) -> In x l.
Proof.
  induction l as [|a [|b l] IH]; intros H; [destruct H|destruct H|]. destruct H as [<-|H]; [left; reflexivity|right; auto].
Qed.

Section Half.
  Context {K V : Type} {cmp : K -> K -> comparison} {veqb : V -> V -> bool}.
  Context (HO : TotalOrd cmp).
  Notation ltb := (ltb cmp).
  Notation leb := (leb cmp).
  Notation eqb := (eqb cmp).
  Notation c_start := (cmp_start cmp).
  Notation entry := (range K * V)%type.
  Notation st e := (r_start (fst e)).
  Notation en e := (r_end (fst e)).
  Notation never := (fun _ _ : V => false).
  Notation WW := (@WF K V cmp never).
  Notation lk := (@lk K V cmp).
  Notation part := (@part K V cmp never).
  Notation touch := (@touch K cmp).
  Notation xexec1 := (rmx_exec cmp veqb).

  (** the entries an insertion may change: those that touch [r], and those that
      touch an entry with an [==] value that touches [r] *)
  Definition near_hit (m0 : rmap K V) (r : range K) (v : V) (e : entry) : bool :=
    touch r (fst e) ||
    existsb (fun x => touch r (fst x) && veqb (snd x) v && touch (fst x) (fst e)) m0.
  Definition hull (a b : range K) : range K :=
    mkR (kmin cmp (r_start a) (r_start b)) (kmax cmp (r_end a) (r_end b)).

  Lemma good_adjust_any P m0 cur s sv v m :
    part P m0 m -> ltb (r_start cur) (r_end cur) = true -> In (s, sv) m -> P (s, sv) = true ->
    good (part P m0) (rmx_adjust_touching_ranges_for_insert cmp veqb s sv cur v) m
      (fun cur' m' => part P m0 m' /\ ltb (r_start cur') (r_end cur') = true /\
         (cur' = cur \/ veqb sv v = true /\ cur' = hull cur s)).
  Proof.
    intros HJ Hc Hin HP. unfold rmx_adjust_touching_ranges_for_insert.
    pose proof HJ as (HW & _ & _).
    destruct (veqb sv v) eqn:Ev.
    - destruct (split_In m (s, sv) HW Hin) as (A & B & -> & WA & WB & Hs & HA & HB & HAB). cbn in Hs.
      assert (E : bt_remove c_start s (A ++ (s, sv) :: B) = A ++ B).
      { apply (bt_remove_split' HO). intros a Ha.
        apply (sep_lt HO (veqb := never) a (s, sv)); [apply WA; exact Ha|apply HA; exact Ha]. }
      assert (HJ' : part P m0 (A ++ B)).
      { apply (part_replace HO P m0 A (s, sv) B []); [exact HJ|exact HP|apply WF_nil|intros p []]. }
      cbv zeta. eapply (good_bind _ _ _ _ (fun _ m' => m' = A ++ B)).
      { apply good_modify; rewrite E; auto. }
      intros _ m' ->. apply good_ret. splits; auto.
      unfold kmin, kmax. cbn [r_start r_end].
      destruct (ltb (r_start s) (r_start cur)) eqn:E1, (ltb (r_end s) (r_end cur)) eqn:E2; ord.
    - destruct (r_overlaps cmp cur s) eqn:Eo.
      2:{ apply good_ret. splits; auto. }
      assert (Hm : meets cmp cur s = true).
      { apply (meets_overlaps HO) in Eo. unfold meets in *. ord. }
      destruct (good_cut HO P m0 s sv cur m HJ Hin HP Hc Hm) as (A & B & -> & HG).
      unfold rmx_adjust_overlapping_ranges_for_remove in HG.
      match goal with |- good _ (cbind ?a (fun _ => cbind ?b (fun _ => cbind ?c (fun _ => ?d)))) _ _ =>
        assert (HA : forall s, cbind a (fun _ => cbind b (fun _ => cbind c (fun _ => d))) s =
          cbind (cbind a (fun _ => cbind b (fun _ => c))) (fun _ => d) s) end.
      { intros z. unfold cbind, cmodify, cret. cbn.
        destruct (ltb (r_start s) (r_start cur)), (gtb cmp (r_end s) (r_end cur)); reflexivity. }
      apply (good_ext _ _ _ _ _ HA).
      eapply good_bind; [exact HG|]. intros _ m' [HJ' ->]. apply good_ret. splits; auto.
  Qed.

  (** [n1]: the range after the first adjustment *)
  Definition first_new (m0 : rmap K V) (r : range K) (v : V) (n1 : range K) : Prop :=
    ltb (r_start n1) (r_end n1) = true /\
    (n1 = r \/ exists x, In x m0 /\ touch r (fst x) = true /\ veqb (snd x) v = true /\
       ltb (st x) (en x) = true /\ n1 = hull r (fst x)).
  Lemma first_touch m0 r v n1 (s : entry) : ltb (r_start r) (r_end r) = true -> ltb (st s) (en s) = true ->
    first_new m0 r v n1 -> touch n1 (fst s) = true -> near_hit m0 r v s = true.
  Proof.
    intros Hr Hs (_ & [-> | (x & H1 & H2 & H3 & H4 & ->)]) Ht; unfold near_hit; [rewrite Ht; reflexivity|].
    destruct (touch r (fst s)) eqn:E; [reflexivity|]. cbn [orb]. apply existsb_exists. exists x. split; [exact H1|].
    rewrite H2, H3. cbn [andb]. unfold CrashFacts.touch, hull, kmin, kmax in *. cbn [r_start r_end] in *.
    destruct (ltb (st x) (r_start r)) eqn:E1, (ltb (en x) (r_end r)) eqn:E2; ord.
  Qed.

  Lemma good_insert_loop_any m0 r v n1 fuel : ltb (r_start r) (r_end r) = true -> first_new m0 r v n1 ->
    forall cur m, part (near_hit m0 r v) m0 m -> ltb (r_start cur) (r_end cur) = true ->
    eqb (r_start cur) (r_start n1) = true ->
    good (part (near_hit m0 r v) m0) (rmx_insert_loop cmp veqb fuel cur v (mkR (r_end n1) (r_end n1))) m
      (fun cur' m' => part (near_hit m0 r v) m0 m' /\ eqb (r_start cur') (r_start n1) = true).
  Proof.
    intros Hr HF. induction fuel as [|n IH]; intros cur m Hm Hc Hs0; cbn [rmx_insert_loop].
    { apply good_nofuel. exact Hm. }
    eapply (good_bind _ _ _ _ (fun a m' => a = m /\ m' = m)); [apply good_get; auto|].
    intros a m' [-> ->].
    eapply (good_bind _ _ _ _ (fun l m' => bt_range c_start (Included cur) (Included (mkR (r_end n1) (r_end n1))) m = Ret l /\ m' = m)).
    { apply good_lift; [exact Hm|]. intros l Hl. auto. }
    intros l m' [Hl ->]. destruct (fst (it_next l)) as [[s sv]|] eqn:En; [|apply good_ret; auto].
    destruct (eqb (r_start s) (r_end cur) && negb (veqb sv v)); [apply good_ret; auto|].
    destruct (range_first _ _ _ _ _ _ Hl En) as (I1 & I2 & I3). cbn in I2, I3. unfold cmp_start in *.
    cbn [r_start] in I2.
    assert (Hs : ltb (r_start s) (r_end s) = true) by (destruct Hm as (HW & _); apply (proj2 HW _ I1)).
    assert (Q1 : leb (r_start s) (r_end n1) = true).
    { unfold Order.leb. destruct (cmp (r_start s) (r_end n1)); congruence. }
    assert (Q2 : ltb (r_start s) (r_start cur) = false).
    { unfold Order.ltb. destruct (cmp (r_start s) (r_start cur)); congruence. }
    assert (HP : near_hit m0 r v (s, sv) = true).
    { apply (first_touch m0 r v n1); auto. destruct HF as (G1 & _). unfold CrashFacts.touch. cbn [fst]. ord. }
    eapply good_bind; [apply (good_adjust_any _ m0 cur s sv v m Hm Hc I1 HP)|].
    intros cur' m' (H1 & H2 & H3). apply IH; auto. destruct H3 as [-> | (_ & ->)]; [exact Hs0|].
    unfold hull, kmin. cbn [r_start]. rewrite Q2. exact Hs0.
  Qed.


  Lemma goodE_insert m r v : WW m ->
    goodE (part (near_hit m r v) m) (fun m' => forall e, In e m -> near_hit m r v e = false -> In e m')
      (rmx_insert cmp veqb r v) m.
  Proof.
    intros HW. pose proof (part_refl (near_hit m r v) m HW) as Hm. unfold rmx_insert.
    eapply (goodE_bind _ _ _ _ _ (fun _ m' => ltb (r_start r) (r_end r) = true /\ m' = m)).
    { unfold cassert, assert_. split; [constructor|]. cbn.
      destruct (ltb (r_start r) (r_end r)); cbn; auto. }
    intros _ m' [Hr ->].
    eapply (goodE_bind _ _ _ _ _ (fun a m' => a = m /\ m' = m)); [apply good_get; auto|].
    intros a m' [-> ->].
    eapply (goodE_bind _ _ _ _ _ (fun l m' => bt_range c_start Unbounded (Included r) m = Ret l /\ m' = m)).
    { apply good_lift; [exact Hm|]. intros l Hl. auto. }
    intros l m' [Hl ->].
    eapply (goodE_bind _ _ _ _ _ (fun cur m' => part (near_hit m r v) m m' /\ first_new m r v cur)).
    { assert (Hc : forall s sv, In (s, sv) (filter (fun e => r_touches cmp (fst e) r) (firstn 2 (rev l))) ->
        In (s, sv) m /\ touch r s = true).
      { intros s sv Hin. apply filter_In in Hin as [H1 H2]. cbn in H2.
        split; [|apply (touch_touches HO); exact H2].
        assert (H3 : In (s, sv) l).
        { apply in_rev. rewrite <- (firstn_skipn 2 (rev l)). apply in_or_app. left; exact H1. }
        apply (range_In _ _ _ _ _ _ Hl H3). }
      assert (Ha : forall s sv, In (s, sv) m -> touch r s = true ->
        good (part (near_hit m r v) m) (rmx_adjust_touching_ranges_for_insert cmp veqb s sv r v) m
          (fun cur m' => part (near_hit m r v) m m' /\ first_new m r v cur)).
      { intros s sv H1 H2. eapply good_weaken; [apply (good_adjust_any (near_hit m r v) m r s sv v m Hm Hr H1)|].
        - unfold near_hit. cbn [fst]. rewrite H2. reflexivity.
        - intros cur' m' (G1 & G2 & G3). split; [exact G1|]. split; [exact G2|].
          destruct G3 as [-> | (G3 & ->)]; [left; reflexivity|right]. exists (s, sv). splits; auto. apply (proj2 HW _ H1). }
      destruct (filter _ _) as [|[s sv] [|[t tv] l']].
      - apply good_ret. split; [exact Hm|]. split; auto.
      - destruct (Hc s sv (or_introl eq_refl)). apply Ha; auto.
      - destruct (Hc t tv (or_intror (or_introl eq_refl))). apply Ha; auto. }
    intros n1 m' [Hm' HF].
    eapply (goodE_bind _ _ _ _ _ (fun a m'' => a = m' /\ m'' = m')); [apply good_get; auto|].
    intros a m'' [-> ->].
    eapply goodE_bind.
    { apply (good_insert_loop_any m r v n1 _ Hr HF); [exact Hm'|apply HF|ord]. }
    intros n2 m'' ((_ & _ & H3) & E2). apply goodE_modify. intros e He HP.
    assert (Hne : cmp (r_start n2) (st e) <> Eq).
    { intros E. assert (E' : eqb (r_start n1) (st e) = true) by ord.
      pose proof (proj2 HW e He) as Hv.
      assert (X : near_hit m r v e = true); [|congruence].
      apply (first_touch m r v n1); auto. unfold CrashFacts.touch. destruct HF as (G1 & _). ord. }
    apply bt_insert_In; [apply H3; assumption|exact Hne].
  Qed.

  Lemma insert_before_any r v m x : WW m -> In x (removelast (crash_states (rmx_insert cmp veqb r v) m)) ->
    part (near_hit m r v) m x.
  Proof.
    intros HW Hx. destruct (goodE_insert m r v HW) as (T & HT & HF). rewrite Forall_forall in HF.
    unfold crash_states in Hx. assert (H : In x (m :: T)).
    { destruct HT as [HT | [y [HT _]]]; rewrite HT in Hx.
      - apply removelast_In in Hx. exact Hx.
      - rewrite app_comm_cons, removelast_last in Hx. exact Hx. }
    destruct H as [<-|H]; [apply part_refl; exact HW|auto].
  Qed.
  Lemma insert_crash_any r v m x : WW m -> In x (crash_states (rmx_insert cmp veqb r v) m) ->
    WW x /\ (x = snd (rm_insert cmp veqb r v m) \/ forall k, lk x k = lk m k \/ lk x k = None) /\
    (forall e, In e m -> near_hit m r v e = false -> In e x).
  Proof.
    intros HW [<-|Hx]; [splits; auto|].
    destruct (goodE_insert m r v HW) as (T & HT & HF). rewrite Forall_forall in HF.
    assert (HP : forall y, part (near_hit m r v) m y -> WW y /\
      (y = snd (rm_insert cmp veqb r v m) \/ forall k, lk y k = lk m k \/ lk y k = None) /\
      (forall e, In e m -> near_hit m r v e = false -> In e y)).
    { intros y (H1 & H2 & H3). splits; auto. }
    pose proof (t_insert cmp veqb r v m) as Hl. rewrite e_insert in Hl.
    destruct HT as [HT | [y [HT [HL _]]]]; rewrite HT in *; [apply HP; auto|].
    apply in_app_or in Hx as [Hx|[<-|[]]]; [apply HP; auto|].
    rewrite last_last in Hl. splits; auto. rewrite Hl. apply (exec_any HO (OInsert r v) m HW).
  Qed.
  Lemma remove_crash_any r m x : WW m -> In x (crash_states (rmx_remove cmp r) m) ->
    WW x /\ (forall k, lk x k = lk m k \/ lk x k = None) /\
    (forall e, In e m -> meets cmp r (fst e) = false -> In e x).
  Proof. intros HW Hx. exact (remove_crash HO r m x HW Hx). Qed.
  Lemma extend_crash_any l : forall m x, WW m -> In x (crash_states (rmx_extend cmp veqb l) m) -> WW x.
  Proof.
    unfold rmx_extend. induction l as [|[r v] l IH]; intros m x HW [<-|Hx]; try exact HW; [destruct Hx|].
    cbn [cfor_each fst snd] in Hx. unfold cbind in Hx.
    pose proof (fun y Hy => proj1 (insert_crash_any r v m y HW (or_intror Hy))) as H1.
    pose proof (e_insert cmp veqb r v m) as He.
    destruct (rmx_insert cmp veqb r v m) as [t [[u|p|] m1]]; cbn in *; auto.
    assert (HW1 : WW m1).
    { replace m1 with (snd (rm_insert cmp veqb r v m)) by (rewrite <- He; reflexivity).
      apply (exec_any HO (OInsert r v) m HW). }
    specialize (IH m1 x HW1). unfold crash_states in IH.
    destruct (cfor_each _ l m1) as [t' y]. cbn in *. apply in_app_or in Hx as [Hx|Hx]; auto.
  Qed.
  Lemma exec_crash_any o m x : WW m -> In x (crash_states (xexec1 o) m) -> WW x.
  Proof.
    intros HW. destruct o as [r v|r| |l]; cbn [rmx_exec].
    - intros Hx. apply (insert_crash_any r v m x HW Hx).
    - intros Hx. apply (remove_crash_any r m x HW Hx).
    - intros [<-|[<-|[]]]; [exact HW|apply WF_nil].
    - apply extend_crash_any; exact HW.
  Qed.
  Lemma xexec_any m y : WW m -> WW (xexec xexec1 m y).
  Proof.
    intros HW. assert (H : forall o, WW (snd (snd (xexec1 o m)))).
    { intros o. rewrite e_exec. apply (exec_any HO o m HW). }
    destruct y as [o|o n]; cbn [xexec]; [apply H|].
    destruct (nth_in_or_default n (crash_states (xexec1 o) m) (snd (snd (xexec1 o m)))) as [Hi | ->];
      [|apply H]. apply (exec_crash_any o m _ HW Hi).
  Qed.
  Notation xrun := (rmx_run cmp veqb).
  Lemma xrun_any xs : WW (xrun xs).
  Proof.
    unfold rmx_run. assert (H : forall m, WW m -> WW (fold_left (xexec xexec1) xs m)).
    { induction xs as [|y xs IH]; intros m HW; cbn; [exact HW|]. apply IH, xexec_any, HW. }
    apply H, WF_nil.
  Qed.
  Lemma xrun_never xs : exists ops, xrun xs = rm_run cmp never ops.
  Proof. apply (WF_reachable HO (veqb := never)), xrun_any. Qed.
  Lemma xrun_snoc xs o : xrun (xs ++ [XDone o]) = snd (rm_exec cmp veqb o (xrun xs)).
  Proof. unfold rmx_run. rewrite fold_left_app. cbn. rewrite e_exec. reflexivity. Qed.

  (** ** What a map is good for after any interruptions *)
  Lemma x_get xs k : rm_get cmp (xrun xs) k = Ret (lk (xrun xs) k).
  Proof. apply (get_ok HO (veqb := never)), xrun_any. Qed.
  Lemma x_iter xs :
    ascending cmp (rm_iter (xrun xs)) /\
    (forall r v, In (r, v) (rm_iter (xrun xs)) -> valid_range cmp r = true) /\
    (forall k r v, rm_get_key_value cmp (xrun xs) k = Ret (Some (r, v)) <->
       In (r, v) (rm_iter (xrun xs)) /\ in_range cmp r k = true) /\
    (forall k, rm_get_key_value cmp (xrun xs) k = Ret None <->
       (forall r v, In (r, v) (rm_iter (xrun xs)) -> in_range cmp r k = false)).
  Proof. destruct (xrun_never xs) as (ops & ->). exact (any_iter HO (veqb := never) ops). Qed.
  Lemma x_insert xs r v :
    if valid_range cmp r
    then exists m', rm_insert cmp veqb r v (xrun xs) = (Ret tt, m') /\ length m' <= length (xrun xs) + 2 /\
      exists n, In (n, v) (rm_iter m') /\ (forall k, in_range cmp r k = true -> in_range cmp n k = true) /\
      forall k, exists o o', rm_get cmp (xrun xs) k = Ret o /\ rm_get cmp m' k = Ret o' /\
        if in_range cmp r k then o' = Some v
        else o' = o \/ in_range cmp n k = true /\ exists w, o = Some w /\ veqb w v = true /\ o' = Some v
    else rm_insert cmp veqb r v (xrun xs) = (Panicked PAssert, xrun xs).
  Proof. exact (any_insert_from HO _ r v (xrun_any xs)). Qed.
  Lemma x_remove xs r :
    if valid_range cmp r
    then exists m', rm_remove cmp r (xrun xs) = (Ret tt, m') /\ length m' <= length (xrun xs) + 1 /\
      forall k, rm_get cmp m' k = if in_range cmp r k then Ret None else rm_get cmp (xrun xs) k
    else rm_remove cmp r (xrun xs) = (Panicked PAssert, xrun xs).
  Proof. destruct (xrun_never xs) as (ops & ->). exact (any_remove HO (veqb := never) ops r). Qed.

  Lemma x_insert_interrupted xs r v x : In x (crash_states (xexec1 (OInsert r v)) (xrun xs)) ->
    (x = xrun (xs ++ [XDone (OInsert r v)]) \/
     forall k, rm_get cmp x k = rm_get cmp (xrun xs) k \/ rm_get cmp x k = Ret None) /\
    (forall e, In e (rm_iter (xrun xs)) ->
       ltb (en e) (r_start r) = true \/ ltb (r_end r) (st e) = true ->
       (forall y, In y (rm_iter (xrun xs)) -> veqb (snd y) v = true ->
          (ltb (en y) (r_start r) = true \/ ltb (r_end r) (st y) = true) \/
          (ltb (en e) (st y) = true \/ ltb (en y) (st e) = true)) ->
       In e (rm_iter x)).
  Proof.
    intros Hx. destruct (insert_crash_any r v (xrun xs) x (xrun_any xs) Hx) as (H1 & H2 & H3). split.
    - rewrite xrun_snoc. destruct H2 as [H2|H2]; [left; exact H2|right]. intros k.
      rewrite x_get. rewrite (get_ok HO (veqb := never) x k H1). destruct (H2 k) as [-> | ->]; auto.
    - intros e He Ha Hn. apply H3; [exact He|]. unfold near_hit. apply orb_false_iff. split.
      + unfold CrashFacts.touch. destruct Ha; ord.
      + destruct (existsb _ _) eqn:E; [exfalso|reflexivity]. apply existsb_exists in E as (y & Hy & E).
        apply andb_prop in E as [E E3]. apply andb_prop in E as [E1 E2]. unfold CrashFacts.touch in *.
        destruct (Hn y Hy E2) as [[|]|[|]]; ord.
  Qed.
  Lemma x_remove_interrupted xs r x : In x (crash_states (xexec1 (ORemove r)) (xrun xs)) ->
    (forall k, rm_get cmp x k = rm_get cmp (xrun xs) k \/ rm_get cmp x k = Ret None) /\
    (forall e, In e (rm_iter (xrun xs)) ->
       leb (en e) (r_start r) = true \/ leb (r_end r) (st e) = true -> In e (rm_iter x)).
  Proof.
    intros Hx. destruct (remove_crash_any r (xrun xs) x (xrun_any xs) Hx) as (H1 & H2 & H3). split.
    - intros k. rewrite x_get. rewrite (get_ok HO (veqb := never) x k H1). destruct (H2 k) as [-> | ->]; auto.
    - intros e He Ha. apply H3; [exact He|]. unfold meets. destruct Ha; ord.
  Qed.
End Half.
