(** The entries after [insert] and [remove] of the inclusive map, exactly: key objects
    and [exhausted] flags included. *)
From Coq Require Import List Bool Sorting.Sorted Sorting.Permutation Lia.
From Verif Require Import Order Outcome BTree Ranges History Spec SpecExact MapModel IMapModel ListLemmas
  MapProofs MapExact ExhaustedAny.
Import ListNotations.

Section Exact.
  Context {K V : Type} {cmp : K -> K -> comparison} {veqb : V -> V -> bool} {stp : stepfns K}.
  Context (HO : TotalOrd cmp) (HS : StepLaws cmp stp) (HV : PartialEquiv veqb).

  Notation ltb := (ltb cmp).
  Notation leb := (leb cmp).
  Notation eqb := (eqb cmp).
  Notation c_start := (cmpi_start cmp).
  Notation entry := (rangei K * V)%type.
  Notation st e := (ri_start (fst e)).
  Notation en e := (ri_end (fst e)).
  Notation pb := (@part_beforei K V cmp stp).
  Notation pa := (@part_afteri K V cmp stp).
  Notation reaches := (reaches cmp stp).
  Notation joins := (@joinsi K V cmp veqb stp).
  Notation widened := (@widenedi K V cmp).
  Notation adjust := (im_adjust_touching_ranges_for_insert cmp veqb stp).

  (** ** Neighbouring keys *)
  Lemma reaches_le a b k : reaches a b = true -> ltb a k = true -> leb b k = true.
  Proof.
    intros H Hk. unfold SpecExact.reaches, key_after in H.
    destruct (step_succ _ _ HS _ _ Hk) as (s & E & H1 & H2). rewrite E in H. apply orb_true_iff in H as [H|H]; ord.
  Qed.
  Lemma reaches_intro a b : (ltb a b = true -> exists s, add_one stp a = Some s /\ leb b s = true) -> reaches a b = true.
  Proof.
    intros H. unfold SpecExact.reaches, key_after. destruct (leb b a) eqn:E; [reflexivity|].
    destruct H as (s & -> & H); [ord|]. exact H.
  Qed.
  Lemma reaches_leb a b : leb b a = true -> reaches a b = true.
  Proof. intros H. unfold SpecExact.reaches. rewrite H. reflexivity. Qed.
  Lemma reaches_mono a b a' b' : leb a a' = true -> leb b' b = true -> reaches a b = true -> reaches a' b' = true.
  Proof.
    intros H1 H2 H. apply reaches_intro. intros H3.
    destruct (step_succ _ _ HS _ _ H3) as (s & E & H4 & H5). exists s. split; [exact E|].
    assert (leb b s = true) by (apply (reaches_le a); [exact H|ord]). ord.
  Qed.
  Lemma reaches_between a b k : ltb a k = true -> ltb k b = true -> reaches a b = false.
  Proof.
    intros H1 H2. destruct (reaches a b) eqn:E; [|reflexivity]. pose proof (reaches_le a b k E H1). ord.
  Qed.
  Lemma reaches_not a b : reaches a b = false -> ltb a b = true.
  Proof. unfold SpecExact.reaches. intros H. apply orb_false_iff in H as [H _]. ord. Qed.
  Lemma after_some a y : ltb a y = true ->
    add_one stp a = Some (key_after stp a) /\ ltb a (key_after stp a) = true /\ leb (key_after stp a) y = true.
  Proof. intros H. destruct (step_succ _ _ HS _ _ H) as (s & E & H1 & H2). unfold key_after. rewrite E. auto. Qed.
  Lemma before_some a y : ltb y a = true ->
    sub_one stp a = Some (key_before stp a) /\ ltb (key_before stp a) a = true /\ leb y (key_before stp a) = true.
  Proof. intros H. destruct (step_pred _ _ HS _ _ H) as (s & E & H1 & H2). unfold key_before. rewrite E. auto. Qed.

  (** ** The invariant *)
  Definition isep (a b : entry) : Prop :=
    ltb (en a) (st b) = true /\ (reaches (en a) (st b) = true -> veqb (snd a) (snd b) = false).
  Definition IWF (m : imap K V) : Prop :=
    StronglySorted isep m /\ (forall e, In e m -> leb (st e) (en e) = true).
  Lemma IWF_nil : IWF [].
  Proof. split; [constructor|intros e []]. Qed.
  Lemma IWF_app l1 l2 :
    IWF (l1 ++ l2) <-> IWF l1 /\ IWF l2 /\ (forall a b, In a l1 -> In b l2 -> isep a b).
  Proof.
    unfold IWF. rewrite SS_app. split.
    - intros ((H1 & H2 & H3) & H4). splits; auto; intros e He; apply H4, in_or_app; auto.
    - intros ((H1 & H2) & (H3 & H4) & H5). splits; auto.
      intros e He. apply in_app_or in He as [He|He]; auto.
  Qed.
  Lemma IWF_cons a l :
    IWF (a :: l) <-> leb (st a) (en a) = true /\ IWF l /\ (forall b, In b l -> isep a b).
  Proof.
    unfold IWF. rewrite SS_cons. split.
    - intros ((H1 & H2) & H3). splits; auto.
      + apply H3; left; reflexivity.
      + intros e He. apply H3; right; exact He.
    - intros (H1 & (H2 & H3) & H4). splits; auto. intros e [<-|He]; auto.
  Qed.
  Lemma isep_lt a b : leb (st a) (en a) = true -> isep a b -> ltb (st a) (st b) = true.
  Proof. intros H1 [H2 _]. ord. Qed.
  Lemma run_IWF ops : IWF (im_run cmp veqb stp ops).
  Proof.
    destruct (any_valid HO HS HV ops) as [HA HW]. pose proof (any_coalesced HO HS HV ops) as HC. unfold im_iter in *.
    split.
    - revert HA HC. generalize (im_run cmp veqb stp ops). clear HW. induction 1 as [|x m HA IH HF]; intros HC; constructor.
      + apply IH. intros a b Ha Hb. apply HC; right; assumption.
      + rewrite Forall_forall in *. intros y Hy. specialize (HF y Hy). split; [exact HF|]. intros HR.
        destruct (veqb (snd x) (snd y)) eqn:E; [|reflexivity]. exfalso.
        destruct (HC x y (or_introl eq_refl) (or_intror Hy) HF E) as (k & K1 & K2).
        rewrite (reaches_between _ _ k K1 K2) in HR. discriminate.
    - intros [r v] He. destruct (HW r v He) as [H _]. unfold valid_rangei in H. cbn [fst]. ord.
  Qed.

  (** ** [BTreeMap] operations on a decomposed list *)
  Lemma ins_split (L N : imap K V) r v :
    (forall a, In a L -> ltb (st a) (ri_start r) = true) ->
    (forall b, In b N -> ltb (ri_start r) (st b) = true) ->
    bt_insert c_start r v (L ++ N) = L ++ (r, v) :: N.
  Proof.
    induction L as [|[a w] L IH]; intros HA HB; cbn [app].
    - destruct N as [|[b w] N]; [reflexivity|]. cbn [bt_insert].
      pose proof (HB (b, w) (or_introl eq_refl)) as Hb. cbn in Hb. unfold cmpi_start.
      assert (E : cmp (ri_start r) (ri_start b) = Lt) by ord. rewrite E. clear E. reflexivity.
    - cbn [bt_insert]. pose proof (HA (a, w) (or_introl eq_refl)) as Ha. cbn in Ha. unfold cmpi_start at 1.
      assert (E : cmp (ri_start r) (ri_start a) = Gt) by ord. rewrite E. clear E. f_equal. apply IH; auto. intros; apply HA; right; auto.
  Qed.
  Lemma rem_split (L N : imap K V) r v :
    (forall a, In a L -> ltb (st a) (ri_start r) = true) ->
    bt_remove c_start r (L ++ (r, v) :: N) = L ++ N.
  Proof.
    induction L as [|[a w] L IH]; intros HA; cbn [app bt_remove]; unfold cmpi_start at 1.
    - rewrite (ord_refl _ HO). reflexivity.
    - pose proof (HA (a, w) (or_introl eq_refl)) as Ha. cbn in Ha.
      assert (E : cmp (ri_start r) (ri_start a) = Gt) by ord. rewrite E. clear E. f_equal. apply IH. intros; apply HA; right; auto.
  Qed.
  Lemma isplit_le m x :
    IWF m -> exists L N, m = L ++ N /\
      (forall a, In a L -> leb (st a) (ri_start x) = true) /\
      (forall b, In b N -> ltb (ri_start x) (st b) = true) /\
      bt_range c_start Unbounded (Included x) m = Ret L.
  Proof.
    intros HW.
    destruct (split_sorted isep (fun e => leb (st e) (ri_start x)) m (proj1 HW))
      as (L & N & E & H1 & H2 & H3 & H4).
    - intros a b Ha Hb Hs Hp. cbn in *. pose proof (isep_lt a b (proj2 HW a Ha) Hs). ord.
    - exists L, N. split; [exact E|]. split; [exact H1|]. split.
      + intros b Hb. specialize (H2 b Hb). cbn in H2. ord.
      + unfold bt_range. cbn [bad_bounds]. f_equal.
        rewrite drop_while_none by (intros; reflexivity).
        rewrite <- H3. apply take_while_ext. intros a Ha. cbn. unfold cmpi_start, Order.leb.
        destruct (cmp (st a) (ri_start x)); reflexivity.
  Qed.
  Lemma range_from (A B : imap K V) lo :
    (forall a, In a A -> ltb (st a) (ri_start lo) = true) ->
    (forall b, In b B -> leb (ri_start lo) (st b) = true) ->
    bt_range c_start (Included lo) Unbounded (A ++ B) = Ret B.
  Proof.
    intros HA HB. unfold bt_range. cbn [bad_bounds]. f_equal. rewrite drop_while_app, drop_while_none.
    - apply take_while_all. reflexivity.
    - intros a Ha. specialize (HB a Ha). cbn. unfold cmpi_start.
      destruct (cmp (st a) (ri_start lo)) eqn:E2; auto. ord.
    - intros a Ha. specialize (HA a Ha). cbn. unfold cmpi_start.
      destruct (cmp (st a) (ri_start lo)) eqn:E2; auto; ord.
  Qed.
  Lemma range_after (A B : imap K V) lo hi :
    (forall a, In a A -> leb (st a) (ri_start lo) = true) ->
    (forall b, In b B -> ltb (ri_start lo) (st b) = true) ->
    leb (ri_start lo) (ri_start hi) = true ->
    bt_range c_start (Excluded lo) (Included hi) (A ++ B) =
    Ret (take_while (fun e => leb (st e) (ri_start hi)) B).
  Proof.
    intros HA HB Hle. unfold bt_range. cbn [bad_bounds].
    assert (E : match c_start lo hi with Gt => true | _ => false end = false).
    { unfold cmpi_start. unfold Order.leb in Hle. destruct (cmp (ri_start lo) (ri_start hi)); congruence. }
    rewrite E. f_equal. rewrite drop_while_app, drop_while_none.
    - apply take_while_ext. intros a Ha. cbn. unfold cmpi_start, Order.leb.
      destruct (cmp (st a) (ri_start hi)); reflexivity.
    - intros a Ha. specialize (HB a Ha). cbn. unfold cmpi_start.
      destruct (cmp (st a) (ri_start lo)) eqn:E2; auto; ord.
    - intros a Ha. specialize (HA a Ha). cbn. unfold cmpi_start.
      destruct (cmp (st a) (ri_start lo)) eqn:E2; auto; ord.
  Qed.

  (** ** The loop of [insert] *)
  Definition iendof (new : rangei K) (js : imap K V) : K :=
    match rev js with [] => ri_end new | e :: _ => kmax cmp (ri_end new) (en e) end.
  Definition iflag (new : rangei K) (js : imap K V) : bool :=
    match js with [] => ri_exhausted new | _ => false end.
  Definition ijr (new : rangei K) (nv : V) (e : entry) : bool := veqb (snd e) nv && reaches (ri_end new) (st e).
  Definition iright_ok (B : imap K V) (new : rangei K) (nv : V) : Prop :=
    forall b, In b B -> ltb (ri_end new) (st b) = true /\
      (reaches (ri_end new) (st b) = true -> veqb (snd b) nv = false).

  Lemma iright_idle B new nv : IWF B -> iright_ok B new nv ->
    filter (ijr new nv) B = [] /\ flat_map (pa (ri_end new)) (filter (fun e => negb (ijr new nv e)) B) = B.
  Proof.
    intros HW H.
    assert (J : forall b, In b B -> ijr new nv b = false).
    { intros b Hb. destruct (H b Hb) as [H1 H2]. unfold ijr. destruct (reaches (ri_end new) (st b)); [|apply andb_false_r].
      rewrite H2; reflexivity. }
    split; [apply filter_never, J|]. rewrite filter_always by (intros b Hb; rewrite (J b Hb); reflexivity).
    apply flat_map_same. intros b Hb. destruct (H b Hb) as [H1 _]. pose proof (proj2 HW b Hb). unfold part_afteri.
    replace (ltb (ri_end new) (en b)) with true by ord. rewrite H1. reflexivity.
  Qed.
  Lemma iright_cons b bv T new nv : IWF ((b, bv) :: T) -> ltb (ri_end new) (ri_start b) = true ->
    (reaches (ri_end new) (ri_start b) = true -> veqb bv nv = false) -> iright_ok ((b, bv) :: T) new nv.
  Proof.
    intros HW H1 H2. apply IWF_cons in HW as (Hb & _ & HbT). cbn [fst] in Hb.
    intros t [<-|Ht]; [split; auto|]. destruct (HbT t Ht) as [H3 _]. cbn [fst] in H3. split; [ord|].
    rewrite (reaches_between _ _ (ri_start b)); [discriminate|ord|ord].
  Qed.

  Definition brk (sl b : rangei K) (bv nv : V) : outcome bool :=
    if gtb cmp (ri_start b) (ri_start sl)
    then omap (fun latest => gtb cmp (ri_start b) latest || (eqb (ri_start b) latest && negb (veqb bv nv)))
              (step_o (add_one stp (ri_start sl)))
    else Ret false.
  Lemma brk_true sl b bv nv : ltb (ri_start sl) (ri_start b) = true ->
    (reaches (ri_start sl) (ri_start b) = true -> veqb bv nv = false) -> brk sl b bv nv = Ret true.
  Proof.
    intros H1 H2. unfold brk, gtb. rewrite H1. destruct (step_succ _ _ HS _ _ H1) as (s & E & H3 & H4). rewrite E.
    cbn [step_o omap obind]. f_equal. destruct (ltb s (ri_start b)) eqn:E2; [reflexivity|].
    replace (eqb (ri_start b) s) with true by ord. rewrite H2; [reflexivity|]. apply reaches_intro. intros _. exists s. split; [exact E|ord].
  Qed.
  Lemma brk_false sl b bv nv :
    leb (ri_start b) (ri_start sl) = true \/ (veqb bv nv = true /\ reaches (ri_start sl) (ri_start b) = true) ->
    brk sl b bv nv = Ret false.
  Proof.
    intros H. unfold brk, gtb. destruct (ltb (ri_start sl) (ri_start b)) eqn:E1; [|reflexivity].
    destruct H as [H|[H1 H2]]; [exfalso; ord|].
    destruct (step_succ _ _ HS _ _ E1) as (s & E & H3 & H4). rewrite E. cbn [step_o omap obind]. rewrite H1, andb_false_r.
    pose proof (reaches_le _ _ s H2 H3). replace (ltb s (ri_start b)) with false by ord. reflexivity.
  Qed.

  Lemma iloop_step fuel new nv sl A b bv T :
    (forall a, In a A -> ltb (st a) (ri_start new) = true) ->
    (forall e, In e ((b, bv) :: T) -> leb (ri_start new) (st e) = true) ->
    im_insert_loop cmp veqb stp (S fuel) new nv sl (A ++ (b, bv) :: T) =
    (k <- lift (brk sl b bv nv) ;;
     if k then ret new
     else new' <- adjust b bv new nv ;; im_insert_loop cmp veqb stp fuel new' nv sl)%M (A ++ (b, bv) :: T).
  Proof.
    intros HA HB. cbn [im_insert_loop]. unfold bind at 1, get at 1, bind at 1, lift at 1. rewrite range_from by auto. reflexivity.
  Qed.

  Lemma iloop_stop nv sl B A new fuel :
    1 <= fuel -> (forall a, In a A -> ltb (st a) (ri_start new) = true) ->
    (forall b, In b B -> leb (ri_start new) (st b) = true) ->
    leb (ri_start sl) (ri_end new) = true -> iright_ok B new nv ->
    im_insert_loop cmp veqb stp fuel new nv sl (A ++ B) = (Ret new, A ++ B).
  Proof.
    intros Hf HA HB He0 Hr. destruct fuel as [|fuel]; [lia|].
    destruct B as [|[b bv] T].
    - cbn [im_insert_loop]. unfold bind, get, lift. rewrite range_from by auto. reflexivity.
    - rewrite iloop_step by auto. destruct (Hr (b, bv) (or_introl eq_refl)) as [H1 H2]. cbn [fst snd] in *.
      unfold bind at 1, lift at 1. rewrite brk_true; [reflexivity|ord|].
      intros H3. apply H2. apply (reaches_mono (ri_start sl) (ri_start b)); auto. ord.
  Qed.

  Lemma iloop_exact nv sl : forall B A new fuel,
    length B + 2 <= fuel -> IWF (A ++ B) -> (forall a, In a A -> ltb (en a) (ri_start new) = true) ->
    (forall b, In b B -> leb (ri_start new) (st b) = true) ->
    leb (ri_start new) (ri_end new) = true -> eqb (ri_start sl) (ri_end new) = true ->
    im_insert_loop cmp veqb stp fuel new nv sl (A ++ B) =
      (Ret (mkRI (ri_start new) (iendof new (filter (ijr new nv) B)) (iflag new (filter (ijr new nv) B))),
       A ++ flat_map (pa (ri_end new)) (filter (fun e => negb (ijr new nv e)) B)).
  Proof.
    induction B as [|e T IH]; intros A new fuel Hfuel HW HA HB Hne He0;
      pose proof HW as HW0; apply IWF_app in HW0 as (HWA & HWB & HAB);
      assert (HAs : forall a, In a A -> ltb (st a) (ri_start new) = true)
        by (intros a Ha; specialize (HA a Ha); pose proof (proj2 HWA a Ha); ord).
    - rewrite iloop_stop; auto; [| nlia | ord | intros b []]. cbn. destruct new; reflexivity.
    - pose proof HWB as HWB0. apply IWF_cons in HWB0 as (Hb & HWT & HeT). destruct e as [b bv]. cbn [fst snd] in *.
      assert (HbT : forall t, In t T -> ltb (ri_end b) (st t) = true) by (intros t Ht; apply (HeT t Ht)).
      assert (HWAT : IWF (A ++ T)).
      { apply IWF_app. splits; auto; try apply HWA; try apply HWT; intros; apply HAB; auto; right; auto. }
      assert (Hs : leb (ri_start new) (ri_start b) = true) by (apply (HB (b, bv)); left; reflexivity).
      assert (HAb : forall a, In a A -> ltb (st a) (ri_start b) = true) by (intros a Ha; specialize (HAs a Ha); ord).
      assert (HT : forall t, In t T -> leb (ri_start new) (st t) = true) by (intros t Ht; apply HB; right; exact Ht).
      destruct (ijr new nv (b, bv)) eqn:Ej.
      + (* joined *)
        pose proof Ej as Ej'. unfold ijr in Ej'. cbn [fst snd] in Ej'. apply andb_true_iff in Ej' as [Ev Er].
        destruct fuel as [|fuel]; [nlia|]. rewrite iloop_step by auto. unfold bind at 1, lift at 1.
        rewrite brk_false by (right; split; [exact Ev|]; apply (reaches_mono (ri_end new) (ri_start b)); auto; ord).
        unfold bind at 1, im_adjust_touching_ranges_for_insert. rewrite Ev. unfold bind, modify, ret.
        rewrite rem_split by exact HAb.
        assert (Ek : kmin cmp (ri_start new) (ri_start b) = ri_start new).
        { unfold kmin. destruct (ltb (ri_start b) (ri_start new)) eqn:E; [exfalso; ord|reflexivity]. }
        rewrite Ek. cbn [filter]. rewrite Ej. cbn [negb iflag].
        set (new1 := incl (ri_start new) (kmax cmp (ri_end new) (ri_end b))).
        destruct (ltb (ri_end b) (ri_end new)) eqn:Eb.
        * assert (E1 : ri_end new1 = ri_end new) by (unfold new1, kmax; cbn; rewrite Eb; reflexivity).
          rewrite (IH A new1 fuel); rewrite ?E1; auto; [|nlia].
          assert (EJ : ijr new1 nv = ijr new nv) by (unfold ijr; rewrite E1; reflexivity).
          rewrite EJ. f_equal. f_equal. unfold iendof. cbn [rev ri_start new1 incl]. rewrite E1.
          assert (EF : iflag new1 (filter (ijr new nv) T) = false) by (unfold iflag; destruct (filter (ijr new nv) T); reflexivity).
          rewrite EF. destruct (rev (filter (ijr new nv) T)) as [|x l]; cbn [app]; [|reflexivity].
          unfold kmax. cbn [fst]. rewrite Eb. reflexivity.
        * assert (E1 : ri_end new1 = ri_end b) by (unfold new1, kmax; cbn; rewrite Eb; reflexivity).
          assert (HR1 : iright_ok T new1 nv).
          { intros t Ht. destruct (HeT t Ht) as [H1 H2]. cbn [fst snd] in *. rewrite E1. split; [exact H1|].
            intros H3. apply (veq_diff_sym HV), (veq_diff_l HV bv); [exact Ev|]. apply H2. exact H3. }
          assert (HR : iright_ok T new nv).
          { intros t Ht. destruct (HR1 t Ht) as [H1 H2]. rewrite E1 in *. split; [ord|].
            intros H3. apply H2. apply (reaches_mono (ri_end new) (st t)); auto; ord. }
          rewrite iloop_stop; auto; [|nlia|rewrite E1; ord].
          destruct (iright_idle T new nv HWT HR) as [-> ->]. unfold iendof. cbn [rev app fst]. reflexivity.
      + destruct (leb (ri_start b) (ri_end new)) eqn:El.
        * (* cut *)
          assert (Ev : veqb bv nv = false).
          { unfold ijr in Ej. cbn [fst snd] in Ej. rewrite (reaches_leb _ _ El), andb_true_r in Ej. exact Ej. }
          destruct fuel as [|fuel]; [nlia|]. rewrite iloop_step by auto. unfold bind at 1, lift at 1.
          rewrite brk_false by (left; ord).
          unfold bind at 1, im_adjust_touching_ranges_for_insert. rewrite Ev.
          assert (Eov : ri_overlaps cmp new b = true).
          { unfold ri_overlaps, kmax, kmin.
            destruct (ltb (ri_start b) (ri_start new)) eqn:X1; destruct (ltb (ri_end b) (ri_end new)) eqn:X2; ord. }
          rewrite Eov. unfold bind at 1, modify at 1. rewrite rem_split by exact HAb.
          replace (ltb (ri_start b) (ri_start new)) with false by ord. unfold bind at 1, ret at 1. unfold gtb.
          cbn [filter]. rewrite Ej. cbn [negb flat_map]. unfold part_afteri at 1. cbn [fst snd].
          unfold bind at 1. destruct (ltb (ri_end new) (ri_end b)) eqn:E2.
          -- destruct (after_some _ _ E2) as (S1 & S2 & S3). rewrite S1. cbn [step_o].
             unfold bind at 1, lift at 1, modify, ret. set (p := incl (key_after stp (ri_end new)) (ri_end b)).
             rewrite (ins_split A T); unfold p; cbn [ri_start incl].
             2:{ intros a Ha. specialize (HAb a Ha). ord. }
             2:{ intros t Ht. specialize (HbT t Ht). ord. }
             fold p.
             assert (HWp : IWF ((p, bv) :: T)) by (apply IWF_cons; splits; auto).
             assert (HR : iright_ok T new nv).
             { intros t Ht. specialize (HbT t Ht). split; [ord|].
               rewrite (reaches_between _ _ (ri_end b)); [discriminate|ord|ord]. }
             rewrite iloop_stop; auto.
             ++ destruct (iright_idle T new nv HWT HR) as [-> ->].
                replace (ltb (ri_end new) (ri_start b)) with false by ord. cbn. destruct new; reflexivity.
             ++ nlia.
             ++ intros x [<-|Hx]; [cbn; ord|apply HT; exact Hx].
             ++ ord.
             ++ apply iright_cons; auto.
          -- unfold ret. rewrite IH; auto. nlia.
        * assert (HR : iright_ok ((b, bv) :: T) new nv).
          { apply iright_cons; auto; [ord|]. intros Hr. unfold ijr in Ej. cbn [fst snd] in Ej.
            rewrite Hr, andb_true_r in Ej. exact Ej. }
          rewrite iloop_stop; auto; [|nlia|ord].
          destruct (iright_idle _ new nv HWB HR) as [F1 F2]. cbn [filter] in F1, F2. cbn [filter].
          rewrite Ej in *. cbn [negb] in *. rewrite F1, F2. cbn. destruct new; reflexivity.
  Qed.

  (** the second half of [insert] *)
  Lemma ifinish_exact A B new nv :
    IWF (A ++ B) -> (forall a, In a A -> ltb (en a) (ri_start new) = true) ->
    (forall b, In b B -> leb (ri_start new) (st b) = true) -> leb (ri_start new) (ri_end new) = true ->
    (m1 <- get ;;
     new2 <- im_insert_loop cmp veqb stp (length m1 + 2) new nv (incl (ri_end new) (ri_end new)) ;;
     modify (bt_insert c_start new2 nv))%M (A ++ B) =
    (Ret tt, A ++ (mkRI (ri_start new) (iendof new (filter (ijr new nv) B)) (iflag new (filter (ijr new nv) B)), nv) ::
             flat_map (pa (ri_end new)) (filter (fun e => negb (ijr new nv e)) B)).
  Proof.
    intros HW HA HB Hne. unfold bind at 1, get at 1. unfold bind at 1.
    rewrite iloop_exact; auto; [|nlia|cbn; ord]. unfold modify. apply IWF_app in HW as (HWA & HWB & _).
    rewrite ins_split; [reflexivity| |]; cbn [ri_start].
    - intros a Ha. specialize (HA a Ha). pose proof (proj2 HWA a Ha). ord.
    - intros b Hb. apply in_flat_map in Hb as (e & He & Hb). unfold part_afteri in Hb.
      destruct (ltb (ri_end new) (en e)) eqn:E1; [|destruct Hb]. destruct Hb as [<-|[]].
      destruct (after_some _ _ E1) as (_ & S1 & _).
      destruct (ltb (ri_end new) (st e)) eqn:E2; cbn [fst ri_start]; ord.
  Qed.

  (** ** The specification, part by part *)
  Notation put := (@puti_entries K V cmp veqb stp).
  Notation del := (@deli_entries K V cmp stp).

  Lemma ileft_parts L r v : IWF L -> leb (ri_start r) (ri_end r) = true ->
    (forall a, In a L -> reaches (en a) (ri_start r) = false) ->
    filter (joins r v) L = [] /\ filter (fun e => negb (joins r v e)) L = L /\
    flat_map (pb (ri_start r)) L = L /\ flat_map (pa (ri_end r)) L = [].
  Proof.
    intros HW Hv HL.
    assert (J : forall a, In a L -> joins r v a = false).
    { intros a Ha. unfold SpecExact.joinsi. rewrite (HL a Ha), andb_false_r. reflexivity. }
    splits.
    - apply filter_never, J.
    - apply filter_always. intros a Ha. rewrite (J a Ha). reflexivity.
    - apply flat_map_same. intros a Ha. pose proof (reaches_not _ _ (HL a Ha)) as H. pose proof (proj2 HW a Ha). unfold part_beforei.
      replace (ltb (st a) (ri_start r)) with true by ord. rewrite H. reflexivity.
    - apply flat_map_none. intros a Ha. pose proof (reaches_not _ _ (HL a Ha)) as H. unfold part_afteri.
      replace (ltb (ri_end r) (en a)) with false by ord. reflexivity.
  Qed.
  Lemma iright_parts N r v : IWF N ->
    (forall b, In b N -> leb (ri_start r) (st b) = true) ->
    filter (joins r v) N = filter (ijr r v) N /\
    filter (fun e => negb (joins r v e)) N = filter (fun e => negb (ijr r v e)) N /\
    flat_map (pb (ri_start r)) (filter (fun e => negb (ijr r v e)) N) = [].
  Proof.
    intros HW HN.
    assert (J : forall b, In b N -> joins r v b = ijr r v b).
    { intros b Hb. specialize (HN b Hb). pose proof (proj2 HW b Hb). unfold SpecExact.joinsi, ijr.
      rewrite (reaches_leb (en b)) by ord. rewrite andb_true_r. reflexivity. }
    assert (P : forall b, In b N -> pb (ri_start r) b = []).
    { intros b Hb. specialize (HN b Hb). unfold part_beforei. replace (ltb (st b) (ri_start r)) with false by ord. reflexivity. }
    splits.
    - apply filter_same, J.
    - apply filter_same. intros b Hb. rewrite (J b Hb). reflexivity.
    - apply flat_map_none. intros b Hb. apply filter_In in Hb as [Hb _]. apply P, Hb.
  Qed.
  Lemma iwidened_right N r v : (forall b, In b N -> leb (ri_start r) (st b) = true) ->
    widened r (filter (ijr r v) N) =
    mkRI (ri_start r) (iendof r (filter (ijr r v) N)) (iflag r (filter (ijr r v) N)).
  Proof.
    intros HN. unfold SpecExact.widenedi, iendof, iflag. f_equal. destruct (filter (ijr r v) N) as [|e l] eqn:E; [reflexivity|].
    assert (He : In e N) by (eapply proj1, filter_In; rewrite E; left; reflexivity).
    specialize (HN e He). unfold kmin. replace (ltb (st e) (ri_start r)) with false by ord. reflexivity.
  Qed.

  (** ** [insert] *)
  Lemma itouch_iff a r : leb (ri_start r) (ri_end r) = true ->
    leb (ri_start a) (ri_start r) = true ->
    ri_touches cmp stp a r = Ret (reaches (ri_end a) (ri_start r)).
  Proof.
    intros H1 H3. unfold ri_touches, kmax, kmin.
    replace (ltb (ri_start r) (ri_start a)) with false by ord.
    destruct (ltb (ri_end r) (ri_end a)) eqn:E.
    - replace (ltb (ri_end r) (ri_start r)) with false by ord. cbn [obind]. rewrite H1, reaches_leb by ord. reflexivity.
    - destruct (ltb (ri_end a) (ri_start r)) eqn:E1.
      + destruct (after_some _ _ E1) as (S1 & _). rewrite S1. cbn. unfold SpecExact.reaches.
        replace (leb (ri_start r) (ri_end a)) with false by ord. reflexivity.
      + cbn. rewrite reaches_leb by ord. f_equal. ord.
  Qed.

  Lemma icandidate_exact m r nv : IWF m -> leb (ri_start r) (ri_end r) = true ->
    exists L cs, bt_range c_start Unbounded (Included r) m = Ret L /\
    filter_o (fun e => ri_touches cmp stp (fst e) r) (firstn 2 (rev L)) = Ret cs /\
    ((cs = [] /\
      exists A N, m = A ++ N /\ (forall a, In a A -> reaches (en a) (ri_start r) = false) /\
                  (forall b, In b N -> leb (ri_start r) (st b) = true)) \/
     exists A x xv N, m = A ++ (x, xv) :: N /\ (forall a, In a A -> reaches (en a) (ri_start r) = false) /\
        (forall b, In b N -> leb (ri_start r) (st b) = true) /\
        leb (ri_start x) (ri_start r) = true /\ reaches (ri_end x) (ri_start r) = true /\
        (match cs with
         | [] => ret r
         | [(s, sv)] => adjust s sv r nv
         | _ :: (s, sv) :: _ => adjust s sv r nv
         end) = adjust x xv r nv).
  Proof.
    intros HW Hv. destruct (isplit_le m r HW) as (L & N & -> & HL & HN & HR).
    exists L.
    pose proof HW as HW0. apply IWF_app in HW0 as (HWL & HWN & HLN).
    assert (HN' : forall b, In b N -> leb (ri_start r) (st b) = true).
    { intros b Hb. specialize (HN b Hb). ord. }
    destruct (rev_cases L) as [->|(L' & [x xv] & ->)].
    - exists []. split; [exact HR|]. split; [reflexivity|]. left. split; [reflexivity|]. exists [], N. splits; auto; intros a [].
    - assert (Hxs : leb (ri_start x) (ri_start r) = true).
      { apply (HL (x, xv)). apply in_or_app; right; left; reflexivity. }
      pose proof HWL as HWL0. apply IWF_app in HWL0 as (HWL' & HWx & HL'x).
      apply IWF_cons in HWx as (Hx & _ & _). cbn in Hx.
      rewrite rev_app_distr. cbn [rev app].
      pose proof (itouch_iff x r Hv Hxs) as Tx.
      destruct (rev_cases L') as [->|(L'' & [y yv] & ->)].
      + cbn [rev app firstn filter_o fst]. rewrite Tx. cbn [obind].
        eexists. split; [exact HR|]. split; [reflexivity|]. destruct (reaches (ri_end x) (ri_start r)) eqn:Ex.
        * right. exists [], x, xv, N. splits; auto; intros a [].
        * left. split; [reflexivity|]. exists [(x, xv)], N. splits; auto. intros a [<-|[]]. exact Ex.
      + rewrite rev_app_distr. cbn [rev app firstn filter_o fst]. rewrite Tx.
        pose proof HWL' as HWL0. apply IWF_app in HWL0 as (HWL'' & HWy & HL''y).
        apply IWF_cons in HWy as (Hy & _ & _). cbn in Hy.
        destruct (HL'x (y, yv) (x, xv)) as [Hyx _];
          [apply in_or_app; right; left; reflexivity|left; reflexivity|]. cbn in Hyx.
        assert (Hay : forall a, In a L'' -> ltb (en a) (ri_start y) = true).
        { intros a Ha. apply (HL''y a (y, yv) Ha (or_introl eq_refl)). }
        assert (Hys : leb (ri_start y) (ri_start r) = true) by ord.
        rewrite (itouch_iff y r Hv Hys). cbn [obind]. eexists. split; [exact HR|]. split; [reflexivity|].
        destruct (reaches (ri_end y) (ri_start r)) eqn:Ey.
        * right. exists L'', y, yv, ((x, xv) :: N). rewrite <- !app_assoc. cbn [app].
          pose proof (reaches_le _ _ (ri_start x) Ey Hyx) as Hrx.
          splits; auto.
          -- intros a Ha. specialize (Hay a Ha). apply (reaches_between _ _ (ri_start y)); ord.
          -- intros b [<-|Hb]; [cbn; ord|auto].
          -- rewrite (reaches_leb (ri_end x)) by ord. reflexivity.
        * assert (HA : forall a, In a (L'' ++ [(y, yv)]) -> reaches (en a) (ri_start r) = false).
          { intros a Ha. apply in_app_or in Ha as [Ha|[<-|[]]]; [|exact Ey].
            specialize (Hay a Ha). apply (reaches_between _ _ (ri_start y)); ord. }
          destruct (reaches (ri_end x) (ri_start r)) eqn:Ex.
          -- right. exists (L'' ++ [(y, yv)]), x, xv, N. rewrite <- !app_assoc. cbn [app]. splits; auto.
          -- left. split; [reflexivity|]. exists ((L'' ++ [(y, yv)]) ++ [(x, xv)]), N. splits; auto.
             intros a Ha. apply in_app_or in Ha as [Ha|[<-|[]]]; [auto|exact Ex].
  Qed.

  Lemma ijoined_end x xv N r nv : IWF ((x, xv) :: N) -> veqb xv nv = true ->
    (forall b, In b N -> leb (ri_start r) (st b) = true) ->
    let new1 := incl (kmin cmp (ri_start r) (ri_start x)) (kmax cmp (ri_end r) (ri_end x)) in
    mkRI (ri_start new1) (iendof new1 (filter (ijr new1 nv) N)) (iflag new1 (filter (ijr new1 nv) N)) =
      widened r ((x, xv) :: filter (ijr r nv) N) /\
    flat_map (pa (ri_end new1)) (filter (fun e => negb (ijr new1 nv e)) N) =
    flat_map (pa (ri_end r)) (filter (fun e => negb (ijr r nv e)) N).
  Proof.
    intros HW Ev HN new1. pose proof HW as HW0. apply IWF_cons in HW0 as (Hx & HWN & HxN). cbn [fst] in Hx.
    assert (EF : forall js, iflag new1 js = false) by (intros [|? ?]; reflexivity). rewrite EF.
    destruct (ltb (ri_end x) (ri_end r)) eqn:E.
    - assert (E1 : ri_end new1 = ri_end r) by (unfold new1, kmax; cbn [ri_end incl]; rewrite E; reflexivity).
      assert (EJ : ijr new1 nv = ijr r nv) by (unfold ijr; rewrite E1; reflexivity).
      rewrite EJ, E1. split; [|reflexivity]. unfold SpecExact.widenedi. cbn [fst]. f_equal. unfold iendof. cbn [rev].
      rewrite E1. destruct (rev (filter (ijr r nv) N)) as [|e l]; cbn [app fst]; [|reflexivity].
      unfold kmax. rewrite E. reflexivity.
    - assert (E1 : ri_end new1 = ri_end x) by (unfold new1, kmax; cbn [ri_end incl]; rewrite E; reflexivity).
      assert (HR : iright_ok N new1 nv).
      { intros t Ht. destruct (HxN t Ht) as [H1 H2]. cbn [fst snd] in *. rewrite E1. split; [exact H1|].
        intros H3. apply (veq_diff_sym HV), (veq_diff_l HV xv); [exact Ev|]. apply H2. exact H3. }
      assert (HR2 : iright_ok N r nv).
      { intros t Ht. destruct (HR t Ht) as [H1 H2]. rewrite E1 in *. split; [ord|]. intros H3. apply H2.
        apply (reaches_mono (ri_end r) (st t)); auto; ord. }
      destruct (iright_idle _ _ _ HWN HR) as [-> ->]. destruct (iright_idle _ _ _ HWN HR2) as [-> ->].
      split; [|reflexivity]. unfold SpecExact.widenedi, iendof. cbn [rev app fst]. rewrite E1. unfold new1. cbn [ri_start incl].
      f_equal. unfold kmax. rewrite E. reflexivity.
  Qed.

  Lemma iinsert_exact m r v : IWF m -> leb (ri_start r) (ri_end r) = true ->
    im_insert cmp veqb stp r v m = (Ret tt, put r v m).
  Proof.
    intros HW Hv. destruct (icandidate_exact m r v HW Hv) as (L & cs & HR & HF & HC).
    unfold im_insert. unfold bind at 1, assert_. rewrite Hv. unfold ret at 1.
    unfold bind at 1, get at 1, bind at 1, lift at 1. rewrite HR. unfold bind at 1, lift at 1. rewrite HF. unfold bind at 1.
    destruct HC as [(-> & A & N & -> & HA & HN)|(A & x & xv & N & -> & HA & HN & Hxs & Hxe & ->)].
    - unfold ret at 1. pose proof HW as HW0. apply IWF_app in HW0 as (HWA & HWN & _).
      rewrite ifinish_exact; auto.
      + unfold puti_entries. rewrite !filter_app, !flat_map_app.
        destruct (ileft_parts A r v HWA Hv HA) as (-> & -> & -> & ->).
        destruct (iright_parts N r v HWN HN) as (-> & -> & ->).
        cbn [app]. rewrite app_nil_r, iwidened_right by exact HN. reflexivity.
      + intros a Ha. apply reaches_not, HA, Ha.
    - pose proof HW as HW0. apply IWF_app in HW0 as (HWA & HWx & HAx).
      pose proof HWx as HWx0. apply IWF_cons in HWx0 as (Hx & HWN & HxN). cbn [fst snd] in *.
      assert (HAe : forall a, In a A -> ltb (en a) (ri_start x) = true).
      { intros a Ha. apply (HAx a (x, xv) Ha (or_introl eq_refl)). }
      assert (HAst : forall a, In a A -> ltb (st a) (ri_start x) = true).
      { intros a Ha. specialize (HAe a Ha). pose proof (proj2 HWA a Ha). ord. }
      assert (HxN1 : forall b, In b N -> ltb (ri_end x) (st b) = true) by (intros b Hb; apply (HxN b Hb)).
      assert (HWAN : IWF (A ++ N)).
      { apply IWF_app. splits; auto. intros a b Ha Hb. apply HAx; auto. right; exact Hb. }
      destruct (ileft_parts A r v HWA Hv HA) as (F1 & F2 & F3 & F4).
      destruct (iright_parts N r v HWN HN) as (G1 & G2 & G4).
      assert (EJ : joins r v (x, xv) = veqb xv v).
      { unfold SpecExact.joinsi. cbn [fst snd]. rewrite Hxe, (reaches_leb (ri_end r)) by ord. rewrite !andb_true_r. reflexivity. }
      unfold im_adjust_touching_ranges_for_insert.
      unfold puti_entries. rewrite !filter_app. cbn [filter]. rewrite EJ, F1, F2, G1, G2.
      destruct (veqb xv v) eqn:Ev; cbn [negb app]; rewrite !flat_map_app; cbn [flat_map]; rewrite F3, F4, G4, app_nil_r; cbn [app].
      + unfold bind at 1, modify at 1. rewrite rem_split by exact HAst. unfold ret at 1.
        rewrite ifinish_exact; auto.
        * destruct (ijoined_end x xv N r v HWx Ev HN) as [H1 H2]. rewrite H1, H2. reflexivity.
        * intros a Ha. specialize (HAe a Ha). cbn [ri_start incl]. unfold kmin. destruct (ltb (ri_start x) (ri_start r)) eqn:E; ord.
        * intros b Hb. specialize (HN b Hb). cbn [ri_start incl]. unfold kmin. destruct (ltb (ri_start x) (ri_start r)) eqn:E; ord.
        * cbn [ri_start ri_end incl]. unfold kmin, kmax.
          destruct (ltb (ri_start x) (ri_start r)) eqn:E1; destruct (ltb (ri_end x) (ri_end r)) eqn:E2; ord.
      + destruct (leb (ri_start r) (ri_end x)) eqn:Eo.
        * assert (Eov : ri_overlaps cmp r x = true).
          { unfold ri_overlaps, kmax, kmin.
            destruct (ltb (ri_start x) (ri_start r)) eqn:X1; destruct (ltb (ri_end x) (ri_end r)) eqn:X2; ord. }
          rewrite Eov. unfold bind at 1, modify at 1. rewrite rem_split by exact HAst.
          set (lefts := if ltb (ri_start x) (ri_start r) then [(mkRI (ri_start x) (key_before stp (ri_start r)) false, xv)] else []).
          set (rights := if ltb (ri_end r) (ri_end x) then [(mkRI (key_after stp (ri_end r)) (ri_end x) false, xv)] else []).
          assert (E1 : pb (ri_start r) (x, xv) = lefts).
          { unfold part_beforei, lefts. cbn [fst snd]. destruct (ltb (ri_start x) (ri_start r)) eqn:X; [|reflexivity].
            replace (ltb (ri_end x) (ri_start r)) with false by ord. reflexivity. }
          assert (E2 : pa (ri_end r) (x, xv) = rights).
          { unfold part_afteri, rights. cbn [fst snd]. destruct (ltb (ri_end r) (ri_end x)) eqn:X; [|reflexivity].
            replace (ltb (ri_end r) (ri_start x)) with false by ord. reflexivity. }
          assert (HL1 : forall a, In a lefts -> fst a = mkRI (ri_start x) (key_before stp (ri_start r)) false /\ snd a = xv /\
                          ltb (en a) (ri_start r) = true /\ leb (ri_start x) (en a) = true).
          { intros a Ha. unfold lefts in Ha. destruct (ltb (ri_start x) (ri_start r)) eqn:X; [|destruct Ha]. destruct Ha as [<-|[]].
            destruct (before_some _ _ X) as (_ & P1 & P2). cbn. auto. }
          assert (HR1 : forall b, In b rights -> fst b = mkRI (key_after stp (ri_end r)) (ri_end x) false /\ snd b = xv /\
                          ltb (ri_end r) (st b) = true /\ leb (st b) (ri_end x) = true).
          { intros a Ha. unfold rights in Ha. destruct (ltb (ri_end r) (ri_end x)) eqn:X; [|destruct Ha]. destruct Ha as [<-|[]].
            destruct (after_some _ _ X) as (_ & P1 & P2). cbn. auto. }
          assert (S1 : (if ltb (ri_start x) (ri_start r)
                        then (p <- lift (step_o (sub_one stp (ri_start r))) ;;
                              modify (bt_insert c_start (incl (ri_start x) p) xv))%M else ret tt) (A ++ N)
                       = (Ret tt, (A ++ lefts) ++ N)).
          { unfold lefts. destruct (ltb (ri_start x) (ri_start r)) eqn:X; [|unfold ret; rewrite app_nil_r; reflexivity].
            destruct (before_some _ _ X) as (-> & P1 & P2). cbn [step_o]. unfold bind, lift.
            unfold modify. rewrite (ins_split A N); cbn [ri_start incl]; auto.
            - rewrite <- app_assoc. reflexivity.
            - intros t Ht. specialize (HxN1 t Ht). ord. }
          unfold bind at 1. rewrite S1.
          assert (HWlr : IWF ((A ++ lefts) ++ rights ++ N)).
          { assert (HWr : IWF (rights ++ N)).
            { apply IWF_app. splits; auto.
              - unfold rights. destruct (ltb (ri_end r) (ri_end x)) eqn:X; [|apply IWF_nil].
                destruct (after_some _ _ X) as (_ & P1 & P2). apply IWF_cons. splits; auto; [apply IWF_nil|intros ? []].
              - intros a b Ha Hb. destruct (HR1 a Ha) as (Q1 & Q2 & _). destruct (HxN b Hb) as [Q3 Q4].
                split; rewrite Q1, ?Q2; cbn; auto. }
            rewrite <- app_assoc. apply IWF_app.
            assert (HWl : IWF (lefts ++ rights ++ N)).
            { apply IWF_app. splits; auto.
              - unfold lefts. destruct (ltb (ri_start x) (ri_start r)) eqn:X; [|apply IWF_nil].
                destruct (before_some _ _ X) as (_ & P1 & P2). apply IWF_cons. splits; auto; [apply IWF_nil|intros ? []].
              - intros a b Ha Hb. destruct (HL1 a Ha) as (_ & _ & Q3 & Q4).
                assert (Hb1 : ltb (ri_start r) (st b) = true).
                { apply in_app_or in Hb as [Hb|Hb]; [destruct (HR1 b Hb) as (_ & _ & Q5 & _); ord|specialize (HxN1 b Hb); ord]. }
                split; [ord|]. rewrite (reaches_between _ _ (ri_start r)); [discriminate|ord|ord]. }
            splits; auto. intros a b Ha Hb.
            apply in_app_or in Hb as [Hb|Hb]; [|apply in_app_or in Hb as [Hb|Hb]].
            - destruct (HL1 b Hb) as (Q1 & Q2 & _). destruct (HAx a (x, xv) Ha (or_introl eq_refl)) as [H1 H2].
              cbn in H1, H2. split; rewrite Q1, ?Q2; cbn; auto.
            - destruct (HR1 b Hb) as (_ & _ & Q3 & _). pose proof (reaches_not _ _ (HA a Ha)) as H1.
              split; [ord|]. rewrite (reaches_between _ _ (ri_start r)); [discriminate|ord|ord].
            - apply HAx; auto. right; exact Hb. }
          assert (Hl : forall a, In a (A ++ lefts) -> ltb (en a) (ri_start r) = true).
          { intros a Ha. apply in_app_or in Ha as [Ha|Ha]; [apply reaches_not, HA, Ha|]. apply (HL1 a Ha). }
          assert (Hl' : forall a, In a (A ++ lefts) -> ltb (st a) (ri_start r) = true).
          { intros a Ha. specialize (Hl a Ha). apply IWF_app in HWlr as (HWl & _). pose proof (proj2 HWl a Ha). ord. }
          assert (S2 : (if gtb cmp (ri_end x) (ri_end r)
                        then (s <- lift (step_o (add_one stp (ri_end r))) ;;
                              modify (bt_insert c_start (incl s (ri_end x)) xv))%M else ret tt) ((A ++ lefts) ++ N)
                       = (Ret tt, (A ++ lefts) ++ rights ++ N)).
          { unfold rights, gtb. destruct (ltb (ri_end r) (ri_end x)) eqn:X; [|reflexivity].
            destruct (after_some _ _ X) as (-> & P1 & P2). cbn [step_o]. unfold bind, lift.
            unfold modify. rewrite (ins_split (A ++ lefts) N); cbn [ri_start incl]; auto.
            - intros a Ha. specialize (Hl' a Ha). ord.
            - intros t Ht. specialize (HxN1 t Ht). ord. }
          unfold bind at 1. rewrite S2. unfold ret at 1. rewrite ifinish_exact; auto.
          -- rewrite E1, E2, !filter_app.
             assert (E3 : filter (ijr r v) rights = [] /\ filter (fun e => negb (ijr r v e)) rights = rights /\
                          flat_map (pa (ri_end r)) rights = rights).
             { unfold rights. destruct (ltb (ri_end r) (ri_end x)) eqn:X; [|splits; reflexivity].
               cbn [filter flat_map]. unfold ijr. cbn [snd]. rewrite Ev. cbn [andb negb]. splits; auto.
               destruct (after_some _ _ X) as (_ & P1 & P2).
               unfold part_afteri. cbn [fst snd ri_start ri_end]. rewrite X, P1. reflexivity. }
             destruct E3 as (-> & -> & E3). rewrite flat_map_app, E3. cbn [app]. rewrite iwidened_right by exact HN.
             reflexivity.
          -- intros b Hb. apply in_app_or in Hb as [Hb|Hb]; [|auto].
             destruct (HR1 b Hb) as (_ & _ & Q & _). ord.
        * assert (Eov : ri_overlaps cmp r x = false).
          { unfold ri_overlaps, kmax, kmin.
            destruct (ltb (ri_start x) (ri_start r)) eqn:X1; destruct (ltb (ri_end x) (ri_end r)) eqn:X2; ord. }
          rewrite Eov. unfold ret at 1.
          assert (E1 : pb (ri_start r) (x, xv) = [(x, xv)]).
          { unfold part_beforei. cbn [fst snd]. replace (ltb (ri_start x) (ri_start r)) with true by ord.
            replace (ltb (ri_end x) (ri_start r)) with true by ord. reflexivity. }
          assert (E2 : pa (ri_end r) (x, xv) = []).
          { unfold part_afteri. cbn [fst snd]. replace (ltb (ri_end r) (ri_end x)) with false by ord. reflexivity. }
          replace (A ++ (x, xv) :: N) with ((A ++ [(x, xv)]) ++ N) by (rewrite <- app_assoc; reflexivity).
          rewrite ifinish_exact; auto.
          -- rewrite E1, E2, iwidened_right by exact HN. reflexivity.
          -- rewrite <- app_assoc. exact HW.
          -- intros a Ha. apply in_app_or in Ha as [Ha|[<-|[]]]; [apply reaches_not, HA, Ha|]. cbn [fst]. ord.
  Qed.

  (** ** [remove] *)
  Definition ilefts (x : rangei K) (xv : V) (r : rangei K) : imap K V :=
    if ltb (ri_start x) (ri_start r) then [(mkRI (ri_start x) (key_before stp (ri_start r)) false, xv)] else [].
  Definition irights (x : rangei K) (xv : V) (r : rangei K) : imap K V :=
    if ltb (ri_end r) (ri_end x) then [(mkRI (key_after stp (ri_end r)) (ri_end x) false, xv)] else [].
  Lemma ilefts_In x xv r a : In a (ilefts x xv r) ->
    st a = ri_start x /\ ltb (en a) (ri_start r) = true /\ leb (st a) (en a) = true.
  Proof.
    intros Ha. unfold ilefts in Ha. destruct (ltb (ri_start x) (ri_start r)) eqn:X; [|destruct Ha]. destruct Ha as [<-|[]].
    destruct (before_some _ _ X) as (_ & P1 & P2). cbn. auto.
  Qed.
  Lemma irights_In x xv r b : In b (irights x xv r) ->
    en b = ri_end x /\ ltb (ri_end r) (st b) = true /\ leb (st b) (en b) = true.
  Proof.
    intros Ha. unfold irights in Ha. destruct (ltb (ri_end r) (ri_end x)) eqn:X; [|destruct Ha]. destruct Ha as [<-|[]].
    destruct (after_some _ _ X) as (_ & P1 & P2). cbn. auto.
  Qed.
  Lemma cut_exact A x xv N r :
    (forall a, In a A -> ltb (st a) (ri_start x) = true) -> (forall b, In b N -> ltb (ri_end x) (st b) = true) ->
    leb (ri_start x) (ri_end x) = true -> leb (ri_start r) (ri_end r) = true -> leb (ri_start x) (ri_end r) = true ->
    im_adjust_overlapping_ranges_for_remove cmp stp x xv r (A ++ (x, xv) :: N) =
    (Ret tt, (A ++ ilefts x xv r) ++ irights x xv r ++ N).
  Proof.
    intros HA HN Hx Hr Hxr. unfold im_adjust_overlapping_ranges_for_remove.
    unfold bind at 1, modify at 1. rewrite rem_split by exact HA.
    assert (S1 : (if ltb (ri_start x) (ri_start r)
                  then (p <- lift (step_o (sub_one stp (ri_start r))) ;;
                        modify (bt_insert c_start (incl (ri_start x) p) xv))%M else ret tt) (A ++ N)
                 = (Ret tt, (A ++ ilefts x xv r) ++ N)).
    { unfold ilefts. destruct (ltb (ri_start x) (ri_start r)) eqn:X; [|unfold ret; rewrite app_nil_r; reflexivity].
      destruct (before_some _ _ X) as (-> & P1 & P2). cbn [step_o]. unfold bind, lift.
      unfold modify. rewrite (ins_split A N); cbn [ri_start incl]; auto.
      - rewrite <- app_assoc. reflexivity.
      - intros t Ht. specialize (HN t Ht). ord. }
    unfold bind at 1. rewrite S1. unfold irights, gtb.
    destruct (ltb (ri_end r) (ri_end x)) eqn:X; [|reflexivity].
    destruct (after_some _ _ X) as (-> & P1 & P2). cbn [step_o]. unfold bind, lift.
    unfold modify. rewrite (ins_split (A ++ ilefts x xv r) N); cbn [ri_start incl]; auto.
    - intros a Ha. apply in_app_or in Ha as [Ha|Ha]; [specialize (HA a Ha); ord|].
      destruct (ilefts_In _ _ _ _ Ha) as (E & _). rewrite E. ord.
    - intros t Ht. specialize (HN t Ht). ord.
  Qed.

  Lemma iafter_idle B x : IWF B -> (forall b, In b B -> ltb x (st b) = true) -> flat_map (pa x) B = B.
  Proof.
    intros HW HB. apply flat_map_same. intros b Hb. specialize (HB b Hb). pose proof (proj2 HW b Hb).
    unfold part_afteri. replace (ltb x (en b)) with true by ord. rewrite HB. reflexivity.
  Qed.
  Lemma iremove_loop_exact r : forall B A fuel,
    leb (ri_start r) (ri_end r) = true -> length B + 1 <= fuel -> IWF B ->
    (forall a, In a A -> leb (st a) (ri_start r) = true) ->
    (forall b, In b B -> ltb (ri_start r) (st b) = true) ->
    im_remove_loop cmp stp fuel r (incl (ri_end r) (ri_end r)) (A ++ B) = (Ret tt, A ++ flat_map (pa (ri_end r)) B).
  Proof.
    intros B. induction B as [|e T IH]; intros A fuel Hv Hfuel HWB HA HB; (destruct fuel as [|fuel]; [nlia|]);
      cbn [im_remove_loop]; unfold bind at 1, get at 1, bind at 1, lift at 1;
      (rewrite range_after; [|exact HA|exact HB|exact Hv]).
    - reflexivity.
    - pose proof HWB as HWB0. apply IWF_cons in HWB0 as (He & HWT & HeT).
      destruct e as [x xv]. cbn [fst snd] in *.
      assert (Hxs : ltb (ri_start r) (ri_start x) = true) by (apply (HB (x, xv)); left; reflexivity).
      assert (HxT : forall t, In t T -> ltb (ri_end x) (st t) = true) by (intros t Ht; apply (HeT t Ht)).
      assert (HTs : forall t, In t T -> ltb (ri_start r) (st t) = true) by (intros; apply HB; right; auto).
      cbn [take_while ri_start fst incl]. destruct (leb (ri_start x) (ri_end r)) eqn:Elt.
      + cbn [it_next fst]. unfold bind at 1. rewrite cut_exact; auto.
        2:{ intros a Ha. specialize (HA a Ha). ord. }
        assert (E1 : ilefts x xv r = []).
        { unfold ilefts. destruct (ltb (ri_start x) (ri_start r)) eqn:E; [exfalso; ord|reflexivity]. }
        rewrite E1, app_nil_r. cbn [flat_map].
        assert (E2 : pa (ri_end r) (x, xv) = irights x xv r).
        { unfold part_afteri, irights. cbn [fst snd]. destruct (ltb (ri_end r) (ri_end x)); [|reflexivity].
          replace (ltb (ri_end r) (ri_start x)) with false by ord. reflexivity. }
        rewrite E2. pose proof (irights_In x xv r) as HP. unfold irights in *.
        destruct (ltb (ri_end r) (ri_end x)) eqn:E3; cbn [app].
        * destruct fuel as [|fuel]; [nlia|]. cbn [im_remove_loop].
          unfold bind at 1, get at 1, bind at 1, lift at 1.
          destruct (HP _ (or_introl eq_refl)) as (_ & P1 & _). cbn [fst ri_start] in P1.
          rewrite range_after; auto.
          2:{ intros b [<-|Hb]; [cbn; ord|auto]. }
          cbn [take_while ri_start fst incl]. replace (leb (key_after stp (ri_end r)) (ri_end r)) with false by ord.
          cbn [it_next fst]. unfold ret. rewrite iafter_idle; auto. intros b Hb. specialize (HxT b Hb). ord.
        * apply IH; auto. nlia.
      + cbn [it_next fst]. unfold ret. rewrite iafter_idle; auto.
        intros b [<-|Hb]; [cbn; ord|]. specialize (HxT b Hb). ord.
  Qed.

  Lemma iremove_exact m r : IWF m -> leb (ri_start r) (ri_end r) = true ->
    im_remove cmp stp r m = (Ret tt, del r m).
  Proof.
    intros HW Hv. destruct (isplit_le m r HW) as (L & N & -> & HL & HN & HR).
    pose proof HW as HW0. apply IWF_app in HW0 as (HWL & HWN & HLN).
    unfold im_remove. unfold bind at 1, assert_. rewrite Hv. unfold ret at 1.
    unfold bind at 1, get at 1, bind at 1, lift at 1. rewrite HR.
    assert (HNb : flat_map (pb (ri_start r)) N = []).
    { apply flat_map_none. intros b Hb. specialize (HN b Hb). unfold part_beforei.
      replace (ltb (st b) (ri_start r)) with false by ord. reflexivity. }
    unfold deli_entries. rewrite !flat_map_app, HNb, app_nil_r. unfold bind at 1.
    destruct (rev_cases L) as [->|(L' & [x xv] & ->)].
    - rewrite last_opt_nil. unfold ret at 1. unfold bind at 1, get at 1.
      rewrite iremove_loop_exact; auto; try nlia.
    - rewrite last_opt_app.
      pose proof HWL as HWL0. apply IWF_app in HWL0 as (HWL' & HWx & HL'x).
      pose proof HWx as HWx0. apply IWF_cons in HWx0 as (Hx & _ & _). cbn in Hx.
      assert (Hxs : leb (ri_start x) (ri_start r) = true).
      { apply (HL (x, xv)). apply in_or_app; right; left; reflexivity. }
      assert (HL'e : forall a, In a L' -> ltb (en a) (ri_start x) = true).
      { intros a Ha. apply (HL'x a (x, xv) Ha (or_introl eq_refl)). }
      assert (HL's : forall a, In a L' -> ltb (st a) (ri_start x) = true).
      { intros a Ha. specialize (HL'e a Ha). pose proof (proj2 HWL' a Ha). ord. }
      assert (P1 : flat_map (pb (ri_start r)) L' = L').
      { apply flat_map_same. intros a Ha. specialize (HL'e a Ha). specialize (HL's a Ha). unfold part_beforei.
        replace (ltb (st a) (ri_start r)) with true by ord. replace (ltb (en a) (ri_start r)) with true by ord. reflexivity. }
      assert (P2 : flat_map (pa (ri_end r)) L' = []).
      { apply flat_map_none. intros a Ha. specialize (HL'e a Ha). unfold part_afteri.
        replace (ltb (ri_end r) (en a)) with false by ord. reflexivity. }
      rewrite !flat_map_app, P1, P2. cbn [flat_map app]. rewrite !app_nil_r.
      assert (Eov : ri_overlaps cmp x r = leb (ri_start r) (ri_end x)).
      { unfold ri_overlaps, kmax, kmin.
        destruct (ltb (ri_start r) (ri_start x)) eqn:X1; destruct (ltb (ri_end r) (ri_end x)) eqn:X2; ord. }
      rewrite Eov. destruct (leb (ri_start r) (ri_end x)) eqn:Eo.
      + assert (HxN : forall b, In b N -> isep (x, xv) b).
        { intros b Hb. apply (HLN (x, xv) b); auto. apply in_or_app; right; left; reflexivity. }
        assert (HxN1 : forall b, In b N -> ltb (ri_end x) (st b) = true) by (intros b Hb; apply (HxN b Hb)).
        assert (Q1 : pb (ri_start r) (x, xv) = ilefts x xv r).
        { unfold part_beforei, ilefts. cbn [fst snd]. destruct (ltb (ri_start x) (ri_start r)) eqn:X; [|reflexivity].
          replace (ltb (ri_end x) (ri_start r)) with false by ord. reflexivity. }
        assert (Q2 : pa (ri_end r) (x, xv) = irights x xv r).
        { unfold part_afteri, irights. cbn [fst snd]. destruct (ltb (ri_end r) (ri_end x)) eqn:X; [|reflexivity].
          replace (ltb (ri_end r) (ri_start x)) with false by ord. reflexivity. }
        rewrite Q1, Q2. rewrite <- app_assoc. cbn [app].
        rewrite cut_exact by (auto; ord). unfold bind at 1, get at 1.
        assert (HA1 : forall a, In a (L' ++ ilefts x xv r) -> leb (st a) (ri_start r) = true).
        { intros a Ha. apply in_app_or in Ha as [Ha|Ha]; [specialize (HL's a Ha); ord|].
          destruct (ilefts_In _ _ _ _ Ha) as (-> & _). exact Hxs. }
        assert (HB1 : forall b, In b (irights x xv r ++ N) -> ltb (ri_start r) (st b) = true).
        { intros b Hb. apply in_app_or in Hb as [Hb|Hb]; [|auto]. destruct (irights_In _ _ _ _ Hb) as (_ & P & _). ord. }
        rewrite iremove_loop_exact; auto.
        * rewrite flat_map_app. do 3 f_equal. pose proof (irights_In x xv r) as HP. unfold irights in *.
          destruct (ltb (ri_end r) (ri_end x)) eqn:X; [|reflexivity].
          destruct (HP _ (or_introl eq_refl)) as (_ & P3 & _). cbn [fst ri_start] in P3.
          cbn [flat_map]. unfold part_afteri. cbn [fst snd ri_start ri_end]. rewrite X, P3. reflexivity.
        * nlia.
        * apply IWF_app. splits; auto.
          -- pose proof (irights_In x xv r) as HP. unfold irights in *. destruct (ltb (ri_end r) (ri_end x)) eqn:X; [|apply IWF_nil].
             destruct (HP _ (or_introl eq_refl)) as (_ & _ & P3). apply IWF_cons. splits; auto; [apply IWF_nil|intros ? []].
          -- intros a b Ha Hb. destruct (irights_In _ _ _ _ Ha) as (P3 & _). destruct (HxN b Hb) as [P4 P5].
             assert (P6 : snd a = xv) by (unfold irights in Ha; destruct (ltb (ri_end r) (ri_end x)); [destruct Ha as [<-|[]]; reflexivity|destruct Ha]).
             split; rewrite P3, ?P6; auto.
      + unfold ret at 1. unfold bind at 1, get at 1.
        assert (Q1 : pb (ri_start r) (x, xv) = [(x, xv)]).
        { unfold part_beforei. cbn [fst snd]. replace (ltb (ri_start x) (ri_start r)) with true by ord.
          replace (ltb (ri_end x) (ri_start r)) with true by ord. reflexivity. }
        assert (Q2 : pa (ri_end r) (x, xv) = []).
        { unfold part_afteri. cbn [fst snd]. replace (ltb (ri_end r) (ri_end x)) with false by ord. reflexivity. }
        rewrite Q1, Q2. rewrite iremove_loop_exact; auto. nlia.
  Qed.

  (** ** Histories *)
  Notation valid := (valid_rangei cmp).
  Notation eop := (entries_op valid put del).
  Notation run := (im_run cmp veqb stp).
  Lemma valid_le r : valid r = leb (ri_start r) (ri_end r).
  Proof. unfold valid_rangei. ord. Qed.
  Lemma exact_iinsert ops r v : valid r = true -> im_insert cmp veqb stp r v (run ops) = (Ret tt, put r v (run ops)).
  Proof. rewrite valid_le. apply iinsert_exact, run_IWF. Qed.
  Lemma exact_iremove ops r : valid r = true -> im_remove cmp stp r (run ops) = (Ret tt, del r (run ops)).
  Proof. rewrite valid_le. apply iremove_exact, run_IWF. Qed.
  Lemma iinsert_bad r v m : valid r = false -> snd (im_insert cmp veqb stp r v m) = m /\ fst (im_insert cmp veqb stp r v m) <> Ret tt.
  Proof. rewrite valid_le. intros E. unfold im_insert, bind at 1 3, assert_. rewrite E. cbn. split; [reflexivity|discriminate]. Qed.
  Lemma run_snoc ops o : run (ops ++ [o]) = snd (im_exec cmp veqb stp o (run ops)).
  Proof. unfold im_run, run_ops. rewrite fold_left_app. reflexivity. Qed.
  Lemma iexec_exact o : forall ops, snd (im_exec cmp veqb stp o (run ops)) = eop (run ops) o.
  Proof.
    destruct o as [r v|r| |l]; intros ops; cbn [im_exec entries_op].
    - destruct (valid r) eqn:E; [rewrite exact_iinsert by exact E; reflexivity|]. apply iinsert_bad, E.
    - destruct (valid r) eqn:E; [rewrite exact_iremove by exact E; reflexivity|].
      unfold im_remove, bind at 1, assert_. rewrite valid_le in E. rewrite E. reflexivity.
    - reflexivity.
    - unfold im_extend. revert ops. induction l as [|[r v] l IH]; intros ops; cbn [for_each put_each fst snd]; [reflexivity|].
      unfold bind at 1. destruct (valid r) eqn:E.
      + rewrite exact_iinsert by exact E. specialize (IH (ops ++ [OInsert r v])). rewrite run_snoc in IH. cbn [im_exec] in IH.
        rewrite exact_iinsert in IH by exact E. exact IH.
      + destruct (iinsert_bad r v (run ops) E) as [H1 H2].
        destruct (im_insert cmp veqb stp r v (run ops)) as [[[]| |] m]; cbn [fst snd] in *; try congruence. 
  Qed.
  Lemma exact_irun ops : run ops = entries_run valid put del ops.
  Proof.
    unfold entries_run. induction ops as [|o ops IH] using rev_ind; [reflexivity|].
    rewrite run_snoc, iexec_exact, fold_left_app, <- IH. reflexivity.
  Qed.

  (** ** Putting in entries that do not meet what is there *)
  Definition iapart (a b : entry) : Prop := isep a b \/ isep b a.
  Lemma iput_apart r v m : IWF m -> leb (ri_start r) (ri_end r) = true ->
    (forall e, In e m -> iapart e (r, v)) ->
    exists A B, m = A ++ B /\ put r v m = A ++ (r, v) :: B.
  Proof.
    intros HW Hv Hap. destruct (isplit_le m r HW) as (L & N & -> & HL & HN & _).
    pose proof HW as HW0. apply IWF_app in HW0 as (HWL & HWN & _).
    exists L, N. split; [reflexivity|].
    assert (HLs : forall a, In a L -> isep a (r, v)).
    { intros a Ha. destruct (Hap a (in_or_app _ _ _ (or_introl Ha))) as [H|[H _]]; [exact H|].
      exfalso. cbn [fst] in H. specialize (HL a Ha). ord. }
    assert (HNs : forall b, In b N -> isep (r, v) b).
    { intros b Hb. destruct (Hap b (in_or_app _ _ _ (or_intror Hb))) as [[H _]|H]; [|exact H].
      exfalso. cbn [fst] in H. specialize (HN b Hb). pose proof (proj2 HWN b Hb). ord. }
    assert (J : forall e, In e (L ++ N) -> joins r v e = false).
    { intros e He. unfold SpecExact.joinsi. apply in_app_or in He as [He|He].
      - destruct (HLs e He) as [H1 H2]. cbn [fst snd] in *. destruct (reaches (en e) (ri_start r)); [rewrite H2 by reflexivity; reflexivity|].
        rewrite andb_false_r. reflexivity.
      - destruct (HNs e He) as [H1 H2]. cbn [fst snd] in *. destruct (reaches (ri_end r) (st e)); [|apply andb_false_r].
        rewrite (veq_diff_sym HV v (snd e)) by (apply H2; reflexivity). reflexivity. }
    unfold puti_entries. rewrite (filter_never (joins r v)) by exact J.
    rewrite filter_always by (intros e He; rewrite (J e He); reflexivity).
    rewrite !flat_map_app.
    rewrite (flat_map_same (pb (ri_start r)) L), (flat_map_none (pb (ri_start r)) N), (flat_map_none (pa (ri_end r)) L), (iafter_idle N); auto.
    - rewrite app_nil_r. destruct r; reflexivity.
    - intros b Hb. apply (HNs b Hb).
    - intros a Ha. destruct (HLs a Ha) as [H1 _]. cbn [fst] in H1. unfold part_afteri.
      replace (ltb (ri_end r) (en a)) with false by ord. reflexivity.
    - intros b Hb. specialize (HN b Hb). unfold part_beforei. replace (ltb (st b) (ri_start r)) with false by ord. reflexivity.
    - intros a Ha. destruct (HLs a Ha) as [H1 _]. cbn [fst] in H1. pose proof (proj2 HWL a Ha). unfold part_beforei.
      replace (ltb (st a) (ri_start r)) with true by ord. rewrite H1. reflexivity.
  Qed.

  Lemma isorted_unique (a : imap K V) : forall b, IWF a -> IWF b -> Permutation a b -> a = b.
  Proof.
    induction a as [|x a IH]; intros b Ha Hb HP; [apply Permutation_nil in HP; auto|].
    destruct b as [|y b]; [apply Permutation_sym, Permutation_nil in HP; discriminate|].
    apply IWF_cons in Ha as (Hx & Ha & Hxa). apply IWF_cons in Hb as (Hy & Hb & Hyb).
    assert (E : x = y).
    { assert (H1 : In x (y :: b)) by (apply (Permutation_in _ HP); left; reflexivity).
      assert (H2 : In y (x :: a)) by (apply (Permutation_in _ (Permutation_sym HP)); left; reflexivity).
      destruct H1 as [H1|H1]; [auto|]. destruct H2 as [H2|H2]; [auto|].
      destruct (Hyb x H1) as [H3 _]. destruct (Hxa y H2) as [H4 _]. exfalso. ord. }
    subst y. f_equal. apply IH; auto. apply Permutation_cons_inv in HP. exact HP.
  Qed.
  Lemma iapart_all m : IWF m -> forall a b, In a m -> In b m -> a = b \/ iapart a b.
  Proof.
    intros [HS0 _]. induction HS0 as [|x m HS0 IH HF]; [intros a b []|].
    rewrite Forall_forall in HF.
    intros a b [<-|Ha] [<-|Hb]; auto; right; [left|right]; auto.
  Qed.
  Lemma IWF_NoDup m : IWF m -> NoDup m.
  Proof.
    induction m as [|x m IH]; intros HW; constructor; apply IWF_cons in HW as (H1 & H2 & H3); auto.
    intros Hin. destruct (H3 x Hin) as [H4 _]. ord.
  Qed.
  Lemma irebuild_from l : forall ops m, IWF m -> Permutation (run ops ++ l) m ->
    for_each (fun e => im_insert cmp veqb stp (fst e) (snd e)) l (run ops) = (Ret tt, m).
  Proof.
    induction l as [|[r v] l IH]; intros ops m HWm HP; cbn [for_each fst snd].
    - rewrite app_nil_r in HP. rewrite (isorted_unique _ m (run_IWF ops) HWm HP). reflexivity.
    - assert (Hin : In (r, v) m) by (apply (Permutation_in _ HP), in_or_app; right; left; reflexivity).
      assert (Hv : leb (ri_start r) (ri_end r) = true) by (apply (proj2 HWm (r, v) Hin)).
      assert (Hnd : NoDup (run ops ++ (r, v) :: l)) by (apply (Permutation_NoDup (Permutation_sym HP)), IWF_NoDup, HWm).
      destruct (iput_apart r v (run ops) (run_IWF ops) Hv) as (A & B & E0 & E).
      + intros e He. destruct (iapart_all m HWm e (r, v)) as [->|H]; auto.
        * apply (Permutation_in _ HP), in_or_app. left. exact He.
        * exfalso. apply NoDup_remove_2 in Hnd. apply Hnd, in_or_app. left. exact He.
      + unfold bind at 1. specialize (IH (ops ++ [OInsert r v]) m HWm). rewrite run_snoc in IH. cbn [im_exec] in IH.
        rewrite <- valid_le in Hv. rewrite exact_iinsert in IH |- * by exact Hv. cbn [snd] in IH. apply IH.
        rewrite E. rewrite <- HP, E0. rewrite <- !app_assoc. apply Permutation_app_head.
        apply Permutation_cons_app. reflexivity.
  Qed.
  Lemma exact_irebuild ops l : Permutation l (run ops) -> im_from_iter cmp veqb stp l = Ret (run ops).
  Proof.
    intros HP. unfold im_from_iter, im_extend. change im_new with (run []).
    rewrite (irebuild_from l [] (run ops) (run_IWF ops)) by exact HP. reflexivity.
  Qed.
End Exact.
