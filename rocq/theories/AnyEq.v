(** [RangeMap] with an arbitrary [==] on values: no law is assumed of [veqb].
    The invariant without its clause about values is [WF] for the [==] that is
    always false ([WW]); [remove] and the queries do not call [==], so their
    lemmas apply as they are, and only [insert] is redone here. *)
From Coq Require Import List Bool Sorting.Sorted Lia ZArith.
From Verif Require Import Order Outcome BTree Ranges History Spec MapModel ListLemmas MapProofs MapRemove.
Import ListNotations.

Section AnyEq.
  Context {K V : Type} {cmp : K -> K -> comparison} {veqb : V -> V -> bool}.
  Context (HO : TotalOrd cmp).

  Notation ltb := (ltb cmp).
  Notation leb := (leb cmp).
  Notation eqb := (eqb cmp).
  Notation c_start := (cmp_start cmp).
  Notation entry := (range K * V)%type.
  Notation st e := (r_start (fst e)).
  Notation en e := (r_end (fst e)).
  Notation never := (fun _ _ : V => false).
  Notation WW := (@WF K V cmp never).
  Notation lk := (@lk K V cmp).
  Notation ov := (@ov K V cmp).
  Notation cut_left := (@cut_left K V cmp).
  Notation cut_right := (@cut_right K V cmp).

  Lemma never_per : PartialEquiv never.
  Proof. split; intros; discriminate. Qed.

  (** what one insertion of [nv] may make of the value at a key; [c]: the key is
      in the stored entry that holds the inserted range *)
  Definition absorbed (c : bool) (nv : V) (a b : option V) : Prop :=
    a = b \/ c = true /\ exists w, b = Some w /\ veqb w nv = true /\ a = Some nv.
  Lemma ab_refl i nv a : absorbed i nv a a.
  Proof. left; reflexivity. Qed.
  Lemma ab_trans i nv a b c : absorbed i nv a b -> absorbed i nv b c -> absorbed i nv a c.
  Proof.
    intros [-> | (I0 & w & -> & E & ->)] H; [exact H|].
    destruct H as [<- | (I1 & w' & -> & E' & E2)]; right; (split; [exact I0|]); [exists w; auto|exists w'; auto].
  Qed.
  Lemma ab_weak (i j : bool) nv a b : (i = true -> j = true) -> absorbed i nv a b -> absorbed j nv a b.
  Proof. intros H [-> | (I0 & E)]; [left; reflexivity|right; auto]. Qed.

  (** everything in [A] ends by the start of [new] *)
  Definition lefts (A : rmap K V) (new : range K) : Prop := forall a, In a A -> leb (en a) (r_start new) = true.
  Definition rights (B : rmap K V) (x : K) : Prop := forall b, In b B -> leb x (st b) = true.

  Lemma lefts_lt A new : WW A -> lefts A new -> forall a, In a A -> ltb (st a) (r_start new) = true.
  Proof. intros [_ HN] HL a Ha. specialize (HL a Ha). pose proof (HN a Ha). ord. Qed.
  Lemma rights_cons (e : entry) T x : WW (e :: T) -> leb x (st e) = true -> rights (e :: T) x.
  Proof.
    intros HW H1 b [<-|Hb]; [exact H1|]. apply WF_cons in HW as (Hn & _ & Hs).
    destruct (Hs b Hb) as [H3 _]. ord.
  Qed.
  Lemma sep0 (a b : entry) : leb (en a) (st b) = true -> @sep K V cmp never a b.
  Proof. intros H. split; [exact H|reflexivity]. Qed.

  Lemma loop_any nv end0 : forall B A new fuel,
    length B + 2 <= fuel ->
    WW (A ++ B) ->
    lefts A new -> rights B (r_start new) ->
    ltb (r_start new) (r_end new) = true ->
    leb (r_start end0) (r_end new) = true -> leb (r_start new) (r_start end0) = true ->
    (eqb (r_start end0) (r_end new) = true \/
     (rights B (r_end new) /\ forall b, In b B -> ltb (r_start end0) (st b) = true)) ->
    exists new' B',
      rm_insert_loop cmp veqb fuel new nv end0 (A ++ B) = (Ret new', A ++ B') /\
      r_start new' = r_start new /\ leb (r_end new) (r_end new') = true /\
      WW (A ++ B') /\ rights B' (r_end new') /\
      length B' <= length B /\
      (forall k, absorbed (r_contains cmp new' k) nv (ov new' nv B' k) (ov new nv B k)).
  Proof.
    induction B as [|e T IH]; intros A new fuel Hfuel HW HL HB Hne He0 He1 Hr.
    - destruct fuel as [|fuel]; [nlia|].
      exists new, []. cbn [rm_insert_loop]. unfold bind, get, lift.
      assert (HWA : WW A) by (rewrite app_nil_r in HW; exact HW).
      rewrite (range_incl HO); cbn [r_start]; auto.
      + cbn. splits; auto; try ord; try (intros b []); try (intros; apply ab_refl).
      + intros a Ha. apply (lefts_lt A new HWA HL a Ha).
    - destruct fuel as [|fuel]; [nlia|].
      pose proof HW as HW0. apply WF_app in HW0 as (HWA & HWB & HAB).
      pose proof HWB as HWB0. apply WF_cons in HWB0 as (Hen & HWT & HeT).
      assert (Hse : leb (r_start new) (st e) = true) by (apply HB; left; reflexivity).
      cbn [rm_insert_loop]. unfold bind at 1, get at 1, bind at 1, lift at 1.
      rewrite (range_incl HO); cbn [r_start]; auto.
      2:{ intros a Ha. apply (lefts_lt A new HWA HL a Ha). }
      cbn [take_while].
      destruct (leb (st e) (r_start end0)) eqn:Ele.
      2:{ cbn. exists new, (e :: T). splits; auto; try ord; try (intros; apply ab_refl).
          destruct Hr as [Hr|[Hr _]]; [|exact Hr]. apply rights_cons; [exact HWB|ord]. }
      assert (Hend : eqb (r_start end0) (r_end new) = true).
      { destruct Hr as [Hr|[_ Hr]]; [exact Hr|]. specialize (Hr e (or_introl eq_refl)). exfalso; ord. }
      clear Hr.
      cbn [it_next fst]. destruct e as [b bv]. cbn [fst snd] in *.
      destruct (eqb (r_start b) (r_end new) && negb (veqb bv nv)) eqn:Ebrk.
      + apply andb_prop in Ebrk as [E1 E2].
        cbn. exists new, ((b, bv) :: T). splits; auto; try ord; try (intros; apply ab_refl).
        apply rights_cons; [exact HWB|cbn; ord].
      + unfold rm_adjust_touching_ranges_for_insert.
        assert (HAb : forall a, In a A -> ltb (st a) (r_start b) = true).
        { intros a Ha. apply (WF_sep_lt HO (A ++ (b, bv) :: T) a (b, bv) HW);
            auto using in_or_app, in_eq. }
        assert (HWAT : WW (A ++ T)).
        { apply WF_app. splits; auto; try apply HWA; try apply HWT;
            intros; apply HAB; auto; right; auto. }
        assert (HTb : rights T (r_end b)) by (intros t Ht; apply (HeT t Ht)).
        destruct (veqb bv nv) eqn:Eeq.
        * unfold bind at 1, modify at 1, bind at 1, ret at 1.
          rewrite (bt_remove_split' HO) by exact HAb.
          set (new1 := mkR (kmin cmp (r_start new) (r_start b)) (kmax cmp (r_end new) (r_end b))).
          assert (Es : r_start new1 = r_start new).
          { unfold new1, kmin; cbn. destruct (ltb (r_start b) (r_start new)) eqn:E; [exfalso; ord|reflexivity]. }
          assert (Ee : leb (r_end new) (r_end new1) = true /\ leb (r_end b) (r_end new1) = true /\
                       (r_end new1 = r_end new \/ r_end new1 = r_end b)).
          { unfold new1, kmax; cbn. destruct (ltb (r_end b) (r_end new)) eqn:E; splits; auto; ord. }
          destruct Ee as (Ee1 & Ee2 & Ee3).
          destruct (IH A new1 fuel) as (new' & B' & I1 & I2 & I3 & I4 & I5 & I6 & I8).
          -- nlia.
          -- exact HWAT.
          -- intros a Ha. rewrite Es. apply HL; exact Ha.
          -- intros t Ht. rewrite Es. apply HB. right; exact Ht.
          -- rewrite Es. ord.
          -- ord.
          -- rewrite Es. exact He1.
          -- destruct (ltb (r_end new) (r_end b)) eqn:Elt.
             ++ right. assert (E3 : r_end new1 = r_end b)
                  by (destruct Ee3 as [E|E]; [exfalso; rewrite E in *; ord|exact E]).
                rewrite E3. split; [exact HTb|]. intros t Ht. specialize (HTb t Ht). ord.
             ++ left. destruct Ee3 as [E|E]; rewrite E in *; ord.
          -- exists new', B'. rewrite I1. splits; auto; try congruence; try ord; [nlia|].
             intros k. eapply ab_trans; [apply I8|].
             unfold MapProofs.ov. cbn [MapProofs.lk]. unfold r_contains in *. rewrite Es.
             destruct (leb (r_start new) k && ltb k (r_end new)) eqn:C1.
             ++ assert (E6 : leb (r_start new) k && ltb k (r_end new1) = true) by ord.
                rewrite E6. apply ab_refl.
             ++ destruct (leb (r_start b) k && ltb k (r_end b)) eqn:C2.
                ** assert (E6 : leb (r_start new) k && ltb k (r_end new1) = true) by ord.
                   rewrite E6. right. rewrite I2, Es. split; [ord|]. exists bv. auto.
                ** assert (E6 : leb (r_start new) k && ltb k (r_end new1) = false).
                   { destruct Ee3 as [E|E]; rewrite E; ord. }
                   rewrite E6. apply ab_refl.
        * rewrite andb_true_r in Ebrk.
          assert (Hlt : ltb (r_start b) (r_end new) = true) by ord.
          assert (Eov : r_overlaps cmp new b = true).
          { unfold r_overlaps, kmax, kmin.
            destruct (ltb (r_start b) (r_start new)) eqn:X1; destruct (ltb (r_end b) (r_end new)) eqn:X2; ord. }
          rewrite Eov. unfold bind at 1, bind at 1, modify at 1.
          rewrite (bt_remove_split' HO) by exact HAb.
          assert (E1 : ltb (r_start b) (r_start new) = false) by ord. rewrite E1.
          unfold bind at 1, ret at 1. unfold gtb.
          destruct (ltb (r_end new) (r_end b)) eqn:E2.
          -- unfold bind at 1, modify at 1, ret at 1.
             rewrite (bt_insert_split HO A T); cbn [r_start].
             2:{ intros a Ha. specialize (HAb a Ha). ord. }
             2:{ intros t Ht. specialize (HTb t Ht). ord. }
             assert (HWp : WW ((mkR (r_end new) (r_end b), bv) :: T)).
             { apply WF_cons. splits; auto. }
             assert (HWAp : WW (A ++ (mkR (r_end new) (r_end b), bv) :: T)).
             { apply WF_app. splits; try apply HWA; try apply HWp; auto.
               intros a x Ha [<-|Hx]; [|apply HAB; auto; right; auto].
               specialize (HL a Ha). apply sep0. cbn; ord. }
             destruct fuel as [|fuel]; [nlia|].
             cbn [rm_insert_loop]. unfold bind at 1, get at 1, bind at 1, lift at 1.
             rewrite (range_incl HO); auto.
             2:{ intros a Ha. apply (lefts_lt A new HWA HL a Ha). }
             2:{ intros x [<-|Hx]; [cbn; ord|]. apply HB. right; exact Hx. }
             cbn [take_while fst r_start].
             assert (E3 : leb (r_end new) (r_start end0) = true) by ord. rewrite E3.
             cbn [it_next fst r_start].
             assert (E4 : eqb (r_end new) (r_end new) = true) by ord. rewrite E4, Eeq. cbn [negb andb].
             exists new, ((mkR (r_end new) (r_end b), bv) :: T). splits; auto; try ord.
             ++ apply rights_cons; [exact HWp|cbn; ord].
             ++ intros k. unfold MapProofs.ov. cbn [MapProofs.lk]. unfold r_contains. cbn [r_start r_end].
                destruct (leb (r_start new) k && ltb k (r_end new)) eqn:C1; [apply ab_refl|].
                assert (C2 : leb (r_end new) k && ltb k (r_end b) = leb (r_start b) k && ltb k (r_end b)) by ord.
                rewrite C2. apply ab_refl.
          -- unfold bind at 1, ret at 1, ret at 1.
             destruct (IH A new fuel) as (new' & B' & I1 & I2 & I3 & I4 & I5 & I6 & I8); auto.
             ++ nlia.
             ++ intros t Ht. apply HB. right; exact Ht.
             ++ exists new', B'. rewrite I1. splits; auto; [nlia|].
                intros k. eapply ab_trans; [apply I8|].
                unfold MapProofs.ov. cbn [MapProofs.lk]. unfold r_contains.
                destruct (leb (r_start new) k && ltb k (r_end new)) eqn:C1; [apply ab_refl|].
                assert (C2 : leb (r_start b) k && ltb k (r_end b) = false) by ord.
                rewrite C2. apply ab_refl.
  Qed.

  (** result of the first half of [insert] *)
  Definition phase1 (m : rmap K V) (r : range K) (nv : V) (new1 : range K) (A B : rmap K V) : Prop :=
    WW (A ++ B) /\ lefts A new1 /\ rights B (r_start new1) /\
    leb (r_start new1) (r_start r) = true /\ leb (r_end r) (r_end new1) = true /\
    length (A ++ B) <= length m + 1 /\
    (forall k, absorbed (r_contains cmp new1 k) nv (ov new1 nv (A ++ B) k) (ov r nv m k)).

  Lemma adjust_any L x xv N r nv :
    WW (L ++ (x, xv) :: N) -> ltb (r_start r) (r_end r) = true ->
    leb (r_start x) (r_start r) = true -> leb (r_start r) (r_end x) = true ->
    (forall b, In b N -> leb (r_start r) (st b) = true) ->
    exists new1 A B,
      rm_adjust_touching_ranges_for_insert cmp veqb x xv r nv (L ++ (x, xv) :: N)
        = (Ret new1, A ++ B) /\
      phase1 (L ++ (x, xv) :: N) r nv new1 A B.
  Proof.
    intros HW Hv Hs He HN.
    pose proof HW as HW0. apply WF_app in HW0 as (HWL & HWx & HLx).
    pose proof HWx as HWx0. apply WF_cons in HWx0 as (Hx & HWN & HxN). cbn in Hx.
    assert (HLst : forall a, In a L -> ltb (st a) (r_start x) = true).
    { intros a Ha. apply (WF_sep_lt HO _ a (x, xv) HW); auto using in_or_app, in_eq. }
    assert (HLe : forall a, In a L -> leb (en a) (r_start x) = true).
    { intros a Ha. apply (HLx a (x, xv) Ha (or_introl eq_refl)). }
    assert (HxN' : forall b, In b N -> leb (r_end x) (st b) = true).
    { intros b Hb. apply (HxN b Hb). }
    unfold rm_adjust_touching_ranges_for_insert.
    destruct (veqb xv nv) eqn:Eeq.
    - unfold bind, modify, ret. rewrite (bt_remove_split' HO) by exact HLst.
      set (new1 := mkR (kmin cmp (r_start r) (r_start x)) (kmax cmp (r_end r) (r_end x))).
      exists new1, L, N. split; [reflexivity|].
      assert (E1 : eqb (r_start new1) (r_start x) = true).
      { unfold new1, kmin; cbn. destruct (ltb (r_start x) (r_start r)) eqn:E; ord. }
      assert (E2 : leb (r_end r) (r_end new1) = true /\ leb (r_end x) (r_end new1) = true /\
                   (r_end new1 = r_end r \/ r_end new1 = r_end x)).
      { unfold new1, kmax; cbn. destruct (ltb (r_end x) (r_end r)) eqn:E; splits; auto; ord. }
      destruct E2 as (E2 & E3 & E4).
      unfold phase1. splits; auto; try ord.
      + apply WF_app. splits; auto. intros a b Ha Hb. apply HLx; auto. right; exact Hb.
      + intros a Ha. specialize (HLe a Ha). ord.
      + intros b Hb. specialize (HN b Hb). ord.
      + nlia.
      + intros k. unfold MapProofs.ov. rewrite !lk_app. cbn [MapProofs.lk].
        unfold r_contains.
        destruct (leb (r_start r) k && ltb k (r_end r)) eqn:C1.
        * assert (C2 : leb (r_start new1) k && ltb k (r_end new1) = true) by ord.
          rewrite C2. apply ab_refl.
        * destruct (leb (r_start x) k && ltb k (r_end x)) eqn:C2.
          -- assert (C3 : leb (r_start new1) k && ltb k (r_end new1) = true) by ord.
             rewrite C3. rewrite (lk_below HO L k (r_start x)); auto; [|ord].
             right. split; [reflexivity|]. exists xv. auto.
          -- assert (C3 : leb (r_start new1) k && ltb k (r_end new1) = false).
             { destruct E4 as [E4|E4]; rewrite E4; ord. }
             rewrite C3. apply ab_refl.
    - assert (Eov : r_overlaps cmp r x = ltb (r_start r) (r_end x)).
      { unfold r_overlaps, kmax, kmin.
        destruct (ltb (r_start x) (r_start r)) eqn:X1; destruct (ltb (r_end x) (r_end r)) eqn:X2; ord. }
      rewrite Eov. destruct (ltb (r_start r) (r_end x)) eqn:Eo.
      + pose proof (adjust_remove_eq HO L x xv N r HW Hv ltac:(ord) Eo) as HA.
        unfold rm_adjust_overlapping_ranges_for_remove in HA.
        exists r, (L ++ cut_left x xv r), (cut_right x xv r ++ N). split.
        * revert HA. unfold bind, modify, ret.
          destruct (ltb (r_start x) (r_start r)), (gtb cmp (r_end x) (r_end r));
            intros HA; injection HA as HA; rewrite HA, <- !app_assoc; reflexivity.
        * assert (HA1 : lefts (L ++ cut_left x xv r) r).
          { intros a Ha. apply in_app_or in Ha as [Ha|Ha]; [specialize (HLe a Ha); ord|].
            unfold MapRemove.cut_left in Ha. destruct (ltb (r_start x) (r_start r)); [|destruct Ha].
            destruct Ha as [<-|[]]. cbn. ord. }
          assert (HB1 : rights (cut_right x xv r ++ N) (r_start r)).
          { intros b Hb. apply in_app_or in Hb as [Hb|Hb]; [|auto].
            unfold MapRemove.cut_right in Hb. destruct (ltb (r_end r) (r_end x)); [|destruct Hb].
            destruct Hb as [<-|[]]. cbn. ord. }
          unfold phase1. splits; auto; try ord.
          -- apply WF_app. splits.
             ++ apply cut_left_WF. apply WF_app. splits; auto.
                ** apply WF_cons. splits; [exact Hx|apply WF_nil|intros b []].
                ** intros a b Ha [<-|[]]. apply (HLx a (x, xv) Ha (or_introl eq_refl)).
             ++ apply cut_right_WF. exact HWx.
             ++ intros a b Ha Hb. specialize (HA1 a Ha). specialize (HB1 b Hb). apply sep0. ord.
          -- unfold MapRemove.cut_left, MapRemove.cut_right.
             destruct (ltb (r_start x) (r_start r)), (ltb (r_end r) (r_end x)); nlia.
          -- intros k. unfold MapProofs.ov. destruct (r_contains cmp r k) eqn:C1; [apply ab_refl|].
             left. rewrite !lk_app. destruct (lk L k); [reflexivity|].
             change ((x, xv) :: N) with ([(x, xv)] ++ N). rewrite lk_app.
             pose proof (lk_cut HO x xv r k Hv ltac:(ord) Eo) as Hc. rewrite C1, lk_app in Hc.
             rewrite <- Hc. destruct (lk (cut_left x xv r) k); reflexivity.
      + unfold ret. exists r, (L ++ [(x, xv)]), N.
        rewrite <- app_assoc. split; [reflexivity|].
        unfold phase1. rewrite <- app_assoc. cbn [app]. splits; auto; try ord.
        * intros a Ha. apply in_app_or in Ha as [Ha|[<-|[]]]; [specialize (HLe a Ha)|cbn]; ord.
        * nlia.
        * intros k. apply ab_refl.
  Qed.

  Lemma phase1_any m r nv :
    WW m -> ltb (r_start r) (r_end r) = true ->
    exists L, bt_range c_start Unbounded (Included r) m = Ret L /\
    exists new1 A B,
      (match filter (fun e => r_touches cmp (fst e) r) (firstn 2 (rev L)) with
       | [] => ret r
       | [(s, sv)] => rm_adjust_touching_ranges_for_insert cmp veqb s sv r nv
       | _ :: (s, sv) :: _ => rm_adjust_touching_ranges_for_insert cmp veqb s sv r nv
       end) m = (Ret new1, A ++ B) /\
      phase1 m r nv new1 A B.
  Proof.
    intros HW Hv. destruct (split_le HO m r HW) as (L & N & -> & HL & HN & HR).
    exists L. split; [exact HR|].
    pose proof HW as HW0. apply WF_app in HW0 as (HWL & HWN & HLN).
    destruct (rev_cases L) as [->|(L' & [x xv] & ->)].
    - cbn. exists r, [], N. split; [reflexivity|]. unfold phase1. cbn [app].
      splits; auto; try ord; try nlia.
      + intros a [].
      + intros b Hb. specialize (HN b Hb). ord.
      + intros k. apply ab_refl.
    - assert (Hxs : leb (r_start x) (r_start r) = true).
      { apply (HL (x, xv)). apply in_or_app; right; left; reflexivity. }
      pose proof HWL as HWL0. apply WF_app in HWL0 as (HWL' & HWx & HL'x).
      apply WF_cons in HWx as (Hx & _ & _). cbn in Hx.
      assert (HN' : forall b, In b N -> leb (r_start r) (st b) = true).
      { intros b Hb. specialize (HN b Hb). ord. }
      rewrite rev_app_distr. cbn [rev app]. rewrite <- app_assoc in *. cbn [app] in *.
      assert (Tx : r_touches cmp x r = leb (r_start r) (r_end x)) by (apply (touch_iff HO); auto).
      destruct (leb (r_start r) (r_end x)) eqn:Ex.
      + destruct (rev_cases L') as [->|(L'' & [y yv] & ->)].
        * cbn. rewrite Tx. cbn. destruct (adjust_any [] x xv N r nv) as (n1 & A & B & H1 & H2); auto.
          cbn [app] in H1. rewrite H1. exists n1, A, B. auto.
        * rewrite rev_app_distr. cbn [rev app firstn filter fst]. rewrite Tx.
          pose proof HWL' as HWL0. apply WF_app in HWL0 as (HWL'' & HWy & HL''y).
          apply WF_cons in HWy as (Hy & _ & _). cbn in Hy.
          destruct (HL'x (y, yv) (x, xv)) as [Hyx _];
            [apply in_or_app; right; left; reflexivity|left; reflexivity|]. cbn in Hyx.
          assert (Ty : r_touches cmp y r = leb (r_start r) (r_end y)) by (apply (touch_iff HO); auto; ord).
          rewrite Ty. destruct (leb (r_start r) (r_end y)) eqn:Ey.
          -- rewrite <- app_assoc in *. cbn [app] in *.
             destruct (adjust_any L'' y yv ((x, xv) :: N) r nv) as (n1 & A & B & H1 & H2); auto.
             ++ ord.
             ++ intros b [<-|Hb]; [cbn; ord|auto].
             ++ rewrite H1. exists n1, A, B. auto.
          -- destruct (adjust_any (L'' ++ [(y, yv)]) x xv N r nv) as (n1 & A & B & H1 & H2); auto.
             rewrite H1. exists n1, A, B. auto.
      + assert (HA : forall a, In a (L' ++ [(x, xv)]) -> ltb (en a) (r_start r) = true).
        { intros a Ha. apply in_app_or in Ha as [Ha|[<-|[]]]; [|cbn; ord].
          destruct (HL'x a (x, xv) Ha (or_introl eq_refl)) as [H1 _]. cbn in H1. ord. }
        assert (Hf : filter (fun e => r_touches cmp (fst e) r) (firstn 2 ((x, xv) :: rev L')) = []).
        { destruct (rev_cases L') as [->|(L'' & [y yv] & ->)]; cbn.
          - rewrite Tx. reflexivity.
          - rewrite rev_app_distr. cbn. rewrite Tx.
            assert (H1 : ltb (r_end y) (r_start r) = true)
              by (apply (HA (y, yv)); rewrite <- app_assoc; apply in_or_app; right; left; reflexivity).
            assert (H2 : ltb (r_start y) (r_end y) = true)
              by (apply (proj2 HWL' (y, yv)); apply in_or_app; right; left; reflexivity).
            rewrite (touch_iff HO) by (auto; ord).
            assert (H3 : leb (r_start r) (r_end y) = false) by ord. rewrite H3. reflexivity. }
        rewrite Hf. exists r, (L' ++ [(x, xv)]), N. rewrite <- app_assoc. split; [reflexivity|].
        unfold phase1. rewrite <- app_assoc. cbn [app]. splits; auto; try ord.
        * intros a Ha. specialize (HA a Ha). ord.
        * nlia.
        * intros k. apply ab_refl.
  Qed.

  Lemma insert_any m r v :
    WW m -> ltb (r_start r) (r_end r) = true ->
    exists m', rm_insert cmp veqb r v m = (Ret tt, m') /\ WW m' /\
      (exists n, In (n, v) m' /\ leb (r_start n) (r_start r) = true /\ leb (r_end r) (r_end n) = true /\
         forall k, absorbed (r_contains cmp n k) v (lk m' k) (ov r v m k)) /\
      length m' <= length m + 2.
  Proof.
    intros HW Hv. destruct (phase1_any m r v HW Hv) as (L & HR & n1 & A & B & H1 & H2).
    destruct H2 as (P1 & P2 & P3 & P4 & P5 & P6 & P9).
    unfold rm_insert. unfold bind at 1, assert_. rewrite Hv. unfold ret at 1.
    unfold bind at 1, get at 1, bind at 1, lift at 1. rewrite HR. unfold bind at 1. rewrite H1.
    unfold bind at 1, get at 1, bind at 1.
    assert (Hn1 : ltb (r_start n1) (r_end n1) = true) by ord.
    destruct (loop_any v (mkR (r_end n1) (r_end n1)) B A n1 (length (A ++ B) + 2))
      as (n2 & B' & I1 & I2 & I3 & I4 & I5 & I6 & I8); auto; cbn [r_start]; try ord.
    { nlia. }
    { left. ord. }
    rewrite I1. unfold modify.
    apply WF_app in I4 as (W1 & W2 & W3).
    assert (HA : forall a, In a A -> ltb (st a) (r_start n2) = true).
    { rewrite I2. apply (lefts_lt A n1 W1 P2). }
    assert (HB : forall b, In b B' -> ltb (r_start n2) (st b) = true).
    { intros b Hb. specialize (I5 b Hb). rewrite I2. ord. }
    rewrite (bt_insert_split HO) by assumption.
    assert (HWn : WW ((n2, v) :: B')).
    { apply WF_cons. splits; auto; [cbn; rewrite I2; ord|]. intros b Hb. apply sep0. apply I5; exact Hb. }
    exists (A ++ (n2, v) :: B'). split; [reflexivity|]. splits.
    - apply WF_app. splits; auto. intros a b Ha [<-|Hb]; [|auto].
      apply sep0. cbn. rewrite I2. apply P2; exact Ha.
    - exists n2. rewrite I2. splits; auto using in_or_app, in_eq; [ord|].
      intros k. eapply ab_trans.
      2:{ eapply ab_weak; [|apply P9]. unfold r_contains. rewrite I2. intros Hk. ord. }
      unfold MapProofs.ov.
      specialize (I8 k). unfold MapProofs.ov in I8. rewrite !lk_app. cbn [MapProofs.lk].
      unfold r_contains in *. rewrite I2 in *.
      destruct (leb (r_start n1) k) eqn:C1.
      + rewrite (lk_below HO A k (r_start n1)) by (auto; intros a Ha; apply (P2 a Ha)). exact I8.
      + cbn [andb]. rewrite (lk_above HO B' k (r_start n1)), (lk_above HO B k (r_start n1)).
        * apply ab_refl.
        * intros b Hb. apply P3; exact Hb.
        * ord.
        * intros b Hb. specialize (HB b Hb). ord.
        * ord.
    - nlia.
  Qed.

  (** ** Histories *)
  Lemma extend_any (l : list entry) : forall m, WW m -> WW (snd (rm_extend cmp veqb l m)).
  Proof.
    unfold rm_extend. induction l as [|[r v] l IH]; intros m HW; [exact HW|].
    cbn [for_each fst snd]. unfold bind. destruct (ltb (r_start r) (r_end r)) eqn:E.
    - destruct (insert_any m r v HW E) as (m' & H1 & H2 & _). rewrite H1. apply IH; exact H2.
    - rewrite insert_panics by exact E. exact HW.
  Qed.
  Lemma exec_any o m : WW m -> WW (snd (rm_exec cmp veqb o m)).
  Proof.
    intros HW. destruct o as [r v|r| |l]; cbn [rm_exec].
    - destruct (ltb (r_start r) (r_end r)) eqn:E.
      + destruct (insert_any m r v HW E) as (m' & H1 & H2 & _). rewrite H1. exact H2.
      + rewrite insert_panics by exact E. exact HW.
    - destruct (ltb (r_start r) (r_end r)) eqn:E.
      + destruct (remove_ok HO (veqb := never) m r HW E) as (m' & H1 & H2 & _). rewrite H1. exact H2.
      + rewrite remove_panics by exact E. exact HW.
    - apply WF_nil.
    - apply extend_any; exact HW.
  Qed.
  Lemma run_from_any ops : forall m, WW m -> WW (run_ops (rm_exec cmp veqb) ops m).
  Proof.
    induction ops as [|o ops IH]; intros m HW; [exact HW|]. cbn. apply IH, exec_any; exact HW.
  Qed.
  Lemma run_any ops : WW (rm_run cmp veqb ops).
  Proof. apply run_from_any, WF_nil. Qed.
End AnyEq.
