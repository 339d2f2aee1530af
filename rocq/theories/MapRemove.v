(** [remove] on the [RangeMap] model. *)
From Coq Require Import List Bool Sorting.Sorted Lia ZArith.
From Verif Require Import Order Outcome BTree Ranges History Spec MapModel ListLemmas MapProofs.
Import ListNotations.

Section Proofs.
  Context {K V : Type} {cmp : K -> K -> comparison} {veqb : V -> V -> bool}.
  Context (HO : TotalOrd cmp) (HV : PartialEquiv veqb).

  Notation ltb := (ltb cmp).
  Notation leb := (leb cmp).
  Notation eqb := (eqb cmp).
  Notation c_start := (cmp_start cmp).
  Notation c_end := (cmp_end cmp).
  Notation entry := (range K * V)%type.
  Notation st e := (r_start (fst e)).
  Notation en e := (r_end (fst e)).
  Notation WF := (@WF K V cmp veqb).
  Notation sep := (@sep K V cmp veqb).
  Notation lk := (@lk K V cmp).

  Definition cut_left (x : range K) (xv : V) (r : range K) : rmap K V :=
    if ltb (r_start x) (r_start r) then [(mkR (r_start x) (r_start r), xv)] else [].
  Definition cut_right (x : range K) (xv : V) (r : range K) : rmap K V :=
    if ltb (r_end r) (r_end x) then [(mkR (r_end r) (r_end x), xv)] else [].

  Lemma adjust_remove_eq L x xv N r :
    WF (L ++ (x, xv) :: N) -> ltb (r_start r) (r_end r) = true ->
    ltb (r_start x) (r_end r) = true -> ltb (r_start r) (r_end x) = true ->
    rm_adjust_overlapping_ranges_for_remove cmp x xv r (L ++ (x, xv) :: N) =
    (Ret tt, L ++ cut_left x xv r ++ cut_right x xv r ++ N).
  Proof.
    intros HW Hv H1 H2. pose proof HW as HW0. apply WF_app in HW0 as (HWL & HWx & HLx).
    apply WF_cons in HWx as (Hx & HWN & HxN). cbn in Hx.
    assert (HLst : forall a, In a L -> ltb (st a) (r_start x) = true).
    { intros a Ha. apply (WF_sep_lt HO _ a (x, xv) HW); auto using in_or_app, in_eq. }
    assert (HNst : forall b, In b N -> leb (r_end x) (st b) = true).
    { intros b Hb. apply (HxN b Hb). }
    unfold rm_adjust_overlapping_ranges_for_remove, cut_left, cut_right, gtb.
    unfold bind at 1, modify at 1. rewrite (bt_remove_split' HO) by exact HLst.
    unfold bind at 1. destruct (ltb (r_start x) (r_start r)) eqn:E1.
    - unfold modify at 1. rewrite (bt_insert_split HO); cbn [r_start]; auto.
      2:{ intros b Hb. specialize (HNst b Hb). ord. }
      destruct (ltb (r_end r) (r_end x)) eqn:E2; unfold modify, ret; [|reflexivity].
      change (L ++ (mkR (r_start x) (r_start r), xv) :: N)
        with (L ++ [(mkR (r_start x) (r_start r), xv)] ++ N).
      rewrite app_assoc. rewrite (bt_insert_split HO); cbn [r_start].
      + rewrite <- app_assoc. reflexivity.
      + intros a Ha. apply in_app_or in Ha as [Ha|[<-|[]]]; [specialize (HLst a Ha)|cbn]; ord.
      + intros b Hb. specialize (HNst b Hb). ord.
    - unfold ret at 1. destruct (ltb (r_end r) (r_end x)) eqn:E2; unfold modify, ret; [|reflexivity].
      rewrite (bt_insert_split HO); cbn [r_start].
      + reflexivity.
      + intros a Ha. specialize (HLst a Ha). ord.
      + intros b Hb. specialize (HNst b Hb). ord.
  Qed.

  (** pieces of a split entry relate to the neighbours as the entry did *)
  Lemma cut_right_WF x xv N r :
    WF ((x, xv) :: N) -> WF (cut_right x xv r ++ N).
  Proof.
    intros HW. apply WF_cons in HW as (Hx & HWN & HxN). unfold cut_right.
    destruct (ltb (r_end r) (r_end x)) eqn:E; [|exact HWN].
    apply WF_cons. splits; auto.
  Qed.
  Lemma cut_left_WF L x xv r :
    WF (L ++ [(x, xv)]) -> WF (L ++ cut_left x xv r).
  Proof.
    intros HW. apply WF_app in HW as (HWL & HWx & HLx). unfold cut_left.
    destruct (ltb (r_start x) (r_start r)) eqn:E; [|rewrite app_nil_r; exact HWL].
    apply WF_app. splits; auto.
    - apply WF_cons. splits; [exact E|apply WF_nil|intros b []].
    - intros a b Ha [<-|[]]. apply (HLx a (x, xv) Ha (or_introl eq_refl)).
  Qed.

  Lemma lk_cut x xv r k : ltb (r_start r) (r_end r) = true ->
    ltb (r_start x) (r_end r) = true -> ltb (r_start r) (r_end x) = true ->
    lk (cut_left x xv r ++ cut_right x xv r) k =
    if r_contains cmp r k then None else lk [(x, xv)] k.
  Proof.
    intros Hv H1 H2. unfold cut_left, cut_right.
    destruct (ltb (r_start x) (r_start r)) eqn:E1; destruct (ltb (r_end r) (r_end x)) eqn:E2;
      cbn [app MapProofs.lk]; unfold r_contains; cbn [r_start r_end].
    all: destruct (leb (r_start r) k && ltb k (r_end r)) eqn:C1;
      repeat match goal with
      | |- (if ?b then _ else _) = None =>
          let C := fresh "C" in destruct b eqn:C; [exfalso; ord|]
      end; try reflexivity.
    all: destruct (leb (r_start x) k && ltb k (r_end x)) eqn:C2;
      repeat match goal with
      | |- context [if ?b then _ else _] =>
          let C := fresh "C" in destruct b eqn:C; try reflexivity; try (exfalso; ord)
      end; try reflexivity; exfalso; ord.
  Qed.

  (** the part of the map right of [r]'s start while [remove] loops *)
  Lemma remove_loop_ok r : forall B A fuel,
    ltb (r_start r) (r_end r) = true ->
    length B + 1 <= fuel ->
    WF (A ++ B) ->
    (forall a, In a A -> leb (en a) (r_start r) = true) ->
    (forall b, In b B -> ltb (r_start r) (st b) = true) ->
    exists B',
      rm_remove_loop cmp fuel r (mkR (r_end r) (r_end r)) (A ++ B) = (Ret tt, A ++ B') /\
      WF (A ++ B') /\
      length B' <= length B /\
      (forall e, In e B -> leb (r_end r) (st e) = true -> In e B') /\
      (forall k, lk B' k = if r_contains cmp r k then None else lk B k).
  Proof.
    intros B. induction B as [|e T IH]; intros A fuel Hv Hfuel HW HA HB.
    - destruct fuel as [|fuel]; [nlia|].
      exists []. cbn [rm_remove_loop]. unfold bind at 1, get at 1, bind at 1, lift at 1.
      rewrite (range_excl HO); auto.
      + cbn. splits; auto. intros k. destruct (r_contains cmp r k); reflexivity.
      + intros a Ha. apply WF_app in HW as (HWA & _ & _).
        pose proof (proj2 HWA a Ha). specialize (HA a Ha). ord.
    - destruct fuel as [|fuel]; [nlia|].
      pose proof HW as HW0. apply WF_app in HW0 as (HWA & HWB & HAB).
      pose proof HWB as HWB0. apply WF_cons in HWB0 as (He & HWT & HeT).
      destruct e as [x xv]. cbn [fst snd] in *.
      assert (Hxs : ltb (r_start r) (r_start x) = true) by (apply (HB (x, xv)); left; reflexivity).
      cbn [rm_remove_loop]. unfold bind at 1, get at 1, bind at 1, lift at 1.
      rewrite (range_excl HO); auto.
      2:{ intros a Ha. pose proof (proj2 HWA a Ha). specialize (HA a Ha). ord. }
      cbn [take_while r_start fst].
      destruct (ltb (r_start x) (r_end r)) eqn:Elt.
      + cbn [it_next fst]. unfold bind at 1. rewrite adjust_remove_eq by (auto; ord).
        assert (E1 : cut_left x xv r = []).
        { unfold cut_left. destruct (ltb (r_start x) (r_start r)) eqn:E; [exfalso; ord|reflexivity]. }
        assert (HWAT : WF (A ++ T)).
        { apply WF_app. splits; auto. intros a b Ha Hb. apply HAB; auto. right; exact Hb. }
        assert (Hc : forall k, lk (cut_right x xv r) k =
                    if r_contains cmp r k then None else lk [(x, xv)] k).
        { intros k. rewrite <- lk_cut by (auto; ord). rewrite E1. reflexivity. }
        rewrite E1. cbn [app].
        destruct (ltb (r_end r) (r_end x)) eqn:E2.
        * assert (E3 : cut_right x xv r = [(mkR (r_end r) (r_end x), xv)])
            by (unfold cut_right; rewrite E2; reflexivity).
          assert (HWp : WF (cut_right x xv r ++ T)) by (apply cut_right_WF; exact HWB).
          rewrite E3 in *. cbn [app] in *.
          assert (HWAp : WF (A ++ (mkR (r_end r) (r_end x), xv) :: T)).
          { apply WF_app. splits; auto. intros a b Ha [<-|Hb]; [|apply HAB; auto; right; auto].
            specialize (HA a Ha). split; cbn; [ord|]. intros; exfalso; ord. }
          exists ((mkR (r_end r) (r_end x), xv) :: T).
          destruct fuel as [|fuel]; [nlia|]. cbn [rm_remove_loop].
          unfold bind at 1, get at 1, bind at 1, lift at 1.
          rewrite (range_excl HO); auto.
          2:{ intros a Ha. pose proof (proj2 HWA a Ha). specialize (HA a Ha). ord. }
          2:{ intros b [<-|Hb]; [cbn; ord|apply HB; right; exact Hb]. }
          cbn [take_while r_start fst].
          assert (E4 : ltb (r_end r) (r_end r) = false) by ord. rewrite E4. cbn.
          splits; auto.
          -- intros e [<-|Hin] Ho; [exfalso; cbn in Ho; ord|right; exact Hin].
          -- intros k. specialize (Hc k). cbn [MapProofs.lk] in *.
             destruct (r_contains cmp (mkR (r_end r) (r_end x)) k) eqn:C1;
             destruct (r_contains cmp r k) eqn:C2; destruct (r_contains cmp x k) eqn:C3;
               try congruence; try reflexivity.
             all: unfold r_contains in C2; apply (lk_above HO T k (r_end x));
               [intros b Hb; apply (HeT b Hb)|ord].
        * assert (E3 : cut_right x xv r = [])
            by (unfold cut_right; rewrite E2; reflexivity).
          rewrite E3 in *. cbn [app] in *.
          destruct (IH A fuel) as (B' & I1 & I2 & I3 & I4 & I5); auto; [nlia|intros; apply HB; right; auto|].
          exists B'. rewrite I1. splits; auto.
          -- nlia.
          -- intros e [<-|Hin] Ho; [exfalso; cbn in Ho; ord|auto].
          -- intros k. rewrite I5. specialize (Hc k). cbn [MapProofs.lk] in *.
             destruct (r_contains cmp r k); [reflexivity|].
             destruct (r_contains cmp x k); [discriminate|reflexivity].
      + cbn. exists ((x, xv) :: T). splits; auto.
        intros k. destruct (r_contains cmp r k) eqn:C; [|reflexivity].
        apply (lk_above HO _ k (r_end r)); [|unfold r_contains in C; ord].
        intros b [<-|Hb]; [cbn; ord|]. destruct (HeT b Hb) as [H1 _]. cbn in H1. ord.
  Qed.

  Lemma remove_ok m r :
    WF m -> ltb (r_start r) (r_end r) = true ->
    exists m', rm_remove cmp r m = (Ret tt, m') /\ WF m' /\
      (forall k, lk m' k = if r_contains cmp r k then None else lk m k) /\
      length m' <= length m + 1 /\
      (forall e, In e m ->
         leb (en e) (r_start r) = true \/ leb (r_end r) (st e) = true -> In e m').
  Proof.
    intros HW Hv. destruct (split_le HO m r HW) as (L & N & -> & HL & HN & HR).
    pose proof HW as HW0. apply WF_app in HW0 as (HWL & HWN & HLN).
    unfold rm_remove. unfold bind at 1, assert_. rewrite Hv. unfold ret at 1.
    unfold bind at 1, get at 1, bind at 1, lift at 1. rewrite HR.
    assert (Main : forall A B,
      WF (A ++ B) -> (forall a, In a A -> leb (en a) (r_start r) = true) ->
      (forall b, In b B -> ltb (r_start r) (st b) = true) ->
      length (A ++ B) <= length (L ++ N) + 1 ->
      (forall k, r_contains cmp r k = false -> lk (A ++ B) k = lk (L ++ N) k) ->
      (forall e, In e (L ++ N) -> leb (en e) (r_start r) = true \/ leb (r_end r) (st e) = true ->
         In e (A ++ B)) ->
      exists m', rm_remove_loop cmp (length (A ++ B) + 1) r (mkR (r_end r) (r_end r)) (A ++ B)
                 = (Ret tt, m') /\ WF m' /\
        (forall k, lk m' k = if r_contains cmp r k then None else lk (L ++ N) k) /\
        length m' <= length (L ++ N) + 1 /\
        (forall e, In e (L ++ N) ->
           leb (en e) (r_start r) = true \/ leb (r_end r) (st e) = true -> In e m')).
    { intros A B HWAB HA HB Hlen Hk Hf.
      destruct (remove_loop_ok r B A (length (A ++ B) + 1)) as (B' & I1 & I2 & I3 & I4 & I5); auto; [nlia|].
      exists (A ++ B'). splits; auto.
      - intros k. rewrite lk_app. rewrite I5. destruct (r_contains cmp r k) eqn:C.
        + rewrite (lk_below HO A k (r_start r)); auto. unfold r_contains in C. ord.
        + rewrite <- lk_app. apply Hk; exact C.
      - nlia.
      - intros e He Ho. apply in_or_app. specialize (Hf e He Ho).
        apply in_app_or in Hf as [Hf|Hf]; [left; exact Hf|]. right. apply I4; [exact Hf|].
        destruct Ho as [Ho|Ho]; [|exact Ho]. exfalso. specialize (HB e Hf).
        apply WF_app in HWAB as (_ & HWB & _). pose proof (proj2 HWB e Hf). ord. }
    unfold bind at 1.
    destruct (rev_cases L) as [->|(L' & [x xv] & ->)].
    - rewrite last_opt_nil. unfold ret at 1. unfold bind at 1, get at 1.
      apply (Main [] N); auto; try nlia.
    - rewrite last_opt_app.
      pose proof HWL as HWL0. apply WF_app in HWL0 as (HWL' & HWx & HL'x).
      pose proof HWx as HWx0. apply WF_cons in HWx0 as (Hx & _ & _). cbn in Hx.
      assert (Hxs : leb (r_start x) (r_start r) = true).
      { apply (HL (x, xv)). apply in_or_app; right; left; reflexivity. }
      assert (HL'e : forall a, In a L' -> leb (en a) (r_start x) = true).
      { intros a Ha. apply (HL'x a (x, xv) Ha (or_introl eq_refl)). }
      assert (Eov : r_overlaps cmp x r = ltb (r_start r) (r_end x)).
      { unfold r_overlaps, kmax, kmin.
        destruct (ltb (r_start r) (r_start x)) eqn:X1; destruct (ltb (r_end r) (r_end x)) eqn:X2; ord. }
      rewrite Eov. destruct (ltb (r_start r) (r_end x)) eqn:Eo.
      + assert (HxN : forall b, In b N -> sep (x, xv) b).
        { intros b Hb. apply HLN; auto. apply in_or_app; right; left; reflexivity. }
        assert (HWxN : WF ((x, xv) :: N)) by (apply WF_cons; auto).
        rewrite <- app_assoc. cbn [app].
        rewrite adjust_remove_eq; auto.
        2:{ rewrite <- app_assoc in HW. exact HW. }
        2:{ ord. }
        unfold bind at 1, get at 1.
        replace (L' ++ cut_left x xv r ++ cut_right x xv r ++ N)
          with ((L' ++ cut_left x xv r) ++ (cut_right x xv r ++ N)) by (rewrite <- app_assoc; reflexivity).
        rewrite <- app_assoc in Main. cbn [app] in Main.
        assert (HA1 : forall a, In a (L' ++ cut_left x xv r) -> leb (en a) (r_start r) = true).
        { intros a Ha. apply in_app_or in Ha as [Ha|Ha]; [specialize (HL'e a Ha); ord|].
          unfold cut_left in Ha. destruct (ltb (r_start x) (r_start r)); [|destruct Ha].
          destruct Ha as [<-|[]]. cbn. ord. }
        assert (HB1 : forall b, In b (cut_right x xv r ++ N) -> leb (r_end r) (st b) = true \/
                        ltb (r_start r) (st b) = true /\ leb (r_end x) (st b) = true).
        { intros b Hb. apply in_app_or in Hb as [Hb|Hb]; [left|right].
          - unfold cut_right in Hb. destruct (ltb (r_end r) (r_end x)); [|destruct Hb].
            destruct Hb as [<-|[]]. cbn. ord.
          - split; [auto|]. apply (HxN b Hb). }
        apply Main; auto.
        * apply WF_app. splits.
          -- apply cut_left_WF; exact HWL.
          -- apply cut_right_WF; exact HWxN.
          -- intros a b Ha Hb. specialize (HA1 a Ha). destruct (HB1 b Hb) as [H1|[H1 _]];
               (split; [ord|intros; exfalso; ord]).
        * intros b Hb. destruct (HB1 b Hb) as [H1|[H1 _]]; ord.
        * unfold cut_left, cut_right.
          destruct (ltb (r_start x) (r_start r)); destruct (ltb (r_end r) (r_end x)); nlia.
        * intros k C. rewrite <- app_assoc. rewrite (lk_app L'), (lk_app L').
          destruct (lk L' k); [reflexivity|].
          change ((x, xv) :: N) with ([(x, xv)] ++ N).
          rewrite app_assoc, (lk_app (_ ++ _)), (lk_app [(x, xv)]).
          rewrite lk_cut by (auto; ord). rewrite C. reflexivity.
        * intros e He Ho. apply in_app_or in He as [He|[<-|He]].
          -- apply in_or_app; left. apply in_or_app; left; exact He.
          -- exfalso. cbn in Ho. destruct Ho as [Ho|Ho]; ord.
          -- apply in_or_app; right. apply in_or_app; right; exact He.
      + unfold ret at 1. unfold bind at 1, get at 1.
        apply Main; auto.
        * intros a Ha. apply in_app_or in Ha as [Ha|[<-|[]]]; [specialize (HL'e a Ha)|cbn]; ord.
        * nlia.
  Qed.

  Lemma remove_panics (m : rmap K V) r :
    ltb (r_start r) (r_end r) = false -> rm_remove cmp r m = (Panicked PAssert, m).
  Proof. intros H. unfold rm_remove, bind at 1, assert_. rewrite H. reflexivity. Qed.
End Proofs.
