(** The entries after [insert] and [remove], exactly. *)
From Coq Require Import List Bool Sorting.Sorted Sorting.Permutation Lia ZArith.
From Verif Require Import Order Outcome BTree Ranges History Spec SpecExact MapModel ListLemmas MapProofs MapRemove MapFacts.
Import ListNotations.

Lemma flat_map_none {A B} (f : A -> list B) l : (forall x, In x l -> f x = []) -> flat_map f l = [].
Proof.
  induction l as [|x l IH]; intros H; [reflexivity|]. cbn. rewrite (H x), IH; auto; [intros; apply H; right; auto|left; reflexivity].
Qed.
Lemma flat_map_same {A} (f : A -> list A) l : (forall x, In x l -> f x = [x]) -> flat_map f l = l.
Proof.
  induction l as [|x l IH]; intros H; [reflexivity|]. cbn. rewrite (H x), IH; auto; [intros; apply H; right; auto|left; reflexivity].
Qed.
Lemma filter_always {A} (p : A -> bool) l : (forall x, In x l -> p x = true) -> filter p l = l.
Proof.
  induction l as [|x l IH]; intros H; [reflexivity|]. cbn. rewrite (H x), IH; auto; [intros; apply H; right; auto|left; reflexivity].
Qed.
Lemma filter_never {A} (p : A -> bool) l : (forall x, In x l -> p x = false) -> filter p l = [].
Proof.
  induction l as [|x l IH]; intros H; [reflexivity|]. cbn. rewrite (H x), IH; auto; [intros; apply H; right; auto|left; reflexivity].
Qed.
Lemma filter_same {A} (p q : A -> bool) l : (forall x, In x l -> p x = q x) -> filter p l = filter q l.
Proof.
  induction l as [|x l IH]; intros H; [reflexivity|]. cbn. rewrite (H x), IH; auto; [intros; apply H; right; auto|left; reflexivity].
Qed.

Section Exact.
  Context {K V : Type} {cmp : K -> K -> comparison} {veqb : V -> V -> bool}.
  Context (HO : TotalOrd cmp) (HV : PartialEquiv veqb).

  Notation ltb := (ltb cmp).
  Notation leb := (leb cmp).
  Notation eqb := (eqb cmp).
  Notation c_start := (cmp_start cmp).
  Notation entry := (range K * V)%type.
  Notation st e := (r_start (fst e)).
  Notation en e := (r_end (fst e)).
  Notation WF := (@WF K V cmp veqb).
  Notation left_ok := (@left_ok K V cmp veqb).
  Notation right_ok := (@right_ok K V cmp veqb).
  Notation starts_from := (@starts_from K V cmp).
  Notation pb := (@part_before K V cmp).
  Notation pf := (@part_from K V cmp).
  Notation joins := (@joins K V cmp veqb).
  Notation widened := (@widened K V cmp).

  (** ** The loop of [insert] *)
  Definition endof (new : range K) (js : rmap K V) : K :=
    match rev js with [] => r_end new | e :: _ => kmax cmp (r_end new) (en e) end.
  Definition jr (new : range K) (nv : V) (e : entry) : bool := veqb (snd e) nv && leb (st e) (r_end new).

  (** nothing to the right is joined or cut *)
  Lemma right_ok_idle B new nv : WF B -> right_ok B new nv ->
    filter (jr new nv) B = [] /\ flat_map (pf (r_end new)) (filter (fun e => negb (jr new nv e)) B) = B.
  Proof.
    intros HW H.
    assert (J : forall b, In b B -> jr new nv b = false).
    { intros b Hb. destruct (H b Hb) as [H1 H2]. unfold jr. destruct (veqb (snd b) nv) eqn:Ev; [|reflexivity]. cbn.
      destruct (leb (st b) (r_end new)) eqn:El; [|reflexivity]. rewrite (veq_sym _ HV _ _ Ev) in H2.
      discriminate H2. ord. }
    split; [apply filter_never, J|]. rewrite filter_always by (intros b Hb; rewrite (J b Hb); reflexivity).
    apply flat_map_same. intros b Hb. destruct (H b Hb) as [H1 _]. pose proof (proj2 HW b Hb). unfold part_from.
    replace (ltb (r_end new) (en b)) with true by ord. rewrite H1. reflexivity.
  Qed.

  Lemma loop_stop nv end0 B A new fuel :
    1 <= fuel -> WF (A ++ B) -> left_ok A new nv -> starts_from B (r_start new) ->
    ltb (r_start new) (r_end new) = true ->
    leb (r_start end0) (r_end new) = true -> leb (r_start new) (r_start end0) = true ->
    right_ok B new nv ->
    rm_insert_loop cmp veqb fuel new nv end0 (A ++ B) = (Ret new, A ++ B).
  Proof.
    intros Hf HW HL HB Hne He0 He1 Hr. destruct fuel as [|fuel]; [lia|].
    apply WF_app in HW as (HWA & HWB & _). cbn [rm_insert_loop]. unfold bind, get, lift.
    rewrite (range_incl HO) by (auto; intros a Ha; apply (left_lt HO A new nv HWA HL a Ha)).
    destruct B as [|[b bv] T]; [reflexivity|]. cbn [take_while fst].
    destruct (leb (r_start b) (r_start end0)) eqn:E; [|reflexivity]. cbn [it_next fst].
    destruct (Hr (b, bv) (or_introl eq_refl)) as [H1 H2]. cbn [fst snd] in *.
    replace (eqb (r_start b) (r_end new)) with true by ord.
    rewrite (veq_diff_sym HV nv bv) by (apply H2; ord). reflexivity.
  Qed.

  Lemma loop_exact nv end0 : forall B A new fuel,
    length B + 2 <= fuel -> WF (A ++ B) -> left_ok A new nv -> starts_from B (r_start new) ->
    ltb (r_start new) (r_end new) = true -> eqb (r_start end0) (r_end new) = true ->
    rm_insert_loop cmp veqb fuel new nv end0 (A ++ B) =
      (Ret (mkR (r_start new) (endof new (filter (jr new nv) B))),
       A ++ flat_map (pf (r_end new)) (filter (fun e => negb (jr new nv e)) B)).
  Proof.
    induction B as [|e T IH]; intros A new fuel Hfuel HW HL HB Hne He0.
    - rewrite loop_stop; auto; [| nlia | ord | ord | intros b []]. cbn. destruct new; reflexivity.
    - pose proof HW as HW0. apply WF_app in HW0 as (HWA & HWB & HAB).
      pose proof HWB as HWB0. apply WF_cons in HWB0 as (Hb & HWT & HeT). destruct e as [b bv]. cbn [fst snd] in *.
      assert (HbT : forall t, In t T -> leb (r_end b) (st t) = true) by (intros t Ht; apply (HeT t Ht)).
      assert (HWAT : WF (A ++ T)).
      { apply WF_app. splits; auto; try apply HWA; try apply HWT; intros; apply HAB; auto; right; auto. }
      assert (HAb : forall a, In a A -> ltb (st a) (r_start b) = true).
      { intros a Ha. apply (WF_sep_lt HO _ a (b, bv) HW); auto; [apply in_or_app; auto|apply in_or_app; right; left; reflexivity|].
        apply HAB; [exact Ha|left; reflexivity]. }
      assert (Hs : leb (r_start new) (r_start b) = true) by (apply (HB (b, bv)); left; reflexivity).
      destruct (leb (r_start b) (r_start end0)) eqn:Ein.
      + destruct (veqb bv nv) eqn:Ev.
        * (* joined *)
          destruct fuel as [|fuel]; [nlia|]. cbn [rm_insert_loop]. unfold bind at 1, get at 1, bind at 1, lift at 1.
          rewrite (range_incl HO); auto; [|intros a Ha; apply (left_lt HO A new nv HWA HL a Ha)|ord].
          cbn [take_while fst]. rewrite Ein. cbn [it_next fst]. rewrite Ev. cbn [negb]. rewrite andb_false_r.
          unfold bind at 1. unfold rm_adjust_touching_ranges_for_insert. rewrite Ev. unfold bind, modify, ret.
          rewrite (bt_remove_split' HO) by exact HAb.
          assert (Ek : kmin cmp (r_start new) (r_start b) = r_start new).
          { unfold kmin. destruct (ltb (r_start b) (r_start new)) eqn:E; [exfalso; ord|reflexivity]. }
          rewrite Ek.
          assert (Ej : jr new nv (b, bv) = true) by (unfold jr; cbn [fst snd]; rewrite Ev; ord).
          cbn [filter]. rewrite Ej. cbn [negb].
          unfold kmax. destruct (ltb (r_end b) (r_end new)) eqn:Eb.
          -- replace (mkR (r_start new) (r_end new)) with new by (destruct new; reflexivity).
             rewrite (IH A new fuel); auto; [|nlia|intros t Ht; apply HB; right; exact Ht].
             unfold endof. cbn [rev]. destruct (rev (filter (jr new nv) T)) as [|x l] eqn:Er; cbn [app]; [|reflexivity].
             unfold kmax. cbn [fst]. rewrite Eb. reflexivity.
          -- set (new1 := mkR (r_start new) (r_end b)).
             assert (HR1 : right_ok T new1 nv).
             { intros t Ht. destruct (HeT t Ht) as [H1 H2]. cbn [fst snd] in *. split; [exact H1|].
               intros H3. apply (veq_diff_l HV bv); [exact Ev|]. apply H2. exact H3. }
             assert (HR : right_ok T new nv).
             { intros t Ht. destruct (HR1 t Ht) as [H1 H2]. cbn [r_end new1] in *. split; [ord|].
               intros H3. apply H2. ord. }
             rewrite loop_stop; auto; [|nlia|intros t Ht; apply HB; right; exact Ht|cbn; ord|cbn; ord|cbn; ord].
             destruct (right_ok_idle T new nv HWT HR) as [-> ->]. unfold endof. cbn [rev app fst]. unfold kmax. rewrite Eb.
             reflexivity.
        * (* cut, or only touched *)
          destruct (ltb (r_start b) (r_end new)) eqn:Elt.
          -- destruct fuel as [|fuel]; [nlia|]. cbn [rm_insert_loop]. unfold bind at 1, get at 1, bind at 1, lift at 1.
             rewrite (range_incl HO); auto; [|intros a Ha; apply (left_lt HO A new nv HWA HL a Ha)|ord].
             cbn [take_while fst]. rewrite Ein. cbn [it_next fst].
             replace (eqb (r_start b) (r_end new)) with false by ord. cbn [andb].
             unfold bind at 1. unfold rm_adjust_touching_ranges_for_insert. rewrite Ev.
             assert (Eov : r_overlaps cmp new b = true).
             { unfold r_overlaps, kmax, kmin.
               destruct (ltb (r_start b) (r_start new)) eqn:X1; destruct (ltb (r_end b) (r_end new)) eqn:X2; ord. }
             rewrite Eov. unfold bind at 1, modify at 1. rewrite (bt_remove_split' HO) by exact HAb.
             replace (ltb (r_start b) (r_start new)) with false by ord. unfold bind at 1, ret at 1. unfold gtb.
             assert (Ej : jr new nv (b, bv) = false) by (unfold jr; cbn [fst snd]; rewrite Ev; reflexivity).
             cbn [filter]. rewrite Ej. cbn [negb flat_map]. unfold part_from at 1. cbn [fst snd].
             unfold bind at 1. destruct (ltb (r_end new) (r_end b)) eqn:E2.
             ++ unfold modify, ret. rewrite (bt_insert_split HO A T); cbn [r_start].
                2:{ intros a Ha. specialize (HAb a Ha). ord. }
                2:{ intros t Ht. specialize (HbT t Ht). ord. }
                assert (HWp : WF ((mkR (r_end new) (r_end b), bv) :: T)) by (apply WF_cons; splits; auto).
                assert (HR : right_ok T new nv).
                { intros t Ht. specialize (HbT t Ht). split; [ord|]. intros; exfalso; ord. }
                rewrite loop_stop; auto.
                ** destruct (right_ok_idle T new nv HWT HR) as [-> ->].
                   replace (leb (r_end new) (r_start b)) with false by ord. cbn. destruct new; reflexivity.
                ** nlia.
                ** apply WF_app. splits; try apply HWA; try apply HWp; auto.
                   intros a x Ha [<-|Hx]; [|apply HAB; auto; right; auto].
                   destruct (HL a Ha) as [H1 _]. split; [cbn; ord|]. intros H2. cbn in H2. exfalso; ord.
                ** intros x [<-|Hx]; [cbn; ord|apply HB; right; exact Hx].
                ** ord.
                ** ord.
                ** apply (right_ok_cons HO (mkR (r_end new) (r_end b), bv) T new nv HWp); cbn; auto; try ord.
                   intros _. apply (veq_diff_sym HV). exact Ev.
             ++ unfold ret. rewrite IH; auto; [nlia|intros t Ht; apply HB; right; exact Ht].
          -- assert (HR : right_ok ((b, bv) :: T) new nv).
             { apply (right_ok_cons HO); auto; cbn [fst snd]; [ord|]. intros _. apply (veq_diff_sym HV). exact Ev. }
             rewrite loop_stop; auto; [|nlia|ord|ord].
             destruct (right_ok_idle _ new nv HWB HR) as [-> ->]. destruct new; reflexivity.
      + assert (HR : right_ok ((b, bv) :: T) new nv).
        { apply (right_ok_cons HO); auto; cbn [fst snd]; [ord|]. intros; exfalso; ord. }
        rewrite loop_stop; auto; [|nlia|ord|ord].
        destruct (right_ok_idle _ new nv HWB HR) as [-> ->]. destruct new; reflexivity.
  Qed.

  (** the second half of [insert] *)
  Lemma finish_exact A B new nv :
    WF (A ++ B) -> left_ok A new nv -> starts_from B (r_start new) -> ltb (r_start new) (r_end new) = true ->
    (m1 <- get ;;
     new2 <- rm_insert_loop cmp veqb (length m1 + 2) new nv (mkR (r_end new) (r_end new)) ;;
     modify (bt_insert c_start new2 nv))%M (A ++ B) =
    (Ret tt, A ++ (mkR (r_start new) (endof new (filter (jr new nv) B)), nv) ::
             flat_map (pf (r_end new)) (filter (fun e => negb (jr new nv e)) B)).
  Proof.
    intros HW HL HB Hne. unfold bind at 1, get at 1. unfold bind at 1.
    rewrite loop_exact; auto; [|nlia|cbn; ord]. unfold modify. apply WF_app in HW as (HWA & HWB & _).
    rewrite (bt_insert_split HO); [reflexivity| |].
    - apply (left_lt HO A new nv HWA HL).
    - cbn [r_start]. intros b Hb. apply in_flat_map in Hb as (e & He & Hb). unfold part_from in Hb.
      destruct (ltb (r_end new) (en e)) eqn:E1; [|destruct Hb]. destruct Hb as [<-|[]].
      destruct (leb (r_end new) (st e)) eqn:E2; cbn [fst r_start]; ord.
  Qed.

  (** ** The specification, part by part *)
  Notation put := (@put_entries K V cmp veqb).
  Notation del := (@del_entries K V cmp).

  Lemma left_parts L r v : WF L -> ltb (r_start r) (r_end r) = true ->
    (forall a, In a L -> ltb (en a) (r_start r) = true) ->
    filter (joins r v) L = [] /\ filter (fun e => negb (joins r v e)) L = L /\
    flat_map (pb (r_start r)) L = L /\ flat_map (pf (r_end r)) L = [].
  Proof.
    intros HW Hv HL.
    assert (J : forall a, In a L -> joins r v a = false).
    { intros a Ha. specialize (HL a Ha). unfold SpecExact.joins. replace (leb (r_start r) (en a)) with false by ord.
      rewrite andb_false_r. reflexivity. }
    splits.
    - apply filter_never, J.
    - apply filter_always. intros a Ha. rewrite (J a Ha). reflexivity.
    - apply flat_map_same. intros a Ha. specialize (HL a Ha). pose proof (proj2 HW a Ha). unfold part_before.
      replace (ltb (st a) (r_start r)) with true by ord. replace (leb (en a) (r_start r)) with true by ord. reflexivity.
    - apply flat_map_none. intros a Ha. specialize (HL a Ha). unfold part_from.
      replace (ltb (r_end r) (en a)) with false by ord. reflexivity.
  Qed.
  Lemma right_parts N r v : WF N ->
    (forall b, In b N -> leb (r_start r) (st b) = true) ->
    filter (joins r v) N = filter (jr r v) N /\
    filter (fun e => negb (joins r v e)) N = filter (fun e => negb (jr r v e)) N /\
    flat_map (pb (r_start r)) N = [] /\
    flat_map (pb (r_start r)) (filter (fun e => negb (jr r v e)) N) = [].
  Proof.
    intros HW HN.
    assert (J : forall b, In b N -> joins r v b = jr r v b).
    { intros b Hb. specialize (HN b Hb). pose proof (proj2 HW b Hb). unfold SpecExact.joins, jr.
      replace (leb (r_start r) (en b)) with true by ord. rewrite andb_true_r. reflexivity. }
    assert (P : forall b, In b N -> pb (r_start r) b = []).
    { intros b Hb. specialize (HN b Hb). unfold part_before. replace (ltb (st b) (r_start r)) with false by ord. reflexivity. }
    splits.
    - apply filter_same, J.
    - apply filter_same. intros b Hb. rewrite (J b Hb). reflexivity.
    - apply flat_map_none, P.
    - apply flat_map_none. intros b Hb. apply filter_In in Hb as [Hb _]. apply P, Hb.
  Qed.
  Lemma widened_right N r v : (forall b, In b N -> leb (r_start r) (st b) = true) ->
    widened r (filter (jr r v) N) = mkR (r_start r) (endof r (filter (jr r v) N)).
  Proof.
    intros HN. unfold SpecExact.widened, endof. f_equal. destruct (filter (jr r v) N) as [|e l] eqn:E; [reflexivity|].
    assert (He : In e N) by (eapply proj1, filter_In; rewrite E; left; reflexivity).
    specialize (HN e He). unfold kmin. replace (ltb (st e) (r_start r)) with false by ord. reflexivity.
  Qed.

  (** ** [insert] *)
  Lemma candidate_exact m r nv : WF m -> ltb (r_start r) (r_end r) = true ->
    exists L, bt_range c_start Unbounded (Included r) m = Ret L /\
    ((filter (fun e => r_touches cmp (fst e) r) (firstn 2 (rev L)) = [] /\
      exists A N, m = A ++ N /\ (forall a, In a A -> ltb (en a) (r_start r) = true) /\
                  (forall b, In b N -> leb (r_start r) (st b) = true)) \/
     exists A x xv N, m = A ++ (x, xv) :: N /\ (forall a, In a A -> ltb (en a) (r_start r) = true) /\
        (forall b, In b N -> leb (r_start r) (st b) = true) /\
        leb (r_start x) (r_start r) = true /\ leb (r_start r) (r_end x) = true /\
        (match filter (fun e => r_touches cmp (fst e) r) (firstn 2 (rev L)) with
         | [] => ret r
         | [(s, sv)] => rm_adjust_touching_ranges_for_insert cmp veqb s sv r nv
         | _ :: (s, sv) :: _ => rm_adjust_touching_ranges_for_insert cmp veqb s sv r nv
         end) = rm_adjust_touching_ranges_for_insert cmp veqb x xv r nv).
  Proof.
    intros HW Hv. destruct (split_le HO m r HW) as (L & N & -> & HL & HN & HR).
    exists L. split; [exact HR|].
    pose proof HW as HW0. apply WF_app in HW0 as (HWL & HWN & HLN).
    assert (HN' : forall b, In b N -> leb (r_start r) (st b) = true).
    { intros b Hb. specialize (HN b Hb). ord. }
    destruct (rev_cases L) as [->|(L' & [x xv] & ->)].
    - left. split; [reflexivity|]. exists [], N. splits; auto; intros a [].
    - assert (Hxs : leb (r_start x) (r_start r) = true).
      { apply (HL (x, xv)). apply in_or_app; right; left; reflexivity. }
      pose proof HWL as HWL0. apply WF_app in HWL0 as (HWL' & HWx & HL'x).
      apply WF_cons in HWx as (Hx & _ & _). cbn in Hx.
      rewrite rev_app_distr. cbn [rev app].
      assert (Tx : r_touches cmp x r = leb (r_start r) (r_end x)) by (apply (touch_iff HO); auto).
      destruct (rev_cases L') as [->|(L'' & [y yv] & ->)].
      + cbn [rev app firstn filter fst]. rewrite Tx. destruct (leb (r_start r) (r_end x)) eqn:Ex.
        * right. exists [], x, xv, N. splits; auto; intros a [].
        * left. split; [reflexivity|]. exists [(x, xv)], N. splits; auto. intros a [<-|[]]. cbn. ord.
      + rewrite rev_app_distr. cbn [rev app firstn filter fst]. rewrite Tx.
        pose proof HWL' as HWL0. apply WF_app in HWL0 as (HWL'' & HWy & HL''y).
        apply WF_cons in HWy as (Hy & _ & _). cbn in Hy.
        destruct (HL'x (y, yv) (x, xv)) as [Hyx _];
          [apply in_or_app; right; left; reflexivity|left; reflexivity|]. cbn in Hyx.
        assert (Hay : forall a, In a L'' -> leb (en a) (r_start y) = true).
        { intros a Ha. apply (HL''y a (y, yv) Ha (or_introl eq_refl)). }
        assert (Ty : r_touches cmp y r = leb (r_start r) (r_end y)) by (apply (touch_iff HO); auto; ord).
        rewrite Ty. destruct (leb (r_start r) (r_end y)) eqn:Ey.
        * right. exists L'', y, yv, ((x, xv) :: N). rewrite <- !app_assoc. cbn [app]. splits; auto.
          -- intros a Ha. specialize (Hay a Ha). ord.
          -- intros b [<-|Hb]; [cbn; ord|auto].
          -- ord.
          -- replace (leb (r_start r) (r_end x)) with true by ord. reflexivity.
        * assert (HA : forall a, In a (L'' ++ [(y, yv)]) -> ltb (en a) (r_start r) = true).
          { intros a Ha. apply in_app_or in Ha as [Ha|[<-|[]]]; [specialize (Hay a Ha); ord|cbn; ord]. }
          destruct (leb (r_start r) (r_end x)) eqn:Ex.
          -- right. exists (L'' ++ [(y, yv)]), x, xv, N. rewrite <- !app_assoc. cbn [app]. splits; auto.
          -- left. split; [reflexivity|]. exists ((L'' ++ [(y, yv)]) ++ [(x, xv)]), N. splits; auto.
             intros a Ha. apply in_app_or in Ha as [Ha|[<-|[]]]; [auto|cbn; ord].
  Qed.

  Lemma joined_end x xv N r nv : WF ((x, xv) :: N) -> veqb xv nv = true ->
    (forall b, In b N -> leb (r_start r) (st b) = true) ->
    let new1 := mkR (kmin cmp (r_start r) (r_start x)) (kmax cmp (r_end r) (r_end x)) in
    mkR (r_start new1) (endof new1 (filter (jr new1 nv) N)) = widened r ((x, xv) :: filter (jr r nv) N) /\
    flat_map (pf (r_end new1)) (filter (fun e => negb (jr new1 nv e)) N) =
    flat_map (pf (r_end r)) (filter (fun e => negb (jr r nv e)) N).
  Proof.
    intros HW Ev HN new1. pose proof HW as HW0. apply WF_cons in HW0 as (Hx & HWN & HxN). cbn [fst] in Hx.
    destruct (ltb (r_end x) (r_end r)) eqn:E.
    - assert (E1 : r_end new1 = r_end r) by (unfold new1, kmax; cbn [r_end]; rewrite E; reflexivity).
      assert (EJ : jr new1 nv = jr r nv) by (unfold jr; rewrite E1; reflexivity).
      rewrite EJ, E1. split; [|reflexivity]. unfold SpecExact.widened. cbn [fst]. f_equal. unfold endof. cbn [rev].
      rewrite E1. destruct (rev (filter (jr r nv) N)) as [|e l]; cbn [app fst]; [|reflexivity].
      unfold kmax. rewrite E. reflexivity.
    - assert (E1 : r_end new1 = r_end x) by (unfold new1, kmax; cbn [r_end]; rewrite E; reflexivity).
      assert (HR : right_ok N new1 nv).
      { intros t Ht. destruct (HxN t Ht) as [H1 H2]. cbn [fst snd] in *. rewrite E1. split; [exact H1|].
        intros H3. apply (veq_diff_l HV xv); [exact Ev|]. apply H2. exact H3. }
      assert (HR2 : right_ok N r nv).
      { intros t Ht. destruct (HR t Ht) as [H1 H2]. rewrite E1 in *. split; [ord|]. intros H3. apply H2. ord. }
      destruct (right_ok_idle _ _ _ HWN HR) as [-> ->]. destruct (right_ok_idle _ _ _ HWN HR2) as [-> ->].
      split; [|reflexivity]. unfold SpecExact.widened, endof. cbn [rev app fst]. rewrite E1. unfold new1. cbn [r_start].
      f_equal. unfold kmax. rewrite E. reflexivity.
  Qed.

  Lemma insert_exact m r v : WF m -> ltb (r_start r) (r_end r) = true ->
    rm_insert cmp veqb r v m = (Ret tt, put r v m).
  Proof.
    intros HW Hv. destruct (candidate_exact m r v HW Hv) as (L & HR & HC).
    unfold rm_insert. unfold bind at 1, assert_. rewrite Hv. unfold ret at 1.
    unfold bind at 1, get at 1, bind at 1, lift at 1. rewrite HR. unfold bind at 1.
    destruct HC as [(-> & A & N & -> & HA & HN)|(A & x & xv & N & -> & HA & HN & Hxs & Hxe & ->)].
    - unfold ret at 1. pose proof HW as HW0. apply WF_app in HW0 as (HWA & HWN & _).
      rewrite finish_exact; auto.
      + unfold put_entries. rewrite !filter_app, !flat_map_app.
        destruct (left_parts A r v HWA Hv HA) as (-> & -> & -> & ->).
        destruct (right_parts N r v HWN HN) as (-> & -> & _ & ->).
        cbn [app]. rewrite app_nil_r, widened_right by exact HN. reflexivity.
      + intros a Ha. specialize (HA a Ha). split; [ord|]. intros; exfalso; ord.
    - pose proof HW as HW0. apply WF_app in HW0 as (HWA & HWx & HAx).
      pose proof HWx as HWx0. apply WF_cons in HWx0 as (Hx & HWN & HxN). cbn [fst snd] in *.
      assert (HAst : forall a, In a A -> ltb (st a) (r_start x) = true).
      { intros a Ha. apply (WF_sep_lt HO _ a (x, xv) HW); auto using in_or_app, in_eq. }
      assert (HxN1 : forall b, In b N -> leb (r_end x) (st b) = true) by (intros b Hb; apply (HxN b Hb)).
      assert (HWAN : WF (A ++ N)).
      { apply WF_app. splits; auto. intros a b Ha Hb. apply HAx; auto. right; exact Hb. }
      assert (Hleft : forall a, In a A -> leb (en a) (r_start r) = true /\
                        (eqb (en a) (r_start r) = true -> veqb (snd a) v = false)).
      { intros a Ha. specialize (HA a Ha). split; [ord|]. intros; exfalso; ord. }
      destruct (left_parts A r v HWA Hv HA) as (F1 & F2 & F3 & F4).
      destruct (right_parts N r v HWN HN) as (G1 & G2 & _ & G4).
      assert (EJ : joins r v (x, xv) = veqb xv v).
      { unfold SpecExact.joins. cbn [fst snd]. rewrite Hxe. replace (leb (r_start x) (r_end r)) with true by ord.
        rewrite !andb_true_r. reflexivity. }
      unfold rm_adjust_touching_ranges_for_insert.
      unfold put_entries. rewrite !filter_app. cbn [filter]. rewrite EJ, F1, F2, G1, G2.
      destruct (veqb xv v) eqn:Ev; cbn [negb app]; rewrite !flat_map_app; cbn [flat_map]; rewrite F3, F4, G4, app_nil_r; cbn [app].
      + unfold bind at 1, modify at 1. rewrite (bt_remove_split' HO) by exact HAst. unfold ret at 1.
        rewrite finish_exact; auto.
        * destruct (joined_end x xv N r v HWx Ev HN) as [H1 H2]. rewrite H1, H2. reflexivity.
        * intros a Ha. destruct (HAx a (x, xv) Ha (or_introl eq_refl)) as [H1 H2]. cbn [fst snd] in *.
          assert (E1 : eqb (kmin cmp (r_start r) (r_start x)) (r_start x) = true)
            by (unfold kmin; destruct (ltb (r_start x) (r_start r)) eqn:E; ord).
          cbn [r_start]. split; [ord|]. intros H3. apply (veq_diff_sym HV), (veq_diff_l HV xv); auto.
          apply (veq_diff_sym HV). apply H2. ord.
        * intros b Hb. specialize (HN b Hb). cbn [r_start]. unfold kmin. destruct (ltb (r_start x) (r_start r)) eqn:E; ord.
        * cbn [r_start r_end]. unfold kmin, kmax.
          destruct (ltb (r_start x) (r_start r)) eqn:E1; destruct (ltb (r_end x) (r_end r)) eqn:E2; ord.
      + destruct (ltb (r_start r) (r_end x)) eqn:Eo.
        * assert (Eov : r_overlaps cmp r x = true).
          { unfold r_overlaps, kmax, kmin.
            destruct (ltb (r_start x) (r_start r)) eqn:X1; destruct (ltb (r_end x) (r_end r)) eqn:X2; ord. }
          rewrite Eov. unfold bind at 1, modify at 1. rewrite (bt_remove_split' HO) by exact HAst.
          set (lefts := if ltb (r_start x) (r_start r) then [(mkR (r_start x) (r_start r), xv)] else []).
          set (rights := if ltb (r_end r) (r_end x) then [(mkR (r_end r) (r_end x), xv)] else []).
          assert (E1 : pb (r_start r) (x, xv) = lefts).
          { unfold part_before, lefts. cbn [fst snd]. destruct (ltb (r_start x) (r_start r)) eqn:X; [|reflexivity].
            replace (leb (r_end x) (r_start r)) with false by ord. reflexivity. }
          assert (E2 : pf (r_end r) (x, xv) = rights).
          { unfold part_from, rights. cbn [fst snd]. destruct (ltb (r_end r) (r_end x)) eqn:X; [|reflexivity].
            replace (leb (r_end r) (r_start x)) with false by ord. reflexivity. }
          assert (S1 : (if ltb (r_start x) (r_start r)
                        then modify (bt_insert c_start (mkR (r_start x) (r_start r)) xv) else ret tt) (A ++ N)
                       = (Ret tt, (A ++ lefts) ++ N)).
          { unfold lefts. destruct (ltb (r_start x) (r_start r)) eqn:X; [|unfold ret; rewrite app_nil_r; reflexivity].
            unfold modify. rewrite (bt_insert_split HO A N); cbn [r_start]; auto.
            - rewrite <- app_assoc. reflexivity.
            - intros t Ht. specialize (HxN1 t Ht). ord. }
          unfold bind at 1. rewrite S1.
          assert (HWlr : WF ((A ++ lefts) ++ rights ++ N)).
          { assert (HWr : WF (rights ++ N)).
            { unfold rights. destruct (ltb (r_end r) (r_end x)) eqn:X; [|exact HWN]. apply WF_cons. splits; auto. }
            rewrite <- app_assoc. apply WF_app.
            assert (HWl : WF (lefts ++ rights ++ N)).
            { unfold lefts. destruct (ltb (r_start x) (r_start r)) eqn:X; [|exact HWr]. apply WF_cons. splits; auto.
              intros b Hb. unfold rights in Hb. apply in_app_or in Hb as [Hb|Hb].
              - destruct (ltb (r_end r) (r_end x)); [|destruct Hb]. destruct Hb as [<-|[]]. split; cbn; [ord|]. intros; exfalso; ord.
              - specialize (HxN1 b Hb). split; cbn; [ord|]. intros; exfalso; ord. }
            splits; auto. intros a b Ha Hb. destruct (HAx a (x, xv) Ha (or_introl eq_refl)) as [H1 H2]. cbn in H1, H2.
            apply in_app_or in Hb as [Hb|Hb]; [|apply in_app_or in Hb as [Hb|Hb]].
            - unfold lefts in Hb. destruct (ltb (r_start x) (r_start r)); [|destruct Hb]. destruct Hb as [<-|[]]. split; auto.
            - unfold rights in Hb. destruct (ltb (r_end r) (r_end x)); [|destruct Hb]. destruct Hb as [<-|[]].
              specialize (HA a Ha). split; cbn; [ord|]. intros; exfalso; ord.
            - apply HAx; auto. right; exact Hb. }
          assert (Hl : forall a, In a (A ++ lefts) -> ltb (st a) (r_start r) = true).
          { intros a Ha. apply in_app_or in Ha as [Ha|Ha]; [specialize (HAst a Ha); ord|].
            unfold lefts in Ha. destruct (ltb (r_start x) (r_start r)) eqn:X; [|destruct Ha]. destruct Ha as [<-|[]]. exact X. }
          assert (S2 : (if gtb cmp (r_end x) (r_end r)
                        then modify (bt_insert c_start (mkR (r_end r) (r_end x)) xv) else ret tt) ((A ++ lefts) ++ N)
                       = (Ret tt, (A ++ lefts) ++ rights ++ N)).
          { unfold rights, gtb. destruct (ltb (r_end r) (r_end x)) eqn:X; [|reflexivity].
            unfold modify. rewrite (bt_insert_split HO (A ++ lefts) N); cbn [r_start]; auto.
            - intros a Ha. specialize (Hl a Ha). ord.
            - intros t Ht. specialize (HxN1 t Ht). ord. }
          unfold bind at 1. rewrite S2. unfold ret at 1. rewrite finish_exact; auto.
          -- rewrite E1, E2, filter_app, filter_app.
             assert (E3 : filter (jr r v) rights = [] /\ filter (fun e => negb (jr r v e)) rights = rights /\
                          flat_map (pf (r_end r)) rights = rights).
             { unfold rights. destruct (ltb (r_end r) (r_end x)) eqn:X; [|splits; reflexivity].
               cbn [filter flat_map]. unfold jr. cbn [snd]. rewrite Ev. cbn [andb negb]. splits; auto.
               unfold part_from. cbn [fst snd r_start r_end]. rewrite X. replace (leb (r_end r) (r_end r)) with true by ord. reflexivity. }
             destruct E3 as (-> & -> & E3). rewrite flat_map_app, E3. cbn [app]. rewrite widened_right by exact HN.
             reflexivity.
          -- intros a Ha. apply in_app_or in Ha as [Ha|Ha]; [auto|].
             unfold lefts in Ha. destruct (ltb (r_start x) (r_start r)) eqn:X; [|destruct Ha]. destruct Ha as [<-|[]].
             cbn [fst snd r_end]. split; [ord|auto].
          -- intros b Hb. apply in_app_or in Hb as [Hb|Hb]; [|auto].
             unfold rights in Hb. destruct (ltb (r_end r) (r_end x)); [|destruct Hb]. destruct Hb as [<-|[]]. cbn. ord.
        * assert (Eov : r_overlaps cmp r x = false).
          { unfold r_overlaps, kmax, kmin.
            destruct (ltb (r_start x) (r_start r)) eqn:X1; destruct (ltb (r_end x) (r_end r)) eqn:X2; ord. }
          rewrite Eov. unfold ret at 1.
          assert (E1 : pb (r_start r) (x, xv) = [(x, xv)]).
          { unfold part_before. cbn [fst snd]. replace (ltb (r_start x) (r_start r)) with true by ord.
            replace (leb (r_end x) (r_start r)) with true by ord. reflexivity. }
          assert (E2 : pf (r_end r) (x, xv) = []).
          { unfold part_from. cbn [fst snd]. replace (ltb (r_end r) (r_end x)) with false by ord. reflexivity. }
          replace (A ++ (x, xv) :: N) with ((A ++ [(x, xv)]) ++ N) by (rewrite <- app_assoc; reflexivity).
          rewrite finish_exact; auto.
          -- rewrite E1, E2, widened_right by exact HN. reflexivity.
          -- rewrite <- app_assoc. exact HW.
          -- intros a Ha. apply in_app_or in Ha as [Ha|[<-|[]]]; [auto|]. cbn [fst snd]. split; [ord|auto].
  Qed.

  (** ** [remove] *)
  Lemma from_idle B x : WF B -> (forall b, In b B -> leb x (st b) = true) -> flat_map (pf x) B = B.
  Proof.
    intros HW HB. apply flat_map_same. intros b Hb. specialize (HB b Hb). pose proof (proj2 HW b Hb).
    unfold part_from. replace (ltb x (en b)) with true by ord. rewrite HB. reflexivity.
  Qed.
  Lemma remove_loop_exact r : forall B A fuel,
    ltb (r_start r) (r_end r) = true -> length B + 1 <= fuel -> WF (A ++ B) ->
    (forall a, In a A -> leb (en a) (r_start r) = true) ->
    (forall b, In b B -> ltb (r_start r) (st b) = true) ->
    rm_remove_loop cmp fuel r (mkR (r_end r) (r_end r)) (A ++ B) = (Ret tt, A ++ flat_map (pf (r_end r)) B).
  Proof.
    intros B. induction B as [|e T IH]; intros A fuel Hv Hfuel HW HA HB; (destruct fuel as [|fuel]; [nlia|]);
      pose proof HW as HW0; apply WF_app in HW0 as (HWA & HWB & HAB);
      cbn [rm_remove_loop]; unfold bind at 1, get at 1, bind at 1, lift at 1;
      (rewrite (range_excl HO); [|intros a Ha; pose proof (proj2 HWA a Ha); specialize (HA a Ha); ord|exact HB|exact Hv]).
    - reflexivity.
    - pose proof HWB as HWB0. apply WF_cons in HWB0 as (He & HWT & HeT).
      destruct e as [x xv]. cbn [fst snd] in *.
      assert (Hxs : ltb (r_start r) (r_start x) = true) by (apply (HB (x, xv)); left; reflexivity).
      assert (HxT : forall t, In t T -> leb (r_end x) (st t) = true) by (intros t Ht; apply (HeT t Ht)).
      cbn [take_while r_start fst]. destruct (ltb (r_start x) (r_end r)) eqn:Elt.
      + cbn [it_next fst]. unfold bind at 1. rewrite (adjust_remove_eq (veqb := veqb) HO) by (auto; ord).
        assert (E1 : cut_left (cmp := cmp) x xv r = []).
        { unfold cut_left. destruct (ltb (r_start x) (r_start r)) eqn:E; [exfalso; ord|reflexivity]. }
        rewrite E1. cbn [app flat_map].
        assert (HWAT : WF (A ++ T)).
        { apply WF_app. splits; auto. intros a b Ha Hb. apply HAB; auto. right; exact Hb. }
        assert (E2 : pf (r_end r) (x, xv) = cut_right (cmp := cmp) x xv r).
        { unfold part_from, cut_right. cbn [fst snd]. destruct (ltb (r_end r) (r_end x)); [|reflexivity].
          replace (leb (r_end r) (r_start x)) with false by ord. reflexivity. }
        rewrite E2. unfold cut_right. destruct (ltb (r_end r) (r_end x)) eqn:E3; cbn [app].
        * destruct fuel as [|fuel]; [nlia|]. cbn [rm_remove_loop].
          unfold bind at 1, get at 1, bind at 1, lift at 1.
          assert (HWp : WF ((mkR (r_end r) (r_end x), xv) :: T)) by (apply WF_cons; splits; auto).
          rewrite (range_excl HO); auto.
          2:{ intros a Ha. pose proof (proj2 HWA a Ha). specialize (HA a Ha). ord. }
          2:{ intros b [<-|Hb]; [cbn; ord|apply HB; right; exact Hb]. }
          cbn [take_while r_start fst]. replace (ltb (r_end r) (r_end r)) with false by ord. cbn [it_next fst].
          unfold ret. rewrite from_idle; auto. intros b Hb. specialize (HxT b Hb). ord.
        * apply IH; auto; [nlia|]. intros; apply HB; right; auto.
      + cbn [it_next fst]. unfold ret. rewrite from_idle; auto.
        intros b [<-|Hb]; [cbn; ord|]. specialize (HxT b Hb). ord.
  Qed.

  Lemma remove_exact m r : WF m -> ltb (r_start r) (r_end r) = true ->
    rm_remove cmp r m = (Ret tt, del r m).
  Proof.
    intros HW Hv. destruct (split_le HO m r HW) as (L & N & -> & HL & HN & HR).
    pose proof HW as HW0. apply WF_app in HW0 as (HWL & HWN & HLN).
    unfold rm_remove. unfold bind at 1, assert_. rewrite Hv. unfold ret at 1.
    unfold bind at 1, get at 1, bind at 1, lift at 1. rewrite HR.
    assert (HNb : flat_map (pb (r_start r)) N = []).
    { apply flat_map_none. intros b Hb. specialize (HN b Hb). unfold part_before.
      replace (ltb (st b) (r_start r)) with false by ord. reflexivity. }
    unfold del_entries. rewrite !flat_map_app, HNb, app_nil_r. unfold bind at 1.
    destruct (rev_cases L) as [->|(L' & [x xv] & ->)].
    - rewrite last_opt_nil. unfold ret at 1. unfold bind at 1, get at 1.
      rewrite remove_loop_exact; auto; try nlia; intros a [].

    - rewrite last_opt_app.
      pose proof HWL as HWL0. apply WF_app in HWL0 as (HWL' & HWx & HL'x).
      pose proof HWx as HWx0. apply WF_cons in HWx0 as (Hx & _ & _). cbn in Hx.
      assert (Hxs : leb (r_start x) (r_start r) = true).
      { apply (HL (x, xv)). apply in_or_app; right; left; reflexivity. }
      assert (HL'e : forall a, In a L' -> leb (en a) (r_start x) = true).
      { intros a Ha. apply (HL'x a (x, xv) Ha (or_introl eq_refl)). }
      assert (P1 : flat_map (pb (r_start r)) L' = L').
      { apply flat_map_same. intros a Ha. specialize (HL'e a Ha). pose proof (proj2 HWL' a Ha). unfold part_before.
        replace (ltb (st a) (r_start r)) with true by ord. replace (leb (en a) (r_start r)) with true by ord. reflexivity. }
      assert (P2 : flat_map (pf (r_end r)) L' = []).
      { apply flat_map_none. intros a Ha. specialize (HL'e a Ha). unfold part_from.
        replace (ltb (r_end r) (en a)) with false by ord. reflexivity. }
      rewrite !flat_map_app, P1, P2. cbn [flat_map app]. rewrite !app_nil_r.
      assert (Eov : r_overlaps cmp x r = ltb (r_start r) (r_end x)).
      { unfold r_overlaps, kmax, kmin.
        destruct (ltb (r_start r) (r_start x)) eqn:X1; destruct (ltb (r_end r) (r_end x)) eqn:X2; ord. }
      rewrite Eov. destruct (ltb (r_start r) (r_end x)) eqn:Eo.
      + assert (HxN : forall b, In b N -> leb (r_end x) (st b) = true).
        { intros b Hb. apply (HLN (x, xv) b); auto. apply in_or_app; right; left; reflexivity. }
        assert (HWxN : WF ((x, xv) :: N)).
        { apply WF_cons. splits; auto. intros b Hb. apply HLN; auto. apply in_or_app; right; left; reflexivity. }
        assert (Q1 : pb (r_start r) (x, xv) = cut_left (cmp := cmp) x xv r).
        { unfold part_before, cut_left. cbn [fst snd]. destruct (ltb (r_start x) (r_start r)) eqn:X; [|reflexivity].
          replace (leb (r_end x) (r_start r)) with false by ord. reflexivity. }
        assert (Q2 : pf (r_end r) (x, xv) = cut_right (cmp := cmp) x xv r).
        { unfold part_from, cut_right. cbn [fst snd]. destruct (ltb (r_end r) (r_end x)) eqn:X; [|reflexivity].
          replace (leb (r_end r) (r_start x)) with false by ord. reflexivity. }
        rewrite Q1, Q2. rewrite <- app_assoc. cbn [app]. rewrite <- app_assoc in HW. cbn [app] in HW.
        rewrite (adjust_remove_eq (veqb := veqb) HO) by (auto; ord). unfold bind at 1, get at 1.
        replace (L' ++ cut_left x xv r ++ cut_right x xv r ++ N)
          with ((L' ++ cut_left (cmp := cmp) x xv r) ++ (cut_right (cmp := cmp) x xv r ++ N)) by (rewrite <- app_assoc; reflexivity).
        assert (HA1 : forall a, In a (L' ++ cut_left (cmp := cmp) x xv r) -> leb (en a) (r_start r) = true).
        { intros a Ha. apply in_app_or in Ha as [Ha|Ha]; [specialize (HL'e a Ha); ord|].
          unfold cut_left in Ha. destruct (ltb (r_start x) (r_start r)); [|destruct Ha].
          destruct Ha as [<-|[]]. cbn. ord. }
        assert (HB1 : forall b, In b (cut_right (cmp := cmp) x xv r ++ N) -> ltb (r_start r) (st b) = true).
        { intros b Hb. apply in_app_or in Hb as [Hb|Hb]; [|auto].
          unfold cut_right in Hb. destruct (ltb (r_end r) (r_end x)); [|destruct Hb].
          destruct Hb as [<-|[]]. cbn. ord. }
        rewrite remove_loop_exact; auto.
        * rewrite flat_map_app. do 3 f_equal. unfold cut_right. destruct (ltb (r_end r) (r_end x)) eqn:X; [|reflexivity].
          cbn [flat_map]. unfold part_from. cbn [fst snd r_start r_end]. rewrite X. replace (leb (r_end r) (r_end r)) with true by ord.
          reflexivity.
        * nlia.
        * apply WF_app. splits.
          -- apply cut_left_WF; exact HWL.
          -- apply cut_right_WF; exact HWxN.
          -- intros a b Ha Hb. specialize (HA1 a Ha). specialize (HB1 b Hb). split; [ord|intros; exfalso; ord].
      + unfold ret at 1. unfold bind at 1, get at 1.
        assert (Q1 : pb (r_start r) (x, xv) = [(x, xv)]).
        { unfold part_before. cbn [fst snd]. replace (ltb (r_start x) (r_start r)) with true by ord.
          replace (leb (r_end x) (r_start r)) with true by ord. reflexivity. }
        assert (Q2 : pf (r_end r) (x, xv) = []).
        { unfold part_from. cbn [fst snd]. replace (ltb (r_end r) (r_end x)) with false by ord. reflexivity. }
        rewrite Q1, Q2. rewrite remove_loop_exact; auto; [nlia|].
        intros a Ha. apply in_app_or in Ha as [Ha|[<-|[]]]; [specialize (HL'e a Ha); ord|cbn; ord].
  Qed.

  (** ** Histories *)
  Notation valid := (valid_range cmp).
  Notation eop := (entries_op valid put del).
  Lemma exec_exact o m : WF m -> snd (rm_exec cmp veqb o m) = eop m o.
  Proof.
    intros HW. destruct o as [r v|r| |l]; cbn [rm_exec entries_op].
    - destruct (valid r) eqn:E; [rewrite insert_exact by auto; reflexivity|].
      rewrite insert_panics by exact E. reflexivity.
    - destruct (valid r) eqn:E; [rewrite remove_exact by auto; reflexivity|].
      unfold rm_remove, bind at 1, assert_. unfold valid_range in E. rewrite E. reflexivity.
    - reflexivity.
    - unfold rm_extend. revert m HW. induction l as [|[r v] l IH]; intros m HW; cbn [for_each put_each fst snd]; [reflexivity|].
      unfold bind at 1. destruct (valid r) eqn:E.
      + rewrite insert_exact by auto. apply IH.
        destruct (insert_ok HO HV m r v HW E) as (m' & H1 & H2 & _). rewrite insert_exact in H1 by auto.
        injection H1 as <-. exact H2.
      + rewrite insert_panics by exact E. reflexivity.
  Qed.
  Lemma run_from_exact ops : forall m, WF m -> run_ops (rm_exec cmp veqb) ops m = fold_left eop ops m.
  Proof.
    induction ops as [|o ops IH]; intros m HW; [reflexivity|]. cbn. rewrite <- exec_exact by exact HW.
    apply IH. destruct (exec_ok HO HV o m HW) as (HW' & _). exact HW'.
  Qed.

  (** ** Putting in entries that do not meet what is there *)
  Notation sep := (@sep K V cmp veqb).
  Definition apart (a b : entry) : Prop := sep a b \/ sep b a.
  Lemma put_apart r v m : WF m -> ltb (r_start r) (r_end r) = true ->
    (forall e, In e m -> apart e (r, v)) ->
    exists A B, m = A ++ B /\ put r v m = A ++ (r, v) :: B.
  Proof.
    intros HW Hv Hap. destruct (split_le HO m r HW) as (L & N & -> & HL & HN & _).
    pose proof HW as HW0. apply WF_app in HW0 as (HWL & HWN & _).
    exists L, N. split; [reflexivity|].
    assert (HLs : forall a, In a L -> sep a (r, v)).
    { intros a Ha. destruct (Hap a (in_or_app _ _ _ (or_introl Ha))) as [H|[H _]]; [exact H|].
      exfalso. cbn [fst] in H. specialize (HL a Ha). ord. }
    assert (HNs : forall b, In b N -> sep (r, v) b).
    { intros b Hb. destruct (Hap b (in_or_app _ _ _ (or_intror Hb))) as [[H _]|H]; [|exact H].
      exfalso. cbn [fst] in H. specialize (HN b Hb). pose proof (proj2 HWN b Hb). ord. }
    assert (J : forall e, In e (L ++ N) -> joins r v e = false).
    { intros e He. unfold SpecExact.joins. apply in_app_or in He as [He|He].
      - destruct (HLs e He) as [H1 H2]. cbn [fst snd] in *. destruct (veqb (snd e) v); [|reflexivity]. cbn [andb].
        destruct (leb (r_start r) (en e)) eqn:E; [|reflexivity]. exfalso. discriminate H2. ord.
      - destruct (HNs e He) as [H1 H2]. cbn [fst snd] in *. destruct (veqb (snd e) v) eqn:Ev; [|reflexivity]. cbn [andb].
        rewrite (veq_sym _ HV _ _ Ev) in H2. destruct (leb (st e) (r_end r)) eqn:E; [|apply andb_false_r].
        exfalso. discriminate H2. ord. }
    unfold put_entries. rewrite (filter_never (joins r v)) by exact J.
    rewrite filter_always by (intros e He; rewrite (J e He); reflexivity).
    rewrite !flat_map_app.
    rewrite (flat_map_same (pb (r_start r)) L), (flat_map_none (pb (r_start r)) N), (flat_map_none (pf (r_end r)) L), (from_idle N); auto.
    - rewrite app_nil_r. destruct r; reflexivity.
    - intros b Hb. apply (HNs b Hb).
    - intros a Ha. destruct (HLs a Ha) as [H1 _]. cbn [fst] in H1. unfold part_from.
      replace (ltb (r_end r) (en a)) with false by ord. reflexivity.
    - intros b Hb. specialize (HN b Hb). unfold part_before. replace (ltb (st b) (r_start r)) with false by ord. reflexivity.
    - intros a Ha. destruct (HLs a Ha) as [H1 _]. cbn [fst] in H1. pose proof (proj2 HWL a Ha). unfold part_before.
      replace (ltb (st a) (r_start r)) with true by ord. rewrite H1. reflexivity.
  Qed.

  Lemma sorted_unique (a : rmap K V) : forall b, WF a -> WF b -> Permutation a b -> a = b.
  Proof.
    induction a as [|x a IH]; intros b Ha Hb HP; [apply Permutation_nil in HP; auto|].
    destruct b as [|y b]; [apply Permutation_sym, Permutation_nil in HP; discriminate|].
    apply WF_cons in Ha as (Hx & Ha & Hxa). apply WF_cons in Hb as (Hy & Hb & Hyb).
    assert (E : x = y).
    { assert (H1 : In x (y :: b)) by (apply (Permutation_in _ HP); left; reflexivity).
      assert (H2 : In y (x :: a)) by (apply (Permutation_in _ (Permutation_sym HP)); left; reflexivity).
      destruct H1 as [H1|H1]; [auto|]. destruct H2 as [H2|H2]; [auto|].
      destruct (Hyb x H1) as [H3 _]. destruct (Hxa y H2) as [H4 _]. exfalso. ord. }
    subst y. f_equal. apply IH; auto. apply Permutation_cons_inv in HP. exact HP.
  Qed.

  Lemma apart_all m : WF m -> forall a b, In a m -> In b m -> a = b \/ apart a b.
  Proof.
    intros [HS _]. induction HS as [|x m HS IH HF]; [intros a b []|].
    rewrite Forall_forall in HF.
    intros a b [<-|Ha] [<-|Hb]; auto; right; [left|right]; auto.
  Qed.
  Lemma WF_NoDup m : WF m -> NoDup m.
  Proof.
    induction m as [|x m IH]; intros HW; constructor; apply WF_cons in HW as (H1 & H2 & H3); auto.
    intros Hin. destruct (H3 x Hin) as [H4 _]. ord.
  Qed.

  Lemma rebuild_from l : forall s m, WF m -> WF s -> Permutation (s ++ l) m ->
    for_each (fun e => rm_insert cmp veqb (fst e) (snd e)) l s = (Ret tt, m).
  Proof.
    induction l as [|[r v] l IH]; intros s m HWm HWs HP; cbn [for_each fst snd].
    - rewrite app_nil_r in HP. rewrite (sorted_unique s m HWs HWm HP). reflexivity.
    - assert (Hin : In (r, v) m) by (apply (Permutation_in _ HP), in_or_app; right; left; reflexivity).
      assert (Hv : ltb (r_start r) (r_end r) = true) by (apply (proj2 HWm (r, v) Hin)).
      assert (Hnd : NoDup (s ++ (r, v) :: l)) by (apply (Permutation_NoDup (Permutation_sym HP)), WF_NoDup, HWm).
      destruct (put_apart r v s HWs Hv) as (A & B & -> & E).
      + intros e He. destruct (apart_all m HWm e (r, v)) as [->|H]; auto.
        * apply (Permutation_in _ HP), in_or_app. left. exact He.
        * exfalso. apply NoDup_remove_2 in Hnd. apply Hnd, in_or_app. left. exact He.
      + unfold bind at 1. rewrite insert_exact by auto.
        apply IH; auto.
        * destruct (insert_ok HO HV (A ++ B) r v HWs Hv) as (m' & H1 & H2 & _). rewrite insert_exact in H1 by auto.
          injection H1 as <-. exact H2.
        * rewrite E. rewrite <- HP. rewrite <- !app_assoc. apply Permutation_app_head.
          apply Permutation_cons_app. reflexivity.
  Qed.
End Exact.
