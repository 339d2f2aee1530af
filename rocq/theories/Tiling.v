(** Gaps and stored ranges together fill a query range (C70). *)
From Coq Require Import List Bool Sorting.Sorted Sorting.Permutation ZArith.
From Verif Require Import Order Outcome BTree Ranges History Spec MapModel IMapModel SetModel ISetModel
  ListLemmas IterFacts MapProps IMapProps SetProps SetFacts ISetProps ExhaustedAny ExhaustedSet.
Import ListNotations.

(** forward iteration as a schedule *)
Lemma deque_front {A} n : forall l : list A, deque_run (repeat Front n) l = yields n l.
Proof.
  induction n as [|n IH]; intros l; [reflexivity|]. unfold deque_run in *. cbn [repeat sched_trace].
  destruct l as [|a l]; cbn [deque_step map fst].
  - rewrite IH, !yields_nil. reflexivity.
  - rewrite IH, yields_cons. reflexivity.
Qed.
Lemma sched_front {S A} (next nb : S -> option A * S) n : forall s,
  map fst (sched_trace (both next nb) (fun _ => tt) (repeat Front n) s) = nexts next n s.
Proof.
  induction n as [|n IH]; intros s; [reflexivity|]. cbn [repeat sched_trace both nexts].
  destruct (next s) as [o s']. cbn [map fst]. rewrite IH. reflexivity.
Qed.
Lemma schedules_nexts {S A} (next nb : S -> option A * S) (r : outcome S) l :
  (forall sched, exists o, r = Ret o /\
     map fst (sched_trace (both next nb) (fun _ => tt) sched o) = deque_run sched l) ->
  exists o, r = Ret o /\ forall n, nexts next n o = yields n l.
Proof.
  intros H. destruct (H []) as (o & Ho & _). exists o. split; [exact Ho|]. intros n.
  destruct (H (repeat Front n)) as (o' & Ho' & E). rewrite Ho in Ho'. injection Ho' as <-.
  rewrite sched_front, deque_front in E. exact E.
Qed.

(** merging disjoint pieces into ascending order *)
Section Sort.
  Context {A : Type} (before : A -> A -> bool).
  Notation asc := (StronglySorted (fun a b => before a b = true)).
  Fixpoint place (a : A) (l : list A) : list A :=
    match l with [] => [a] | b :: l' => if before a b then a :: l else b :: place a l' end.
  Lemma place_perm a l : Permutation (place a l) (a :: l).
  Proof.
    induction l as [|b l IH]; cbn; [constructor; constructor|].
    destruct (before a b); [apply Permutation_refl|].
    eapply perm_trans; [apply perm_skip, IH|apply perm_swap].
  Qed.
  Lemma place_asc a l : (forall x y z, before x y = true -> before y z = true -> before x z = true) ->
    (forall b, In b l -> before a b = true \/ before b a = true) -> asc l -> asc (place a l).
  Proof.
    intros HT. induction l as [|b l IH]; intros Ha HS; cbn; [constructor; constructor|].
    inversion HS as [|? ? HS1 HS2]; subst. destruct (before a b) eqn:E.
    - constructor; [exact HS|]. constructor; [exact E|]. rewrite Forall_forall in *. intros x Hx. eapply HT; [exact E|auto].
    - constructor; [apply IH; [intros c Hc; apply Ha; right; exact Hc|exact HS1]|].
      rewrite Forall_forall in *. intros x Hx.
      apply (Permutation_in x (place_perm a l)) in Hx as [<- | Hx]; [|auto].
      destruct (Ha b (or_introl eq_refl)); congruence.
  Qed.
  Lemma merge_asc (a b : list A) : (forall x y z, before x y = true -> before y z = true -> before x z = true) ->
    asc a -> asc b -> (forall x y, In x a -> In y b -> before x y = true \/ before y x = true) ->
    exists l, Permutation l (a ++ b) /\ asc l.
  Proof.
    intros HT. induction a as [|x a IH]; intros Ha Hb Hd.
    - exists b. split; [apply Permutation_refl|exact Hb].
    - inversion Ha as [|? ? Ha1 Ha2]; subst. destruct (IH Ha1 Hb) as (l & P & S).
      { intros u w Hu. apply Hd. right; exact Hu. }
      exists (place x l). split.
      + eapply perm_trans; [apply place_perm|]. cbn. apply perm_skip, P.
      + apply place_asc; auto. intros c Hc. apply (Permutation_in c P) in Hc. apply in_app_iff in Hc as [Hc|Hc].
        * left. rewrite Forall_forall in Ha2. auto.
        * apply Hd; [left; reflexivity|exact Hc].
  Qed.
End Sort.
Lemma SS_weaken {A} (P Q : A -> A -> Prop) l : (forall a b, In a l -> In b l -> P a b -> Q a b) ->
  StronglySorted P l -> StronglySorted Q l.
Proof.
  intros H HS. induction HS as [|a l HS IH HF]; [constructor|]. constructor.
  - apply IH. intros x y Hx Hy. apply H; right; assumption.
  - rewrite Forall_forall in *. intros b Hb. apply H; [left; reflexivity|right; exact Hb|auto].
Qed.
Lemma SS_map_iff {A B} (f : A -> B) (P : B -> B -> Prop) l :
  StronglySorted (fun a b => P (f a) (f b)) l -> StronglySorted P (map f l).
Proof.
  induction 1 as [|a l HS IH HF]; cbn; constructor; [exact IH|]. rewrite Forall_map. exact HF.
Qed.
Lemma SS_filter' {A} (P : A -> A -> Prop) p l : StronglySorted P l -> StronglySorted P (filter p l).
Proof.
  induction 1 as [|a l HS IH HF]; cbn; [constructor|]. destruct (p a); [|exact IH]. constructor; [exact IH|].
  rewrite Forall_forall in *. intros b Hb. apply filter_In in Hb as [Hb _]. auto.
Qed.

Section HalfOpen.
  Context {K : Type} {cmp : K -> K -> comparison} (HO : TotalOrd cmp).
  Notation covers := (in_range cmp).
  Notation valid := (valid_range cmp).
  Definition r_before (a b : range K) : bool := valid a && valid b && leb cmp (r_end a) (r_start b).

  Lemma asc_tiles e : forall l s, leb cmp s e = true ->
    StronglySorted (fun a b => r_before a b = true) l ->
    (forall r, In r l -> valid r = true /\ leb cmp s (r_start r) = true /\ leb cmp (r_end r) e = true) ->
    (forall k, covers (mkR s e) k = true -> exists r, In r l /\ covers r k = true) ->
    tiles cmp s e l.
  Proof.
    induction l as [|r l IH]; intros s Hse HS Hin Hc; cbn [tiles].
    - destruct (ltb cmp s e) eqn:E; [|ord].
      destruct (Hc s) as (r & [] & _). unfold in_range. cbn. ord.
    - inversion HS as [|? ? HS1 HS2]; subst. rewrite Forall_forall in HS2.
      destruct (Hin r (or_introl eq_refl)) as (V1 & V2 & V3). unfold valid_range in V1. splits.
      + destruct (ltb cmp s (r_start r)) eqn:E; [|ord].
        destruct (Hc s) as (x & Hx & Hk); [unfold in_range; cbn; ord|].
        destruct Hx as [<- | Hx]; [unfold in_range in Hk; ord|].
        specialize (HS2 x Hx). unfold r_before, valid_range in HS2. unfold in_range in Hk. ord.
      + exact V1.
      + apply IH; auto.
        * intros x Hx. destruct (Hin x (or_intror Hx)) as (W1 & W2 & W3). specialize (HS2 x Hx).
          unfold r_before in HS2. splits; auto. apply andb_true_iff in HS2 as [_ HS2]. exact HS2.
        * intros k Hk. destruct (Hc k) as (x & Hx & Hk'); [unfold in_range in Hk |- *; cbn in Hk |- *; ord|].
          destruct Hx as [<- | Hx]; [exfalso; unfold in_range in Hk, Hk'; cbn in Hk, Hk'; ord|]. exists x; auto.
  Qed.

  (** pieces covering the mapped keys, pieces covering the others *)
  Lemma tiling outer (gs es : list (range K)) (f : K -> bool) : valid outer = true ->
    (forall g, In g (gs ++ es) -> valid g = true /\
       leb cmp (r_start outer) (r_start g) = true /\ leb cmp (r_end g) (r_end outer) = true) ->
    StronglySorted (fun a b => leb cmp (r_end a) (r_start b) = true) gs ->
    StronglySorted (fun a b => leb cmp (r_end a) (r_start b) = true) es ->
    (forall k, covers outer k = true -> f k = false -> exists g, In g gs /\ covers g k = true) ->
    (forall k, covers outer k = true -> f k = true -> exists g, In g es /\ covers g k = true) ->
    (forall g k, In g gs -> covers g k = true -> f k = false) ->
    (forall g k, In g es -> covers g k = true -> f k = true) ->
    exists l, Permutation l (gs ++ es) /\ tiles cmp (r_start outer) (r_end outer) l.
  Proof.
    intros Ho Hin Sg Se Cg Ce Dg De.
    destruct (merge_asc r_before gs es) as (l & P & S).
    - intros x y z. unfold r_before, valid_range. intros. ord.
    - eapply SS_weaken; [|exact Sg]. intros a b Ha Hb H. unfold r_before. rewrite H.
      rewrite (proj1 (Hin a (in_or_app _ _ _ (or_introl Ha)))), (proj1 (Hin b (in_or_app _ _ _ (or_introl Hb)))). reflexivity.
    - eapply SS_weaken; [|exact Se]. intros a b Ha Hb H. unfold r_before. rewrite H.
      rewrite (proj1 (Hin a (in_or_app _ _ _ (or_intror Ha)))), (proj1 (Hin b (in_or_app _ _ _ (or_intror Hb)))). reflexivity.
    - intros x y Hx Hy.
      destruct (Hin x (in_or_app _ _ _ (or_introl Hx))) as (Vx & _). destruct (Hin y (in_or_app _ _ _ (or_intror Hy))) as (Vy & _).
      unfold r_before. rewrite Vx, Vy. cbn [andb].
      destruct (leb cmp (r_end x) (r_start y)) eqn:E1; [auto|]. destruct (leb cmp (r_end y) (r_start x)) eqn:E2; [auto|]. exfalso.
      set (k := kmax cmp (r_start x) (r_start y)).
      assert (H1 : covers x k = true) by (unfold k, kmax, in_range, valid_range in *; destruct (ltb cmp (r_start y) (r_start x)) eqn:E; ord).
      assert (H2 : covers y k = true) by (unfold k, kmax, in_range, valid_range in *; destruct (ltb cmp (r_start y) (r_start x)) eqn:E; ord).
      specialize (Dg x k Hx H1). specialize (De y k Hy H2). congruence.
    - exists l. split; [exact P|]. apply asc_tiles; auto.
      + unfold valid_range in Ho. ord.
      + intros r Hr. apply Hin. eapply Permutation_in; [exact P|exact Hr].
      + intros k Hk. replace (mkR (r_start outer) (r_end outer)) with outer in Hk by (destruct outer; reflexivity).
        assert (G : exists r, In r (gs ++ es) /\ covers r k = true).
        { destruct (f k) eqn:E.
          - destruct (Ce k Hk E) as (g & Hg & H). exists g. split; [apply in_or_app; right; exact Hg|exact H].
          - destruct (Cg k Hk E) as (g & Hg & H). exists g. split; [apply in_or_app; left; exact Hg|exact H]. }
        destruct G as (r & Hr & H). exists r. split; [|exact H].
        eapply Permutation_in; [apply Permutation_sym, P|exact Hr].
  Qed.

  (** clipping the ranges that meet [outer] *)
  Lemma clip_ok outer r : valid outer = true -> valid r = true -> meets cmp outer r = true ->
    valid (clip cmp outer r) = true /\ leb cmp (r_start outer) (r_start (clip cmp outer r)) = true /\
    leb cmp (r_end (clip cmp outer r)) (r_end outer) = true.
  Proof.
    unfold valid_range, meets, clip. cbn. intros.
    destruct (ltb cmp (r_start r) (r_start outer)) eqn:E1, (ltb cmp (r_end outer) (r_end r)) eqn:E2; splits; ord.
  Qed.
  Lemma clip_covers outer r k : covers (clip cmp outer r) k = covers outer k && covers r k.
  Proof.
    unfold in_range, clip. cbn.
    destruct (ltb cmp (r_start r) (r_start outer)) eqn:E1, (ltb cmp (r_end outer) (r_end r)) eqn:E2; ord.
  Qed.
  Lemma clip_le outer a b : leb cmp (r_end a) (r_start b) = true ->
    leb cmp (r_end (clip cmp outer a)) (r_start (clip cmp outer b)) = true.
  Proof.
    unfold clip. cbn. intros H.
    destruct (ltb cmp (r_end outer) (r_end a)) eqn:E1, (ltb cmp (r_start b) (r_start outer)) eqn:E2; ord.
  Qed.
  Lemma clip_empty outer r : valid outer = false -> valid (clip cmp outer r) = false.
  Proof.
    unfold valid_range, clip. cbn. intros H.
    destruct (ltb cmp (r_start r) (r_start outer)) eqn:E1, (ltb cmp (r_end outer) (r_end r)) eqn:E2; ord.
  Qed.
  Lemma covers_meets outer r k : covers outer k = true -> covers r k = true -> meets cmp outer r = true.
  Proof. unfold in_range, meets. intros. ord. Qed.

  Lemma tiling_clip outer (gs rs : list (range K)) (f : K -> bool) : valid outer = true ->
    (forall g, In g gs -> valid g = true /\
       leb cmp (r_start outer) (r_start g) = true /\ leb cmp (r_end g) (r_end outer) = true) ->
    StronglySorted (fun a b => ltb cmp (r_end a) (r_start b) = true) gs ->
    (forall k, (exists g, In g gs /\ covers g k = true) <-> covers outer k = true /\ f k = false) ->
    (forall r, In r rs -> valid r = true) ->
    StronglySorted (fun a b => leb cmp (r_end a) (r_start b) = true) rs ->
    (forall k, f k = true <-> exists r, In r rs /\ covers r k = true) ->
    exists l, Permutation l (gs ++ map (clip cmp outer) (filter (meets cmp outer) rs)) /\
      tiles cmp (r_start outer) (r_end outer) l.
  Proof.
    intros Ho Hg Sg Cg Vr Sr Cr. apply (tiling _ _ _ f); auto.
    - intros g Hg'. apply in_app_iff in Hg' as [H|H]; [auto|]. apply in_map_iff in H as (r & <- & H).
      apply filter_In in H as [H1 H2]. apply clip_ok; auto.
    - eapply SS_weaken; [|exact Sg]. cbn. intros a b _ _ H. ord.
    - apply SS_map_iff. eapply SS_weaken; [|apply SS_filter', Sr]. cbn. intros a b _ _ H. apply clip_le, H.
    - intros k H1 H2. apply Cg. auto.
    - intros k H1 H2. apply Cr in H2 as (r & H2 & H3). exists (clip cmp outer r). split.
      + apply in_map, filter_In. split; [exact H2|]. eapply covers_meets; eauto.
      + rewrite clip_covers, H1, H3. reflexivity.
    - intros g k H1 H2. apply (Cg k). eauto.
    - intros g k H1 H2. apply in_map_iff in H1 as (r & <- & H1). apply filter_In in H1 as [H1 _].
      rewrite clip_covers in H2. apply andb_true_iff in H2 as [_ H2]. apply Cr. eauto.
  Qed.
End HalfOpen.

Section Inclusive.
  Context {K : Type} {cmp : K -> K -> comparison} (HO : TotalOrd cmp).
  Notation covers := (in_rangei cmp).
  Notation valid := (valid_rangei cmp).
  Definition ri_before (a b : rangei K) : bool := valid a && valid b && ltb cmp (ri_end a) (ri_start b).

  Lemma asc_tilesi e : forall l s, leb cmp s e = true ->
    StronglySorted (fun a b => ri_before a b = true) l ->
    (forall r, In r l -> valid r = true /\ leb cmp s (ri_start r) = true /\ leb cmp (ri_end r) e = true) ->
    (forall k, covers (incl s e) k = true -> exists r, In r l /\ covers r k = true) ->
    tilesi cmp s e l.
  Proof.
    induction l as [|r l IH]; intros s Hse HS Hin Hc; cbn [tilesi].
    - destruct (Hc s) as (r & [] & _). unfold in_rangei. cbn. ord.
    - inversion HS as [|? ? HS1 HS2]; subst. rewrite Forall_forall in HS2.
      destruct (Hin r (or_introl eq_refl)) as (V1 & V2 & V3). unfold valid_rangei in V1. splits.
      + destruct (ltb cmp s (ri_start r)) eqn:E; [|ord].
        destruct (Hc s) as (x & Hx & Hk); [unfold in_rangei; cbn; ord|].
        destruct Hx as [<- | Hx]; [unfold in_rangei in Hk; ord|].
        specialize (HS2 x Hx). unfold ri_before, valid_rangei in HS2. unfold in_rangei in Hk. ord.
      + exact V1.
      + destruct l as [|r' l].
        * destruct (ltb cmp (ri_end r) e) eqn:E; [|ord].
          destruct (Hc e) as (x & Hx & Hk); [unfold in_rangei; cbn; ord|].
          destruct Hx as [<- | []]. unfold in_rangei in Hk. ord.
        * pose proof (HS2 r' (or_introl eq_refl)) as B. destruct (Hin r' (or_intror (or_introl eq_refl))) as (W1 & W2 & W3).
          unfold ri_before, valid_rangei in B. unfold valid_rangei in W1.
          assert (HA : forall x, In x (r' :: l) -> leb cmp (ri_start r') (ri_start x) = true).
          { intros x [<- | Hx]; [ord|]. inversion HS1 as [|? ? _ HF]; subst. rewrite Forall_forall in HF.
            specialize (HF x Hx). unfold ri_before, valid_rangei in HF. ord. }
          splits.
          -- ord.
          -- intros k H1 H2. destruct (Hc k) as (x & Hx & Hk); [unfold in_rangei; cbn; ord|].
             destruct Hx as [<- | Hx]; [unfold in_rangei in Hk; ord|]. specialize (HA x Hx). unfold in_rangei in Hk. ord.
          -- apply IH; auto.
             ++ ord.
             ++ intros x Hx. destruct (Hin x (or_intror Hx)) as (X1 & X2 & X3). splits; auto.
             ++ intros k Hk. destruct (Hc k) as (x & Hx & Hk'); [unfold in_rangei in Hk |- *; cbn in Hk |- *; ord|].
                destruct Hx as [<- | Hx]; [exfalso; unfold in_rangei in Hk, Hk'; cbn in Hk, Hk'; ord|]. exists x; auto.
  Qed.

  Lemma tilingi outer (gs es : list (rangei K)) (f : K -> bool) : valid outer = true ->
    (forall g, In g (gs ++ es) -> valid g = true /\
       leb cmp (ri_start outer) (ri_start g) = true /\ leb cmp (ri_end g) (ri_end outer) = true) ->
    StronglySorted (fun a b => ltb cmp (ri_end a) (ri_start b) = true) gs ->
    StronglySorted (fun a b => ltb cmp (ri_end a) (ri_start b) = true) es ->
    (forall k, covers outer k = true -> f k = false -> exists g, In g gs /\ covers g k = true) ->
    (forall k, covers outer k = true -> f k = true -> exists g, In g es /\ covers g k = true) ->
    (forall g k, In g gs -> covers g k = true -> f k = false) ->
    (forall g k, In g es -> covers g k = true -> f k = true) ->
    exists l, Permutation l (gs ++ es) /\ tilesi cmp (ri_start outer) (ri_end outer) l.
  Proof.
    intros Ho Hin Sg Se Cg Ce Dg De.
    destruct (merge_asc ri_before gs es) as (l & P & S).
    - intros x y z. unfold ri_before, valid_rangei. intros. ord.
    - eapply SS_weaken; [|exact Sg]. intros a b Ha Hb H. unfold ri_before. rewrite H.
      rewrite (proj1 (Hin a (in_or_app _ _ _ (or_introl Ha)))), (proj1 (Hin b (in_or_app _ _ _ (or_introl Hb)))). reflexivity.
    - eapply SS_weaken; [|exact Se]. intros a b Ha Hb H. unfold ri_before. rewrite H.
      rewrite (proj1 (Hin a (in_or_app _ _ _ (or_intror Ha)))), (proj1 (Hin b (in_or_app _ _ _ (or_intror Hb)))). reflexivity.
    - intros x y Hx Hy.
      destruct (Hin x (in_or_app _ _ _ (or_introl Hx))) as (Vx & _). destruct (Hin y (in_or_app _ _ _ (or_intror Hy))) as (Vy & _).
      unfold ri_before. rewrite Vx, Vy. cbn [andb].
      destruct (ltb cmp (ri_end x) (ri_start y)) eqn:E1; [auto|]. destruct (ltb cmp (ri_end y) (ri_start x)) eqn:E2; [auto|]. exfalso.
      set (k := kmax cmp (ri_start x) (ri_start y)).
      assert (H1 : covers x k = true) by (unfold k, kmax, in_rangei, valid_rangei in *; destruct (ltb cmp (ri_start y) (ri_start x)) eqn:E; ord).
      assert (H2 : covers y k = true) by (unfold k, kmax, in_rangei, valid_rangei in *; destruct (ltb cmp (ri_start y) (ri_start x)) eqn:E; ord).
      specialize (Dg x k Hx H1). specialize (De y k Hy H2). congruence.
    - exists l. split; [exact P|]. apply asc_tilesi; auto.
      + unfold valid_rangei in Ho. ord.
      + intros r Hr. apply Hin. eapply Permutation_in; [exact P|exact Hr].
      + intros k Hk. assert (Hk' : covers outer k = true) by exact Hk.
        assert (G : exists r, In r (gs ++ es) /\ covers r k = true).
        { destruct (f k) eqn:E.
          - destruct (Ce k Hk' E) as (g & Hg & H). exists g. split; [apply in_or_app; right; exact Hg|exact H].
          - destruct (Cg k Hk' E) as (g & Hg & H). exists g. split; [apply in_or_app; left; exact Hg|exact H]. }
        destruct G as (r & Hr & H). exists r. split; [|exact H].
        eapply Permutation_in; [apply Permutation_sym, P|exact Hr].
  Qed.

  Lemma clipi_ok outer r : valid outer = true -> valid r = true -> meetsi cmp outer r = true ->
    valid (clipi cmp outer r) = true /\ leb cmp (ri_start outer) (ri_start (clipi cmp outer r)) = true /\
    leb cmp (ri_end (clipi cmp outer r)) (ri_end outer) = true.
  Proof.
    unfold valid_rangei, meetsi, clipi. cbn. intros.
    destruct (ltb cmp (ri_start r) (ri_start outer)) eqn:E1, (ltb cmp (ri_end outer) (ri_end r)) eqn:E2; splits; ord.
  Qed.
  Lemma clipi_covers outer r k : covers (clipi cmp outer r) k = covers outer k && covers r k.
  Proof.
    unfold in_rangei, clipi. cbn.
    destruct (ltb cmp (ri_start r) (ri_start outer)) eqn:E1, (ltb cmp (ri_end outer) (ri_end r)) eqn:E2; ord.
  Qed.
  Lemma clipi_lt outer a b : ltb cmp (ri_end a) (ri_start b) = true ->
    ltb cmp (ri_end (clipi cmp outer a)) (ri_start (clipi cmp outer b)) = true.
  Proof.
    unfold clipi. cbn. intros H.
    destruct (ltb cmp (ri_end outer) (ri_end a)) eqn:E1, (ltb cmp (ri_start b) (ri_start outer)) eqn:E2; ord.
  Qed.
  Lemma clipi_empty outer r : valid outer = false -> valid (clipi cmp outer r) = false.
  Proof.
    unfold valid_rangei, clipi. cbn. intros H.
    destruct (ltb cmp (ri_start r) (ri_start outer)) eqn:E1, (ltb cmp (ri_end outer) (ri_end r)) eqn:E2; ord.
  Qed.
  Lemma coversi_meets outer r k : covers outer k = true -> covers r k = true -> meetsi cmp outer r = true.
  Proof. unfold in_rangei, meetsi. intros. ord. Qed.

  Lemma tilingi_clip outer (gs rs : list (rangei K)) (f : K -> bool) : valid outer = true ->
    (forall g, In g gs -> ri_exhausted g = false /\ valid g = true /\
       leb cmp (ri_start outer) (ri_start g) = true /\ leb cmp (ri_end g) (ri_end outer) = true) ->
    StronglySorted (fun a b => exists k, ltb cmp (ri_end a) k = true /\ ltb cmp k (ri_start b) = true) gs ->
    (forall k, (exists g, In g gs /\ covers g k = true) <-> covers outer k = true /\ f k = false) ->
    (forall r, In r rs -> valid r = true) ->
    StronglySorted (fun a b => ltb cmp (ri_end a) (ri_start b) = true) rs ->
    (forall k, f k = true <-> exists r, In r rs /\ covers r k = true) ->
    exists l, Permutation l (gs ++ map (clipi cmp outer) (filter (meetsi cmp outer) rs)) /\
      tilesi cmp (ri_start outer) (ri_end outer) l.
  Proof.
    intros Ho Hg Sg Cg Vr Sr Cr. apply (tilingi _ _ _ f); auto.
    - intros g Hg'. apply in_app_iff in Hg' as [H|H]; [apply Hg, H|]. apply in_map_iff in H as (r & <- & H).
      apply filter_In in H as [H1 H2]. apply clipi_ok; auto.
    - eapply SS_weaken; [|exact Sg]. cbn. intros a b _ _ (k & H1 & H2). ord.
    - apply SS_map_iff. eapply SS_weaken; [|apply SS_filter', Sr]. cbn. intros a b _ _ H. apply clipi_lt, H.
    - intros k H1 H2. apply Cg. auto.
    - intros k H1 H2. apply Cr in H2 as (r & H2 & H3). exists (clipi cmp outer r). split.
      + apply in_map, filter_In. split; [exact H2|]. eapply coversi_meets; eauto.
      + rewrite clipi_covers, H1, H3. reflexivity.
    - intros g k H1 H2. apply (Cg k). eauto.
    - intros g k H1 H2. apply in_map_iff in H1 as (r & <- & H1). apply filter_In in H1 as [H1 _].
      rewrite clipi_covers in H2. apply andb_true_iff in H2 as [_ H2]. apply Cr. eauto.
  Qed.
End Inclusive.

Lemma map_filter_fst {A B C} (g : A -> C) (p : A -> bool) (l : list (A * B)) :
  map (fun e => g (fst e)) (filter (fun e => p (fst e)) l) = map g (filter p (map fst l)).
Proof. induction l as [|[a b] l IH]; cbn; [reflexivity|]. destruct (p a); cbn; congruence. Qed.

Section Maps.
  Context {K V : Type} {cmp : K -> K -> comparison} {veqb : V -> V -> bool}.
  Context (HO : TotalOrd cmp) (HV : PartialEquiv veqb).
  Notation run := (rm_run cmp veqb).
  Definition mapped (f : K -> option V) (k : K) : bool := match f k with Some _ => true | None => false end.
  Lemma represents_mapped {R} (covers : R -> K -> bool) l f : represents covers veqb l f ->
    forall k, mapped f k = true <-> exists r, In r (map fst l) /\ covers r k = true.
  Proof.
    intros H k. specialize (H k). unfold mapped. destruct (f k) as [v|]; split; try discriminate; auto.
    - intros _. destruct H as (r & v' & H1 & H2 & _). exists r. split; [|exact H2].
      apply in_map_iff. exists (r, v'). auto.
    - intros (r & H1 & H2). apply in_map_iff in H1 as ([r0 v0] & E & H1). cbn in E. subst.
      rewrite (H _ _ H1) in H2. discriminate.
  Qed.

  Lemma map_overlapping ops q : exists o, rm_overlapping cmp (run ops) q = Ret o /\
    forall n, nexts (ov_next cmp) n o = yields n (filter (fun e => meets cmp q (fst e)) (rm_iter (run ops))).
  Proof.
    apply (schedules_nexts (ov_next cmp) (ov_next_back cmp)). intros sched.
    exact (MapIter.overlapping_schedule HO _ q sched (MapFacts.run_WF HO HV ops)).
  Qed.
  Lemma map_tiles ops outer : valid_range cmp outer = true ->
    exists g o gs es l,
      rm_gaps cmp (run ops) outer = Ret g /\ (forall n, nexts (gp_next cmp) n g = yields n gs) /\
      rm_overlapping cmp (run ops) outer = Ret o /\ (forall n, nexts (ov_next cmp) n o = yields n es) /\
      Permutation l (gs ++ map (fun e => clip cmp outer (fst e)) es) /\
      tiles cmp (r_start outer) (r_end outer) l.
  Proof.
    intros Ho. destruct (run_gaps HO HV ops outer) as (g & gs & Hg & Hn & G1 & G2 & G3).
    destruct (map_overlapping ops outer) as (o & Hov & Hon).
    destruct (iter_valid_ascending HO HV ops) as [A1 A2].
    destruct (iter_describes HO HV ops) as [A3 _]. pose proof (represents_mapped _ _ _ A3) as A4.
    destruct (tiling_clip HO outer gs (map fst (rm_iter (run ops))) (mapped (spec_run (valid_range cmp) (in_range cmp) ops)))
      as (l & P & T); auto.
    - intros k. rewrite G3. unfold mapped. destruct (spec_run _ _ ops k); intuition congruence.
    - intros r Hr. apply in_map_iff in Hr as ([r0 v0] & <- & Hr). eapply A2, Hr.
    - apply SS_map_iff, A1.
    - exists g, o, gs, (filter (fun e => meets cmp outer (fst e)) (rm_iter (run ops))), l.
      splits; auto. rewrite map_filter_fst. exact P.
  Qed.
  Lemma map_no_tiles ops outer : valid_range cmp outer = false ->
    exists g o es,
      rm_gaps cmp (run ops) outer = Ret g /\ (forall n, nexts (gp_next cmp) n g = repeat None n) /\
      rm_overlapping cmp (run ops) outer = Ret o /\ (forall n, nexts (ov_next cmp) n o = yields n es) /\
      forall e, In e es -> valid_range cmp (clip cmp outer (fst e)) = false.
  Proof.
    intros Ho. destruct (run_gaps_empty HO HV ops outer Ho) as (g & Hg & Hn).
    destruct (map_overlapping ops outer) as (o & Hov & Hon). do 3 eexists.
    splits; [exact Hg|exact Hn|exact Hov|exact Hon|]. intros e _. apply (clip_empty HO), Ho.
  Qed.
End Maps.

Section IMaps.
  Context {K V : Type} {cmp : K -> K -> comparison} {veqb : V -> V -> bool} {st : stepfns K}.
  Context (HO : TotalOrd cmp) (HS : StepLaws cmp st) (HV : PartialEquiv veqb).
  Notation run := (im_run cmp veqb st).

  Lemma imap_overlapping ops q : exists o, im_overlapping cmp (run ops) q = Ret o /\
    forall n, nexts (ovi_next cmp) n o = yields n (filter (fun e => meetsi cmp q (fst e)) (im_iter (run ops))).
  Proof.
    apply (schedules_nexts (ovi_next cmp) (ovi_next_back cmp)). intros sched.
    exact (any_overlapping HO HS HV ops q sched).
  Qed.
  Lemma imap_tiles ops outer : valid_rangei cmp outer = true ->
    exists g o gs es l,
      im_gaps cmp (run ops) outer = Ret g /\ (forall n, nexts_m (gpi_next cmp st) n g = map Ret (yields n gs)) /\
      im_overlapping cmp (run ops) outer = Ret o /\ (forall n, nexts (ovi_next cmp) n o = yields n es) /\
      Permutation l (gs ++ map (fun e => clipi cmp outer (fst e)) es) /\
      tilesi cmp (ri_start outer) (ri_end outer) l.
  Proof.
    intros Ho. destruct (any_gaps HO HS HV ops outer) as (g & gs & Hg & Hn & G1 & G2 & G3).
    destruct (imap_overlapping ops outer) as (o & Hov & Hon).
    destruct (any_valid HO HS HV ops) as [A1 A2].
    destruct (any_describes HO HS HV ops) as [A3 _]. pose proof (represents_mapped _ _ _ A3) as A4.
    destruct (tilingi_clip HO outer gs (map fst (im_iter (run ops))) (mapped (spec_run (valid_rangei cmp) (in_rangei cmp) ops)))
      as (l & P & T); auto.
    - intros k. rewrite G3. unfold mapped. destruct (spec_run _ _ ops k); intuition congruence.
    - intros r Hr. apply in_map_iff in Hr as ([r0 v0] & <- & Hr). eapply A2, Hr.
    - apply SS_map_iff, A1.
    - exists g, o, gs, (filter (fun e => meetsi cmp outer (fst e)) (im_iter (run ops))), l.
      splits; auto. rewrite map_filter_fst. exact P.
  Qed.
  Lemma imap_no_tiles ops outer : valid_rangei cmp outer = false ->
    exists g o es,
      im_gaps cmp (run ops) outer = Ret g /\ (forall n, nexts_m (gpi_next cmp st) n g = repeat (Ret None) n) /\
      im_overlapping cmp (run ops) outer = Ret o /\ (forall n, nexts (ovi_next cmp) n o = yields n es) /\
      forall e, In e es -> valid_rangei cmp (clipi cmp outer (fst e)) = false.
  Proof.
    intros Ho. destruct (any_gaps_empty HO HS HV ops outer Ho) as (g & Hg & Hn).
    destruct (imap_overlapping ops outer) as (o & Hov & Hon). do 3 eexists.
    splits; [exact Hg|exact Hn|exact Hov|exact Hon|]. intros e _. apply (clipi_empty HO), Ho.
  Qed.
End IMaps.

Section Sets.
  Context {K : Type} {cmp : K -> K -> comparison} (HO : TotalOrd cmp).
  Notation run := (rs_run cmp).
  Lemma runs_inside (f : K -> bool) outer gs : valid_range cmp outer = true ->
    runs_of cmp (fun k => in_range cmp outer k && negb (f k)) gs ->
    forall g, In g gs -> valid_range cmp g = true /\
       leb cmp (r_start outer) (r_start g) = true /\ leb cmp (r_end g) (r_end outer) = true.
  Proof.
    intros Ho (G1 & _ & G3) g Hg. pose proof (G1 g Hg) as V.
    assert (C : forall k, in_range cmp g k = true -> in_range cmp outer k = true).
    { intros k Hk. assert (H : exists r, In r gs /\ in_range cmp r k = true) by eauto. apply G3 in H.
      apply andb_true_iff in H. tauto. }
    unfold valid_range in *. splits; auto.
    - specialize (C (r_start g)). unfold in_range in C. destruct (leb cmp (r_start outer) (r_start g)) eqn:E; [reflexivity|].
      assert (H : negb (ltb cmp (r_start g) (r_start g)) && ltb cmp (r_start g) (r_end g) = true) by ord.
      specialize (C H). ord.
    - destruct (leb cmp (r_end g) (r_end outer)) eqn:E; [reflexivity|].
      assert (H : in_range cmp g (r_start g) = true) by (unfold in_range; ord). apply C in H. unfold in_range in H.
      assert (H' : in_range cmp g (r_end outer) = true) by (unfold in_range; ord). apply C in H'. unfold in_range in H'. ord.
  Qed.
  Lemma set_tiles ops outer : valid_range cmp outer = true ->
    exists g o gs es l,
      rs_gaps cmp (run ops) outer = Ret g /\ (forall n, nexts (rs_gaps_next cmp) n g = yields n gs) /\
      rs_overlapping cmp (run ops) outer = Ret o /\ (forall n, nexts (rs_ov_next cmp) n o = yields n es) /\
      Permutation l (gs ++ map (clip cmp outer) es) /\
      tiles cmp (r_start outer) (r_end outer) l.
  Proof.
    intros Ho. destruct (sgaps HO ops outer) as (g & gs & Hg & Hn & HR).
    destruct (schedules_nexts (rs_ov_next cmp) (rs_ov_next_back cmp) _ _ (soverlapping HO ops outer)) as (o & Hov & Hon).
    destruct (srun_runs HO ops) as (A1 & A2 & A3).
    destruct (tiling_clip HO outer gs (map fst (rs_iter (run ops))) (mem_run (valid_range cmp) (in_range cmp) ops))
      as (l & P & T); auto.
    - exact (runs_inside _ _ _ Ho HR).
    - apply HR.
    - intros k. destruct HR as (_ & _ & HR). rewrite HR, andb_true_iff, negb_true_iff. reflexivity.
    - eapply SS_weaken; [|exact A2]. cbn. intros a b _ _ H. ord.
    - intros k. rewrite A3. reflexivity.
    - exists g, o, gs, (filter (meets cmp outer) (map fst (rs_iter (run ops)))), l. splits; auto.
  Qed.
  Lemma set_no_tiles ops outer : valid_range cmp outer = false ->
    exists g o es,
      rs_gaps cmp (run ops) outer = Ret g /\ (forall n, nexts (rs_gaps_next cmp) n g = repeat None n) /\
      rs_overlapping cmp (run ops) outer = Ret o /\ (forall n, nexts (rs_ov_next cmp) n o = yields n es) /\
      forall r, In r es -> valid_range cmp (clip cmp outer r) = false.
  Proof.
    intros Ho. destruct (sgaps HO ops outer) as (g & gs & Hg & Hn & HR).
    destruct (schedules_nexts (rs_ov_next cmp) (rs_ov_next_back cmp) _ _ (soverlapping HO ops outer)) as (o & Hov & Hon).
    assert (E : gs = []).
    { destruct gs as [|r gs]; [reflexivity|]. exfalso. destruct HR as (R1 & _ & R3).
      pose proof (R1 r (or_introl eq_refl)) as V. unfold valid_range in V.
      assert (H : exists x, In x (r :: gs) /\ in_range cmp x (r_start r) = true).
      { exists r. split; [left; reflexivity|]. unfold in_range. ord. }
      apply R3 in H. apply andb_true_iff in H as [H _]. unfold in_range in H. unfold valid_range in Ho. ord. }
    subst gs. do 3 eexists. splits; [exact Hg| |exact Hov|exact Hon|].
    - intros n. rewrite Hn. apply yields_nil.
    - intros e _. apply (clip_empty HO), Ho.
  Qed.
End Sets.

Section ISets.
  Context {K : Type} {cmp : K -> K -> comparison} {st : stepfns K} (HO : TotalOrd cmp) (HS : StepLaws cmp st).
  Notation run := (is_run cmp st).
  Lemma runsi_inside (f : K -> bool) outer gs :
    runsi_of cmp (fun k => in_rangei cmp outer k && negb (f k)) gs ->
    forall g, In g gs -> ri_exhausted g = false /\ valid_rangei cmp g = true /\
       leb cmp (ri_start outer) (ri_start g) = true /\ leb cmp (ri_end g) (ri_end outer) = true.
  Proof.
    intros (G1 & _ & G3) g Hg. destruct (G1 g Hg) as [X V].
    assert (C : forall k, in_rangei cmp g k = true -> in_rangei cmp outer k = true).
    { intros k Hk. assert (H : exists r, In r gs /\ in_rangei cmp r k = true) by eauto. apply G3 in H.
      apply andb_true_iff in H. tauto. }
    unfold valid_rangei in V.
    assert (H1 : in_rangei cmp g (ri_start g) = true) by (unfold in_rangei; ord).
    assert (H2 : in_rangei cmp g (ri_end g) = true) by (unfold in_rangei; ord).
    apply C in H1, H2. unfold in_rangei in H1, H2. splits; auto; ord.
  Qed.
  Lemma unit_per : PartialEquiv unit_eqb.
  Proof. split; reflexivity. Qed.
  Lemma iset_overlapping ops q sched : exists o, is_overlapping cmp (run ops) q = Ret o /\
      map fst (sched_trace (both (is_ov_next cmp) (is_ov_next_back cmp)) (fun _ => tt) sched o) =
      deque_run sched (filter (meetsi cmp q) (map fst (is_iter (run ops)))).
  Proof.
    destruct (any_overlapping HO HS unit_per (to_ops ops) q sched) as (o & H1 & H2).
    rewrite <- irun_to_ops in H1, H2. exists o. split; [exact H1|].
    rewrite (sched_map fst (both (ovi_next cmp) (ovi_next_back cmp))).
    - rewrite map_map. cbn. rewrite filter_map, deque_map. unfold is_iter. rewrite <- H2, map_map.
      reflexivity.
    - intros d s. destruct d; cbn [both]; unfold is_ov_next, is_ov_next_back.
      + destruct (ovi_next cmp s); reflexivity.
      + destruct (ovi_next_back cmp s); reflexivity.
  Qed.
  Lemma iset_tiles ops outer : valid_rangei cmp outer = true ->
    exists g o gs es l,
      is_gaps cmp (run ops) outer = Ret g /\ (forall n, nexts_m (is_gaps_next cmp st) n g = map Ret (yields n gs)) /\
      is_overlapping cmp (run ops) outer = Ret o /\ (forall n, nexts (is_ov_next cmp) n o = yields n es) /\
      Permutation l (gs ++ map (clipi cmp outer) es) /\
      tilesi cmp (ri_start outer) (ri_end outer) l.
  Proof.
    intros Ho. destruct (xs_gaps HO HS ops outer) as (g & gs & Hg & Hn & HR).
    destruct (schedules_nexts (is_ov_next cmp) (is_ov_next_back cmp) _ _ (fun s => iset_overlapping ops outer s)) as (o & Hov & Hon).
    destruct (xs_runs' HO HS ops) as (A1 & A2 & A3).
    destruct (tilingi_clip HO outer gs (map fst (is_iter (run ops))) (mem_run (valid_rangei cmp) (in_rangei cmp) ops))
      as (l & P & T); auto.
    - exact (runsi_inside _ _ _ HR).
    - apply HR.
    - intros k. destruct HR as (_ & _ & HR). rewrite HR, andb_true_iff, negb_true_iff. reflexivity.
    - eapply SS_weaken; [|exact A2]. cbn. intros a b _ _ (k & H1 & H2). ord.
    - intros k. rewrite A3. reflexivity.
    - exists g, o, gs, (filter (meetsi cmp outer) (map fst (is_iter (run ops)))), l. splits; auto.
  Qed.
  Lemma iset_no_tiles ops outer : valid_rangei cmp outer = false ->
    exists g o es,
      is_gaps cmp (run ops) outer = Ret g /\ (forall n, nexts_m (is_gaps_next cmp st) n g = repeat (Ret None) n) /\
      is_overlapping cmp (run ops) outer = Ret o /\ (forall n, nexts (is_ov_next cmp) n o = yields n es) /\
      forall r, In r es -> valid_rangei cmp (clipi cmp outer r) = false.
  Proof.
    intros Ho. destruct (xs_gaps HO HS ops outer) as (g & gs & Hg & Hn & HR).
    destruct (schedules_nexts (is_ov_next cmp) (is_ov_next_back cmp) _ _ (fun s => iset_overlapping ops outer s)) as (o & Hov & Hon).
    assert (E : gs = []).
    { destruct gs as [|r gs]; [reflexivity|]. exfalso.
      destruct (runsi_inside _ _ _ HR r (or_introl eq_refl)) as (_ & V & B1 & B2). unfold valid_rangei in *. ord. }
    subst gs. do 3 eexists. splits; [exact Hg| |exact Hov|exact Hon|].
    - intros n. rewrite Hn, yields_nil. clear. induction n; cbn; congruence.
    - intros e _. apply (clipi_empty HO), Ho.
  Qed.
End ISets.
