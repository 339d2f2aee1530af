(** Queries of [RangeMap] and [RangeInclusiveMap], and the two kinds of set,
    over integer-like keys.  Both sides are characterised by C10/C34,
    C46/C54; a list of maximal runs is determined by the set it covers. *)
From Coq Require Import List Bool ZArith Lia Sorting.Sorted.
From Verif Require Import Order Outcome BTree Ranges History Spec MapModel IMapModel SetModel ISetModel ListLemmas
  Instances StepModel StepFacts IterFacts MapProofs MapFacts MapIter MapMore MapProps ISim Cuts IFacts IMapProps SetFacts SetProps ISetProps Cross CrossProps.
Import ListNotations.
Local Open Scope Z_scope.

(** ** Lists of separated integer intervals *)
Definition zin (l : list (Z * Z)) (z : Z) : Prop := exists p, In p l /\ fst p <= z < snd p.
Definition zruns (l : list (Z * Z)) : Prop :=
  (forall p, In p l -> fst p < snd p) /\ StronglySorted (fun a b => snd a < fst b) l.

Lemma zruns_tail p l : zruns (p :: l) -> zruns l.
Proof. intros [H1 H2]. split; [intros q Hq; apply H1; right; exact Hq|]. inversion H2; assumption. Qed.
Lemma zin_tail p l : zruns (p :: l) -> forall z, zin l z <-> zin (p :: l) z /\ snd p < z.
Proof.
  intros [H1 H2] z. inversion H2 as [|? ? _ HF]; subst. rewrite Forall_forall in HF. split.
  - intros (q & Hq & Hz). split; [exists q; split; [right; exact Hq|exact Hz]|]. specialize (HF q Hq). lia.
  - intros [(q & [<- | Hq] & Hz) Hp]; [lia|]. exists q. auto.
Qed.
Lemma zruns_first p l : zruns (p :: l) -> forall z, zin (p :: l) z -> fst p <= z.
Proof.
  intros [H1 H2] z (q & [<- | Hq] & Hz); [lia|]. inversion H2 as [|? ? _ HF]; subst. rewrite Forall_forall in HF.
  specialize (HF q Hq). specialize (H1 p (or_introl eq_refl)). lia.
Qed.
Lemma zruns_end p l : zruns (p :: l) -> ~ zin (p :: l) (snd p).
Proof.
  intros [H1 H2] (q & [<- | Hq] & Hz); [lia|]. inversion H2 as [|? ? _ HF]; subst. rewrite Forall_forall in HF.
  specialize (HF q Hq). lia.
Qed.
Lemma zruns_unique l : forall l', zruns l -> zruns l' -> (forall z, zin l z <-> zin l' z) -> l = l'.
Proof.
  induction l as [|p l IH]; intros [|q l'] H H' E.
  - reflexivity.
  - exfalso. assert (A : zin [] (fst q)).
    { apply E. exists q. split; [left; reflexivity|]. destruct H' as [H' _]. specialize (H' q (or_introl eq_refl)). lia. }
    destruct A as (r & [] & _).
  - exfalso. assert (A : zin [] (fst p)).
    { apply E. exists p. split; [left; reflexivity|]. destruct H as [H _]. specialize (H p (or_introl eq_refl)). lia. }
    destruct A as (r & [] & _).
  - assert (Hp : fst p < snd p) by (apply H; left; reflexivity).
    assert (Hq : fst q < snd q) by (apply H'; left; reflexivity).
    assert (Ip : forall z, fst p <= z < snd p -> zin (p :: l) z) by (intros z Hz; exists p; split; [left; reflexivity|lia]).
    assert (Iq : forall z, fst q <= z < snd q -> zin (q :: l') z) by (intros z Hz; exists q; split; [left; reflexivity|lia]).
    assert (E1 : fst p = fst q).
    { pose proof (zruns_first _ _ H (fst q) (proj2 (E _) (Iq (fst q) ltac:(lia)))).
      pose proof (zruns_first _ _ H' (fst p) (proj1 (E _) (Ip (fst p) ltac:(lia)))). lia. }
    assert (E2 : snd p = snd q).
    { destruct (Z.lt_trichotomy (snd p) (snd q)) as [L | [L | L]]; [|exact L|]; exfalso.
      - apply (zruns_end _ _ H), E, Iq. lia.
      - apply (zruns_end _ _ H'), E, Ip. lia. }
    assert (Epq : p = q) by (destruct p, q; cbn in *; congruence). subst q. f_equal.
    apply IH; [eapply zruns_tail; eauto | eapply zruns_tail; eauto |].
    intros z. rewrite (zin_tail _ _ H), (zin_tail _ _ H'), E. reflexivity.
Qed.

(** pieces that may touch are determined by what they cover and by the
    integers strictly inside them *)
Definition zint (l : list (Z * Z)) (z : Z) : Prop := exists p, In p l /\ fst p < z < snd p.
Definition zpieces (l : list (Z * Z)) : Prop :=
  (forall p, In p l -> fst p < snd p) /\ StronglySorted (fun a b => snd a <= fst b) l.
Lemma zpieces_tail p l : zpieces (p :: l) -> zpieces l /\ (forall q, In q l -> snd p <= fst q < snd q) /\ fst p < snd p.
Proof.
  intros [H1 H2]. inversion H2 as [|? ? S HF]; subst. rewrite Forall_forall in HF. splits.
  - split; [intros q Hq; apply H1; right; exact Hq|exact S].
  - intros q Hq. specialize (HF q Hq). specialize (H1 q (or_intror Hq)). lia.
  - apply H1. left. reflexivity.
Qed.
Lemma zpieces_unique l : forall l', zpieces l -> zpieces l' -> (forall z, zin l z <-> zin l' z) ->
  (forall z, zint l z <-> zint l' z) -> l = l'.
Proof.
  induction l as [|p l IH]; intros [|q l'] H H' E I.
  - reflexivity.
  - exfalso. apply zpieces_tail in H' as (_ & _ & H'). assert (A : zin [] (fst q)).
    { apply E. exists q. split; [left; reflexivity|lia]. }
    destruct A as (r & [] & _).
  - exfalso. apply zpieces_tail in H as (_ & _ & H). assert (A : zin [] (fst p)).
    { apply E. exists p. split; [left; reflexivity|lia]. }
    destruct A as (r & [] & _).
  - apply zpieces_tail in H as (HT & HF & Hp). apply zpieces_tail in H' as (HT' & HF' & Hq).
    assert (E1 : fst p = fst q).
    { assert (A : zin (p :: l) (fst q)) by (apply E; exists q; split; [left; reflexivity|lia]).
      assert (B : zin (q :: l') (fst p)) by (apply E; exists p; split; [left; reflexivity|lia]).
      destruct A as (r & Hr & Hz), B as (r' & Hr' & Hz').
      assert (fst p <= fst r) by (destruct Hr as [<- | Hr]; [lia|specialize (HF r Hr); lia]).
      assert (fst q <= fst r') by (destruct Hr' as [<- | Hr']; [lia|specialize (HF' r' Hr'); lia]). lia. }
    assert (E2 : snd p = snd q).
    { destruct (Z.lt_trichotomy (snd p) (snd q)) as [L | [L | L]]; [|exact L|]; exfalso.
      - assert (A : zint (p :: l) (snd p)) by (apply I; exists q; split; [left; reflexivity|lia]).
        destruct A as (r & [<- | Hr] & Hz); [lia|]. specialize (HF r Hr). lia.
      - assert (A : zint (q :: l') (snd q)) by (apply I; exists p; split; [left; reflexivity|lia]).
        destruct A as (r & [<- | Hr] & Hz); [lia|]. specialize (HF' r Hr). lia. }
    assert (Epq : p = q) by (destruct p, q; cbn in *; congruence). subst q. f_equal.
    assert (T1 : forall m, (forall r, In r m -> snd p <= fst r < snd r) -> forall z, zin m z <-> zin (p :: m) z /\ snd p <= z).
    { intros m Hm z. split.
      - intros (r & Hr & Hz). specialize (Hm r Hr). split; [exists r; split; [right; exact Hr|lia]|lia].
      - intros [(r & [<- | Hr] & Hz) Hz']; [lia|]. exists r. auto. }
    assert (T2 : forall m, (forall r, In r m -> snd p <= fst r < snd r) -> forall z, zint m z <-> zint (p :: m) z /\ snd p < z).
    { intros m Hm z. split.
      - intros (r & Hr & Hz). specialize (Hm r Hr). split; [exists r; split; [right; exact Hr|lia]|lia].
      - intros [(r & [<- | Hr] & Hz) Hz']; [lia|]. exists r. auto. }
    apply IH; [exact HT|exact HT'| |].
    + intros z. rewrite (T1 l HF), (T1 l' HF'), E. reflexivity.
    + intros z. rewrite (T2 l HF), (T2 l' HF'), I. reflexivity.
Qed.

Section More.
  Context {K V : Type} {cmp : K -> K -> comparison} {veqb : V -> V -> bool} {st : stepfns K} (f : K -> Z).
  Context (Hc : forall a b, cmp a b = (f a ?= f b)).
  Context (Hs : forall a b, f a < f b -> exists s, add_one st a = Some s /\ f s = f a + 1).
  Context (Hp : forall a b, f b < f a -> exists p, sub_one st a = Some p /\ f p = f a - 1).
  Context (HV : PartialEquiv veqb).
  Notation HC := (int_cuts cmp st f Hc Hs Hp).
  Notation same := (same_keys f).

  Lemma c_ltb a b : ltb cmp a b = (f a <? f b).
  Proof. unfold ltb, Z.ltb. rewrite Hc. destruct (f a ?= f b); reflexivity. Qed.
  Lemma c_leb a b : leb cmp a b = (f a <=? f b).
  Proof. unfold leb, Z.leb. rewrite Hc. destruct (f a ?= f b); reflexivity. Qed.
  Lemma c_order : TotalOrd cmp.
  Proof. exact (cuts_order HC Z_order). Qed.

  (** the keys between two keys are all there *)
  Lemma convex a b z : f a <= z <= f b -> exists k, f k = z.
  Proof.
    intros H. assert (G : forall n : nat, f a + Z.of_nat n <= f b -> exists k, f k = f a + Z.of_nat n).
    { induction n as [|n IH]; intros Hn; [exists a; lia|].
      destruct IH as (k & Hk); [lia|]. destruct (Hs k b) as (s & _ & E); [lia|]. exists s. lia. }
    destruct (G (Z.to_nat (z - f a))) as (k & Hk); [lia|]. exists k. lia.
  Qed.

  Definition zr (r : range K) : Z * Z := (f (r_start r), f (r_end r)).
  Definition zri (r : rangei K) : Z * Z := (f (ri_start r), f (ri_end r) + 1).

  Lemma same_of l : forall li, (forall r, In r li -> ri_exhausted r = false) -> map zr l = map zri li -> Forall2 same l li.
  Proof.
    induction l as [|r l IH]; intros [|ri li] V2 E; cbn in E; try discriminate E; constructor.
    - unfold zr, zri in E. injection E as E1 E2 _. pose proof (V2 ri (or_introl eq_refl)) as X.
      split; [exact E1|]. split; [exact E2|exact X].
    - injection E as _ _ E. apply IH; [|exact E]. intros r' Hr'. apply V2. right. exact Hr'.
  Qed.
  Lemma same_map l li : Forall2 same l li -> map zr l = map zri li.
  Proof.
    induction 1 as [|r ri l li (H1 & H2 & _) HF IH]; cbn; [reflexivity|]. rewrite IH. unfold zr, zri. rewrite H1, H2. reflexivity.
  Qed.
  Lemma cover_agree (P Q : K -> bool) l li : (forall k, P k = Q k) ->
    (forall k, (exists r, In r l /\ in_range cmp r k = true) <-> P k = true) ->
    (forall k, (exists r, In r li /\ in_rangei cmp r k = true) <-> Q k = true) ->
    forall z, zin (map zr l) z <-> zin (map zri li) z.
  Proof.
    intros EPQ C1 C2 z. split.
    - intros (p & Hp' & Hz). apply in_map_iff in Hp' as (r & <- & Hr). cbn in Hz.
      destruct (convex (r_start r) (r_end r) z ltac:(lia)) as (k & <-).
      assert (A : Q k = true).
      { rewrite <- EPQ. apply C1. exists r. split; [exact Hr|]. unfold in_range. rewrite !c_ltb. lia. }
      apply C2 in A as (ri & Hri & Hk). exists (zri ri). split; [apply in_map; exact Hri|].
      unfold in_rangei in Hk. rewrite !c_ltb in Hk. cbn. lia.
    - intros (p & Hp' & Hz). apply in_map_iff in Hp' as (r & <- & Hr). cbn in Hz.
      destruct (convex (ri_start r) (ri_end r) z ltac:(lia)) as (k & <-).
      assert (A : P k = true).
      { rewrite EPQ. apply C2. exists r. split; [exact Hr|]. unfold in_rangei. rewrite !c_ltb. lia. }
      apply C1 in A as (ri & Hri & Hk). exists (zr ri). split; [apply in_map; exact Hri|].
      unfold in_range in Hk. rewrite !c_ltb in Hk. cbn. lia.
  Qed.
  Lemma runs_agree (P Q : K -> bool) l li : (forall k, P k = Q k) ->
    runs_of cmp P l -> runsi_of cmp Q li -> Forall2 same l li.
  Proof.
    intros EPQ (V1 & S1 & C1) (V2 & S2 & C2).
    assert (E : map zr l = map zri li).
    { apply zruns_unique.
      - split.
        + intros p Hp'. apply in_map_iff in Hp' as (r & <- & Hr). specialize (V1 r Hr).
          unfold valid_range in V1. rewrite c_ltb in V1. cbn. lia.
        + clear -S1 Hc. induction S1 as [|r l S IH F]; cbn; constructor; auto.
          rewrite Forall_forall in *. intros p Hp. apply in_map_iff in Hp as (r' & <- & Hr').
          specialize (F r' Hr'). rewrite c_ltb in F. cbn. lia.
      - split.
        + intros p Hp'. apply in_map_iff in Hp' as (r & <- & Hr). destruct (V2 r Hr) as [_ V3].
          unfold valid_rangei in V3. rewrite c_ltb in V3. cbn. lia.
        + clear -S2 Hc. induction S2 as [|r l S IH F]; cbn; constructor; auto.
          rewrite Forall_forall in *. intros p Hp. apply in_map_iff in Hp as (r' & <- & Hr').
          destruct (F r' Hr') as (k & F1 & F2). rewrite c_ltb in F1, F2. cbn. lia.
      - exact (cover_agree P Q l li EPQ C1 C2). }
    apply same_of; [|exact E]. intros r Hr. apply V2, Hr.
  Qed.

  (** ** Histories *)
  Lemma same_valid r ri : same r ri -> valid_range cmp r = valid_rangei cmp ri.
  Proof. intros (H1 & H2 & _). unfold valid_range, valid_rangei. rewrite !c_ltb. lia. Qed.
  Lemma same_covers r ri k : same r ri -> in_range cmp r k = in_rangei cmp ri k.
  Proof. intros (H1 & H2 & _). unfold in_range, in_rangei. rewrite !c_ltb. lia. Qed.

  Notation spec := (spec_run (V := V) (valid_range cmp) (in_range cmp)).
  Notation ispec := (spec_run (V := V) (valid_rangei cmp) (in_rangei cmp)).
  Lemma same_put r ri v (g h : K -> option V) : same r ri -> (forall k, g k = h k) ->
    forall k, put (in_range cmp) r v g k = put (in_rangei cmp) ri v h k.
  Proof. intros H E k. unfold put. rewrite (same_covers _ _ k H), E. reflexivity. Qed.
  Lemma same_spec_op o oi (g h : K -> option V) : same_call f o oi -> (forall k, g k = h k) ->
    forall k, spec_op (valid_range cmp) (in_range cmp) g o k = spec_op (valid_rangei cmp) (in_rangei cmp) h oi k.
  Proof.
    intros Ho E k. destruct o as [r v|r| |l], oi as [ri vi|ri| |li]; cbn in Ho |- *; try contradiction.
    - destruct Ho as [Ho <-]. rewrite (same_valid _ _ Ho). destruct (valid_rangei cmp ri); [apply same_put; auto|apply E].
    - rewrite (same_valid _ _ Ho). destruct (valid_rangei cmp ri); [|apply E].
      unfold del. rewrite (same_covers _ _ k Ho), E. reflexivity.
    - reflexivity.
    - revert g h E. induction Ho as [|[r v] [ri vi] l li [H Hv] HF IH]; intros g h E; cbn; [apply E|].
      cbn in H, Hv. subst vi. rewrite (same_valid _ _ H). destruct (valid_rangei cmp ri); [|apply E].
      apply IH. apply same_put; auto.
  Qed.
  Lemma same_spec ops iops : Forall2 (same_call f) ops iops -> forall k, spec ops k = ispec iops k.
  Proof.
    intros H. unfold spec_run. assert (G : forall g h : K -> option V, (forall k, g k = h k) ->
      forall k, fold_left (spec_op (valid_range cmp) (in_range cmp)) ops g k =
                fold_left (spec_op (valid_rangei cmp) (in_rangei cmp)) iops h k); [|intros k; apply G; auto].
    induction H as [|o oi ops iops Ho HF IH]; intros g h E k; cbn; [apply E|].
    apply IH. apply same_spec_op; assumption.
  Qed.
  Lemma pieces_agree (P Q : K -> bool) l li us usi : (forall k, P k = Q k) -> Forall2 same l li ->
    pieces_of cmp P us -> piecesi_of cmp Q usi -> welded cmp l us -> weldedi cmp li usi -> Forall2 same us usi.
  Proof.
    intros EPQ EL (V1 & S1 & C1) (V2 & S2 & C2) (W1 & W2) (W3 & W4).
    apply same_of; [intros r Hr; apply (V2 r Hr)|]. apply same_map in EL.
    apply zpieces_unique.
    - split.
      + intros p Hp'. apply in_map_iff in Hp' as (r & <- & Hr). specialize (V1 r Hr).
        unfold valid_range in V1. rewrite c_ltb in V1. cbn. lia.
      + clear -S1 Hc. induction S1 as [|r l S IH F]; cbn; constructor; auto.
        rewrite Forall_forall in *. intros p Hp. apply in_map_iff in Hp as (r' & <- & Hr').
        specialize (F r' Hr'). rewrite c_leb in F. cbn. lia.
    - split.
      + intros p Hp'. apply in_map_iff in Hp' as (r & <- & Hr). destruct (V2 r Hr) as [_ V3].
        unfold valid_rangei in V3. rewrite c_ltb in V3. cbn. lia.
      + clear -S2 Hc. induction S2 as [|r l S IH F]; cbn; constructor; auto.
        rewrite Forall_forall in *. intros p Hp. apply in_map_iff in Hp as (r' & <- & Hr').
        specialize (F r' Hr'). rewrite c_ltb in F. cbn. lia.
    - exact (cover_agree P Q us usi EPQ C1 C2).
    - assert (A : forall z, zint (map zr us) z <-> zint (map zr l) z).
      { intros z. split.
        - intros (p & Hp' & Hz). apply in_map_iff in Hp' as (u & <- & Hu). cbn in Hz.
          destruct (convex (r_start u) (r_end u) z ltac:(lia)) as (k & <-).
          destruct (W2 u k Hu) as (r & Hr & G1 & G2); [rewrite c_ltb; lia|rewrite c_ltb; lia|].
          rewrite c_ltb in G1, G2. exists (zr r). split; [apply in_map; exact Hr|cbn; lia].
        - intros (p & Hp' & Hz). apply in_map_iff in Hp' as (r & <- & Hr). cbn in Hz.
          destruct (W1 r Hr) as (u & Hu & G1 & G2). rewrite c_leb in G1, G2.
          exists (zr u). split; [apply in_map; exact Hu|cbn; lia]. }
      assert (B : forall z, zint (map zri usi) z <-> zint (map zri li) z).
      { intros z. split.
        - intros (p & Hp' & Hz). apply in_map_iff in Hp' as (u & <- & Hu). cbn in Hz.
          destruct (convex (ri_start u) (ri_end u) z ltac:(lia)) as (k & <-).
          destruct (W4 u k Hu) as (r & Hr & G1 & G2); [rewrite c_ltb; lia|rewrite c_leb; lia|].
          rewrite c_ltb in G1. rewrite c_leb in G2. exists (zri r). split; [apply in_map; exact Hr|cbn; lia].
        - intros (p & Hp' & Hz). apply in_map_iff in Hp' as (r & <- & Hr). cbn in Hz.
          destruct (W3 r Hr) as (u & Hu & G1 & G2). rewrite c_leb in G1, G2.
          exists (zri u). split; [apply in_map; exact Hu|cbn; lia]. }
      intros z. rewrite A, B, EL. reflexivity.
  Qed.

  (** ** Queries of the maps *)
  Let HO : TotalOrd cmp := proj1 (steps_of_index cmp st f Hc Hs Hp).
  Let HS : StepLaws cmp st := proj2 (steps_of_index cmp st f Hc Hs Hp).
  Notation run := (rm_run cmp veqb).
  Notation irun := (im_run cmp veqb st).
  Lemma same_fresh ops iops : Forall2 (same_call (V := V) f) ops iops -> fresh_ops iops.
  Proof. intros H. apply (proj2 (corr_enc_ops f ops iops H)). Qed.

  Lemma x_gaps ops iops q qi : Forall2 (same_call f) ops iops -> same q qi -> exists g gi gs gsi,
    rm_gaps cmp (run ops) q = Ret g /\ im_gaps cmp (irun iops) qi = Ret gi /\
    (forall n, nexts (gp_next cmp) n g = yields n gs) /\
    (forall n, nexts_m (gpi_next cmp st) n gi = map Ret (yields n gsi)) /\
    Forall2 same gs gsi.
  Proof.
    intros H Hq. destruct (run_gaps HO HV ops q) as (g & gs & G1 & G2 & G3).
    destruct (irun_gaps HO HS HV iops qi (same_fresh _ _ H)) as (gi & gsi & I1 & I2 & I3).
    exists g, gi, gs, gsi. splits; auto.
    destruct G3 as (A1 & A2 & A3), I3 as (B1 & B2 & B3).
    apply (runs_agree (fun k => in_range cmp q k && match spec ops k with Some _ => false | None => true end)
                      (fun k => in_rangei cmp qi k && match ispec iops k with Some _ => false | None => true end)).
    - intros k. rewrite (same_covers _ _ k Hq), (same_spec _ _ H). reflexivity.
    - refine (conj _ (conj A2 _)); [intros r Hr; apply (A1 r Hr)|].
      intros k. rewrite A3. destruct (in_range cmp q k), (spec ops k); cbn; intuition discriminate.
    - refine (conj _ (conj B2 _)); [intros r Hr; split; apply (B1 r Hr)|].
      intros k. rewrite B3. destruct (in_rangei cmp qi k), (ispec iops k); cbn; intuition discriminate.
  Qed.

  Lemma same_meets q qi r ri : same q qi -> same r ri -> meets cmp q r = meetsi cmp qi ri.
  Proof. intros (H1 & H2 & _) (H3 & H4 & _). unfold meets, meetsi. rewrite !c_ltb, !c_leb. lia. Qed.
  Lemma same_filter q qi l li : same q qi -> Forall2 (same_entry (V := V) f) l li ->
    Forall2 (same_entry f) (filter (fun e => meets cmp q (fst e)) l) (filter (fun e => meetsi cmp qi (fst e)) li).
  Proof.
    intros Hq. induction 1 as [|e ei l li He HF IH]; cbn; [constructor|].
    rewrite (same_meets _ _ _ _ Hq (proj1 He)). destruct (meetsi cmp qi (fst ei)); [constructor|]; assumption.
  Qed.
  Lemma last_rel {A B} (R : A -> B -> Prop) l li : Forall2 R l li -> forall d di, R d di -> R (last l d) (last li di).
  Proof.
    induction 1 as [|x y l li H HF IH]; intros d di Hd; [exact Hd|].
    destruct HF as [|x' y' l li H' HF]; [exact H|]. exact (IH d di Hd).
  Qed.
  Lemma last_opt_last {A} (e : A) l : last_opt (e :: l) = Some (last (e :: l) e).
  Proof. rewrite (app_removelast_last e (l := e :: l)) at 1 by discriminate. apply last_opt_app. Qed.
  Lemma matched_deque {A B} (R : A -> B -> Prop) sched : forall l li, Forall2 R l li ->
    Forall2 (matched R) (deque_run sched l) (deque_run sched li).
  Proof.
    unfold deque_run. induction sched as [|d sched IH]; intros l li H; [constructor|]. cbn [sched_trace].
    destruct H as [|e ei l li He HF].
    - cbn. constructor; [exact Logic.I|]. apply (IH [] []). constructor.
    - destruct d; cbn [deque_step].
      + cbn [map fst]. constructor; [exact He|]. apply IH, HF.
      + cbn [map fst]. constructor; [|apply IH].
        * apply (last_rel R (e :: l) (ei :: li)); [constructor; assumption|exact He].
        * revert e ei He. induction HF as [|x y l li Hxy HF IHF]; intros e ei He; [constructor|].
          change (removelast (e :: x :: l)) with (e :: removelast (x :: l)).
          change (removelast (ei :: y :: li)) with (ei :: removelast (y :: li)). constructor; auto.
  Qed.
  Lemma x_overlapping ops iops q qi : Forall2 (same_call f) ops iops -> same q qi -> exists o oi,
    rm_overlapping cmp (run ops) q = Ret o /\ im_overlapping cmp (irun iops) qi = Ret oi /\
    forall sched, Forall2 (matched (same_entry f))
      (map fst (sched_trace (both (ov_next cmp) (ov_next_back cmp)) (fun _ => tt) sched o))
      (map fst (sched_trace (both (ovi_next cmp) (ovi_next_back cmp)) (fun _ => tt) sched oi)).
  Proof.
    intros H Hq. pose proof (run_WF HO HV ops) as W. pose proof (same_fresh _ _ H) as Hf.
    destruct (overlapping_schedule HO _ q [] W) as (o & E1 & _).
    destruct (ioverlapping HO HS HV iops qi [] Hf) as (oi & E2 & _).
    exists o, oi. splits; auto. intros sched.
    destruct (overlapping_schedule HO _ q sched W) as (o' & E1' & T1). rewrite E1 in E1'. injection E1' as <-.
    destruct (ioverlapping HO HS HV iops qi sched Hf) as (oi' & E2' & T2). rewrite E2 in E2'. injection E2' as <-.
    rewrite T1, T2. apply matched_deque, same_filter; [exact Hq|]. exact (cross_entries f Hc Hs Hp HV _ _ H).
  Qed.
  Lemma x_overlaps ops iops q qi : Forall2 (same_call f) ops iops -> same q qi ->
    rm_overlaps cmp (run ops) q = im_overlaps cmp (irun iops) qi.
  Proof.
    intros H Hq. rewrite (overlaps_ok HO _ q (run_WF HO HV ops)), (ioverlaps HO HS HV iops qi (same_fresh _ _ H)). f_equal.
    pose proof (cross_entries f Hc Hs Hp HV _ _ H) as E. unfold rm_iter, im_iter in *. induction E as [|e ei l li He HF IH]; cbn; [reflexivity|].
    unfold hits at 1. change (ltb cmp (r_start q) (r_end (fst e)) && ltb cmp (r_start (fst e)) (r_end q)) with (meets cmp q (fst e)).
    rewrite IH.
    rewrite (same_meets _ _ _ _ Hq (proj1 He)). reflexivity.
  Qed.
  Lemma x_get_key_value ops iops k : Forall2 (same_call f) ops iops -> exists o oi,
    rm_get_key_value cmp (run ops) k = Ret o /\ im_get_key_value cmp (irun iops) k = Ret oi /\ matched (same_entry f) o oi.
  Proof.
    intros H. pose proof (get_key_value_ok HO _ k (run_WF HO HV ops)) as E1.
    pose proof (get_key_value_iok HC Z_order _ k (run_iWF HC Z_order HV iops (same_fresh _ _ H))) as E2.
    do 2 eexists. splits; [exact E1|exact E2|].
    pose proof (cross_entries f Hc Hs Hp HV _ _ H) as E. unfold rm_iter, im_iter in E.
    clear E1 E2. induction E as [|e ei l li He HF IH]; cbn [find]; [exact Logic.I|].
    rewrite <- (in_range_contains HO), (same_covers _ _ k (proj1 He)).
    destruct (in_rangei cmp (fst ei) k); [exact He|exact IH].
  Qed.
  Lemma x_first_last ops iops : Forall2 (same_call f) ops iops ->
    matched (same_entry f) (rm_first_range_value (run ops)) (im_first_range_value (irun iops)) /\
    matched (same_entry f) (rm_last_range_value (run ops)) (im_last_range_value (irun iops)) /\
    rm_len (run ops) = im_len (irun iops).
  Proof.
    intros H. pose proof (cross_entries f Hc Hs Hp HV _ _ H) as E. unfold rm_iter, im_iter in E.
    unfold rm_first_range_value, im_first_range_value, rm_last_range_value, im_last_range_value, rm_len, im_len.
    splits.
    - destruct E; [exact Logic.I|assumption].
    - destruct E as [|e ei l li He HF]; [exact Logic.I|].
      pose proof (last_rel _ (e :: l) (ei :: li) (Forall2_cons _ _ He HF) e ei He) as L. rewrite !last_opt_last. exact L.
    - induction E; cbn; congruence.
  Qed.

  (** ** Sets *)
  Notation srun := (rs_run cmp).
  Notation isrun := (is_run cmp st).
  Notation mem := (mem_run (valid_range cmp) (in_range cmp)).
  Notation imem := (mem_run (valid_rangei cmp) (in_rangei cmp)).
  Notation ranges s := (map fst (rs_iter s)).
  Notation iranges s := (map fst (is_iter s)).
  Lemma same_fresh_sop o oi : same_scall f o oi -> fresh_sop oi = true.
  Proof.
    destruct o as [r|r| |l], oi as [ri|ri| |li]; cbn; try contradiction; auto.
    - intros (_ & _ & ->). reflexivity.
    - induction 1 as [|r ri l li (_ & _ & E) HF IH]; cbn; [reflexivity|]. rewrite E. exact IH.
  Qed.
  Lemma same_fresh_sops ops iops : Forall2 (same_scall f) ops iops -> fresh_sops iops.
  Proof.
    unfold fresh_sops. induction 1 as [|o oi ops iops Ho HF IH]; cbn; [reflexivity|].
    rewrite (same_fresh_sop _ _ Ho). exact IH.
  Qed.
  Lemma same_fresh_sexp : forall x xi, same_sexp f x xi -> fresh_sexp xi = true.
  Proof.
    induction x; intros [|y oi|y z|y z]; cbn; try contradiction; auto.
    - intros [H1 H2]. rewrite (IHx _ H1), (same_fresh_sop _ _ H2). reflexivity.
    - intros [H1 H2]. rewrite (IHx1 _ H1), (IHx2 _ H2). reflexivity.
    - intros [H1 H2]. rewrite (IHx1 _ H1), (IHx2 _ H2). reflexivity.
  Qed.
  Lemma same_mem_op o oi (g h : K -> bool) : same_scall f o oi -> (forall k, g k = h k) ->
    forall k, mem_op (valid_range cmp) (in_range cmp) g o k = mem_op (valid_rangei cmp) (in_rangei cmp) h oi k.
  Proof.
    intros Ho E k. destruct o as [r|r| |l], oi as [ri|ri| |li]; cbn in Ho |- *; try contradiction.
    - rewrite (same_valid _ _ Ho). destruct (valid_rangei cmp ri); rewrite ?(same_covers _ _ k Ho), ?E; reflexivity.
    - rewrite (same_valid _ _ Ho). destruct (valid_rangei cmp ri); rewrite ?(same_covers _ _ k Ho), ?E; reflexivity.
    - reflexivity.
    - revert g h E. induction Ho as [|r ri l li H HF IH]; intros g h E; cbn; [apply E|].
      rewrite (same_valid _ _ H). destruct (valid_rangei cmp ri); [|apply E].
      apply IH. intros k'. rewrite (same_covers _ _ k' H), E. reflexivity.
  Qed.
  Lemma same_mem ops iops : Forall2 (same_scall f) ops iops -> forall k, mem ops k = imem iops k.
  Proof.
    intros H. unfold mem_run. assert (G : forall g h : K -> bool, (forall k, g k = h k) ->
      forall k, fold_left (mem_op (valid_range cmp) (in_range cmp)) ops g k =
                fold_left (mem_op (valid_rangei cmp) (in_rangei cmp)) iops h k); [|intros k; apply G; auto].
    induction H as [|o oi ops iops Ho HF IH]; intros g h E k; cbn; [apply E|].
    apply IH. apply same_mem_op; assumption.
  Qed.
  Lemma same_mem_sexp : forall x xi, same_sexp f x xi -> forall k,
    mem_sexp (valid_range cmp) (in_range cmp) x k = mem_sexp (valid_rangei cmp) (in_rangei cmp) xi k.
  Proof.
    induction x; intros [|y oi|y z|y z]; cbn; try contradiction; auto.
    - intros [H1 H2]. apply same_mem_op; auto.
    - intros [H1 H2] k. rewrite (IHx1 _ H1), (IHx2 _ H2). reflexivity.
    - intros [H1 H2] k. rewrite (IHx1 _ H1), (IHx2 _ H2). reflexivity.
  Qed.

  Lemma x_set_ranges ops iops : Forall2 (same_scall f) ops iops ->
    Forall2 same (ranges (srun ops)) (iranges (isrun iops)).
  Proof.
    intros H. apply (runs_agree (mem ops) (imem iops) _ _ (same_mem _ _ H)); [apply (srun_runs HO)|].
    apply (isrun_runs HO HS), (same_fresh_sops _ _ H).
  Qed.
  Lemma x_set_contains ops iops k : Forall2 (same_scall f) ops iops ->
    rs_contains cmp (srun ops) k = is_contains cmp (isrun iops) k.
  Proof.
    intros H. rewrite (srun_contains HO), (isrun_contains HO HS _ _ (same_fresh_sops _ _ H)), (same_mem _ _ H). reflexivity.
  Qed.
  Lemma x_set_gaps ops iops q qi : Forall2 (same_scall f) ops iops -> same q qi -> exists g gi gs gsi,
    rs_gaps cmp (srun ops) q = Ret g /\ is_gaps cmp (isrun iops) qi = Ret gi /\
    (forall n, nexts (rs_gaps_next cmp) n g = yields n gs) /\
    (forall n, nexts_m (is_gaps_next cmp st) n gi = map Ret (yields n gsi)) /\
    Forall2 same gs gsi.
  Proof.
    intros H Hq. destruct (sgaps HO ops q) as (g & gs & G1 & G2 & G3).
    destruct (isgaps HO HS iops qi (same_fresh_sops _ _ H)) as (gi & gsi & I1 & I2 & I3).
    exists g, gi, gs, gsi. splits; auto. refine (runs_agree _ _ _ _ _ G3 I3).
    intros k. cbn. rewrite (same_covers _ _ k Hq), (same_mem _ _ H). reflexivity.
  Qed.
  Lemma x_set_overlapping ops iops q qi : Forall2 (same_scall f) ops iops -> same q qi -> exists o oi,
    rs_overlapping cmp (srun ops) q = Ret o /\ is_overlapping cmp (isrun iops) qi = Ret oi /\
    forall sched, Forall2 (matched same)
      (map fst (sched_trace (both (rs_ov_next cmp) (rs_ov_next_back cmp)) (fun _ => tt) sched o))
      (map fst (sched_trace (both (is_ov_next cmp) (is_ov_next_back cmp)) (fun _ => tt) sched oi)).
  Proof.
    intros H Hq. pose proof (same_fresh_sops _ _ H) as Hf.
    destruct (soverlapping HO ops q []) as (o & E1 & _).
    destruct (isoverlapping HO HS iops qi [] Hf) as (oi & E2 & _).
    exists o, oi. splits; auto. intros sched.
    destruct (soverlapping HO ops q sched) as (o' & E1' & T1). rewrite E1 in E1'. injection E1' as <-.
    destruct (isoverlapping HO HS iops qi sched Hf) as (oi' & E2' & T2). rewrite E2 in E2'. injection E2' as <-.
    rewrite T1, T2. apply matched_deque. clear T1 T2.
    induction (x_set_ranges _ _ H) as [|r ri l li Hr HF IH]; cbn; [constructor|].
    rewrite (same_meets _ _ _ _ Hq Hr). destruct (meetsi cmp qi ri); [constructor|]; assumption.
  Qed.
  Lemma x_set_overlaps ops iops q qi : Forall2 (same_scall f) ops iops -> same q qi ->
    rs_overlaps cmp (srun ops) q = is_overlaps cmp (isrun iops) qi.
  Proof.
    intros H Hq. destruct (x_set_overlapping _ _ _ _ H Hq) as (o & oi & E1 & E2 & T).
    unfold rs_overlaps, is_overlaps. rewrite E1, E2. unfold omap, obind. f_equal. specialize (T [Front]).
    cbn [sched_trace map both fst] in T.
    destruct (rs_ov_next cmp o) as [a ?], (is_ov_next cmp oi) as [b ?]. cbn in T |- *. inversion T as [|? ? ? ? M]; subst.
    destruct a, b; cbn in M |- *; try contradiction; reflexivity.
  Qed.
  Lemma x_set_get ops iops k : Forall2 (same_scall f) ops iops -> exists o oi,
    rs_get cmp (srun ops) k = Ret o /\ is_get cmp (isrun iops) k = Ret oi /\ matched same o oi.
  Proof.
    intros H. pose proof (x_set_ranges _ _ H) as E. unfold rs_get, is_get.
    rewrite (run_to_ops (cmp := cmp) ops), (get_key_value_ok HO _ k (run_WF HO unit_per (to_ops ops))), <- run_to_ops.
    rewrite (irun_to_ops (cmp := cmp) (st := st) iops),
      (get_key_value_iok HC Z_order _ k (run_iWF HC Z_order unit_per (to_ops iops) (fresh_to_ops _ (same_fresh_sops _ _ H)))), <- irun_to_ops.
    do 2 eexists. splits; [reflexivity|reflexivity|].
    revert E. unfold rs_iter, is_iter, rm_iter, im_iter. generalize (isrun iops). generalize (srun ops).
    induction r as [|e l IH]; intros [|ei li] E; cbn in E |- *; inversion E; subst; [exact Logic.I|].
    rewrite <- (in_range_contains HO), (same_covers _ _ k ltac:(eassumption)).
    destruct (in_rangei cmp (fst ei) k); cbn; [assumption|apply IH; assumption].
  Qed.
  Lemma x_set_first_last ops iops : Forall2 (same_scall f) ops iops ->
    matched same (rs_first (srun ops)) (is_first (isrun iops)) /\
    matched same (rs_last (srun ops)) (is_last (isrun iops)) /\
    rs_len (srun ops) = is_len (isrun iops) /\ rs_is_empty (srun ops) = is_is_empty (isrun iops).
  Proof.
    intros H. pose proof (x_set_ranges _ _ H) as E. revert E.
    unfold rs_iter, is_iter, rm_iter, im_iter, rs_first, is_first, rs_last, is_last, rs_len, is_len, rs_is_empty, is_is_empty,
      rm_first_range_value, im_first_range_value, rm_last_range_value, im_last_range_value, rm_len, im_len, rm_is_empty, im_is_empty.
    generalize (isrun iops). generalize (srun ops). intros m mi E. splits.
    - destruct m, mi; cbn in *; inversion E; subst; auto.
    - destruct m as [|e l], mi as [|ei li]; [exact Logic.I|inversion E|inversion E|].
      pose proof (last_rel _ _ _ E (fst e) (fst ei) ltac:(inversion E; assumption)) as L.
      rewrite !last_opt_last. cbn [option_map matched].
      assert (G : forall B (l : list (B * unit)) d, last (map fst l) (fst d) = fst (last l d)).
      { intros B l0 d. induction l0 as [|x [|y l0] IH]; cbn in *; auto. }
      rewrite !G in L. exact L.
    - rewrite <- (map_length fst m), <- (map_length fst mi). induction E; cbn; congruence.
    - destruct m, mi; cbn in *; inversion E; reflexivity.
  Qed.
  Lemma x_set_union a ai b bi : Forall2 (same_scall f) a ai -> Forall2 (same_scall f) b bi -> exists us usi,
    (forall n, nexts_m (rs_union_next cmp) n (rs_union (srun a) (srun b)) = map Ret (yields n us)) /\
    (forall n, nexts_m (is_union_next cmp) n (is_union (isrun ai) (isrun bi)) = map Ret (yields n usi)) /\
    Forall2 same us usi.
  Proof.
    intros Ha Hb. destruct (sunion HO a b) as (us & H1 & H2 & H3 & _).
    destruct (isunion HO HS ai bi (same_fresh_sops _ _ Ha) (same_fresh_sops _ _ Hb)) as (usi & I1 & I2 & I3 & _).
    exists us, usi. splits; auto. refine (pieces_agree _ _ _ _ _ _ _ _ H2 I2 H3 I3).
    - intros k. cbn. rewrite (same_mem _ _ Ha), (same_mem _ _ Hb). reflexivity.
    - apply Forall2_app; apply x_set_ranges; assumption.
  Qed.
  Lemma x_set_intersection a ai b bi : Forall2 (same_scall f) a ai -> Forall2 (same_scall f) b bi -> exists us usi,
    (forall n, nexts_m (rs_intersection_next cmp) n (rs_intersection (srun a) (srun b)) = map Ret (yields n us)) /\
    (forall n, nexts_m (is_intersection_next cmp) n (is_intersection (isrun ai) (isrun bi)) = map Ret (yields n usi)) /\
    Forall2 same us usi.
  Proof.
    intros Ha Hb. destruct (sintersection HO a b) as (us & H1 & H2 & _).
    destruct (isintersection HO HS ai bi (same_fresh_sops _ _ Ha) (same_fresh_sops _ _ Hb)) as (usi & I1 & I2 & _).
    exists us, usi. splits; auto. refine (runs_agree _ _ _ _ _ H2 I2).
    intros k. cbn. rewrite (same_mem _ _ Ha), (same_mem _ _ Hb). reflexivity.
  Qed.
  Lemma x_set_programs x xi : same_sexp f x xi -> exists s si,
    rs_eval cmp x = Ret s /\ is_eval cmp st xi = Ret si /\ Forall2 same (ranges s) (iranges si).
  Proof.
    intros H. destruct (seval HO x) as (a & E1 & M1).
    destruct (iseval HO HS xi (same_fresh_sexp _ _ H)) as (b & Fb & E2 & M2).
    do 2 eexists. splits; [exact E1|exact E2|].
    apply (runs_agree (mem a) (imem b)); [|apply (srun_runs HO)|apply (isrun_runs HO HS), Fb].
    intros k. rewrite M1, M2. apply same_mem_sexp, H.
  Qed.
End More.

Lemma x_int {V} {veqb : V -> V -> bool} (HV : PartialEquiv veqb) md t : 0 < i_bits t ->
  let f := fun x : ival t => proj1_sig x in
  (forall ops iops q qi, Forall2 (same_call f) ops iops -> same_keys f q qi -> exists g gi gs gsi,
     rm_gaps (icmp t) (rm_run (icmp t) veqb ops) q = Ret g /\
     im_gaps (icmp t) (im_run (icmp t) veqb (int_steps md t) iops) qi = Ret gi /\
     (forall n, nexts (gp_next (icmp t)) n g = yields n gs) /\
     (forall n, nexts_m (gpi_next (icmp t) (int_steps md t)) n gi = map Ret (yields n gsi)) /\
     Forall2 (same_keys f) gs gsi) /\
  (forall ops iops q qi, Forall2 (same_call f) ops iops -> same_keys f q qi ->
     rm_overlaps (icmp t) (rm_run (icmp t) veqb ops) q =
     im_overlaps (icmp t) (im_run (icmp t) veqb (int_steps md t) iops) qi) /\
  (forall x xi, same_sexp f x xi -> exists s si,
     rs_eval (icmp t) x = Ret s /\ is_eval (icmp t) (int_steps md t) xi = Ret si /\
     Forall2 (same_keys f) (map fst (rs_iter s)) (map fst (is_iter si))).
Proof.
  intros Hb f.
  assert (Hc : forall a b, icmp t a b = (f a ?= f b)) by reflexivity.
  assert (Hs : forall a b, f a < f b -> exists s, add_one (int_steps md t) a = Some s /\ f s = f a + 1).
  { intros a b H. apply int_add_one; [exact Hb|]. pose proof (ival_bounds t b). unfold f in *. lia. }
  assert (Hp : forall a b, f b < f a -> exists p, sub_one (int_steps md t) a = Some p /\ f p = f a - 1).
  { intros a b H. apply int_sub_one; [exact Hb|]. pose proof (ival_bounds t b). unfold f in *. lia. }
  splits.
  - exact (x_gaps f Hc Hs Hp HV).
  - exact (x_overlaps f Hc Hs Hp HV).
  - exact (x_set_programs f Hc Hs Hp).
Qed.
