(** The fuzz targets never panic (lemmas behind P_Fuzz.v). *)
From Coq Require Import List Bool Sorting.Sorted Permutation Lia Arith ZArith Eqdep_dec.
From Verif Require Import Order Outcome Ranges History Spec ListLemmas OrdFacts IterFacts MapModel IMapModel OpsModel OpsProofs MapFacts MapProps IFacts IMapProps Tiling StepModel StepFacts FuzzModel.
Import ListNotations.

(** ** Sorting *)
Section Sort.
  Context {A : Type} (le : A -> A -> bool).
  Context (Htot : forall a b, le a b = true \/ le b a = true).
  Context (Htr : forall a b c, le a b = true -> le b c = true -> le a c = true).

  Lemma insert_by_perm x l : Permutation (x :: l) (insert_by le x l).
  Proof.
    induction l as [|y l IH]; cbn; [reflexivity|]. destruct (le x y); [reflexivity|].
    rewrite perm_swap. apply perm_skip, IH.
  Qed.
  Lemma sort_by_perm l : Permutation l (sort_by le l).
  Proof.
    induction l as [|x l IH]; cbn; [reflexivity|]. rewrite <- insert_by_perm. apply perm_skip, IH.
  Qed.
  Lemma insert_by_sorted x l : StronglySorted (fun a b => le a b = true) l ->
    StronglySorted (fun a b => le a b = true) (insert_by le x l).
  Proof.
    induction l as [|y l IH]; intros H; cbn; [repeat constructor|].
    apply StronglySorted_inv in H as [H1 H2]. destruct (le x y) eqn:E.
    - constructor; [constructor; assumption|]. constructor; [exact E|].
      eapply Forall_impl; [|exact H2]. intros z. apply Htr, E.
    - constructor; [apply IH, H1|]. apply Forall_forall. intros z Hz.
      apply (Permutation_in _ (Permutation_sym (insert_by_perm x l))) in Hz as [<- | Hz].
      + destruct (Htot y x) as [H|H]; congruence.
      + rewrite Forall_forall in H2. auto.
  Qed.
  Lemma sort_by_sorted l : StronglySorted (fun a b => le a b = true) (sort_by le l).
  Proof. induction l; cbn; [constructor|]. apply insert_by_sorted, IHl. Qed.

  (** a strictly ascending rearrangement is what the sort returns *)
  Lemma sorted_unique : forall l s,
    StronglySorted (fun a b => le a b = true /\ le b a = false) l ->
    StronglySorted (fun a b => le a b = true) s -> Permutation l s -> s = l.
  Proof.
    induction l as [|a l IH]; intros s Hl Hs P.
    - apply Permutation_nil in P. exact P.
    - destruct s as [|b s]; [apply Permutation_sym, Permutation_nil in P; discriminate|].
      apply StronglySorted_inv in Hl as [Hl1 Hl2], Hs as [Hs1 Hs2].
      rewrite Forall_forall in Hl2, Hs2. assert (E : a = b).
      { assert (Ha : In a (b :: s)) by (apply (Permutation_in _ P); left; reflexivity).
        assert (Hb : In b (a :: l)) by (apply (Permutation_in _ (Permutation_sym P)); left; reflexivity).
        destruct Ha as [Ha|Ha]; [auto|]. destruct Hb as [Hb|Hb]; [auto|].
        apply Hs2 in Ha. apply Hl2 in Hb as [_ Hb]. congruence. }
      subst b. f_equal. apply IH; auto. eapply Permutation_cons_inv, P.
  Qed.
  Lemma sort_by_unique l l' : StronglySorted (fun a b => le a b = true /\ le b a = false) l ->
    Permutation l l' -> sort_by le l' = l.
  Proof.
    intros H P. apply sorted_unique; [exact H|apply sort_by_sorted|]. rewrite P. apply sort_by_perm.
  Qed.
End Sort.

Lemma drain_pure {S A} (next : S -> option A * S) s l fuel :
  (forall n, nexts next n s = yields n l) -> length l < fuel -> fst (drain (pnext next) fuel s) = Ret l.
Proof.
  intros H. apply drain_ok. intros n. rewrite <- H. clear H. revert s.
  induction n as [|n IH]; intros s; cbn; [reflexivity|]. unfold pnext at 1. destruct (next s) as [o s'].
  cbn. rewrite IH. reflexivity.
Qed.
Lemma windows_all {A} (f : A -> A -> outcome unit) l :
  (forall a b l1 l2, l = l1 ++ a :: b :: l2 -> f a b = Ret tt) -> windows f l = Ret tt.
Proof.
  induction l as [|a [|b l] IH]; intros H; try reflexivity. cbn [windows].
  rewrite (H a b [] l eq_refl). cbn [obind]. apply IH. intros c d l1 l2 E. apply (H c d (a :: l1) l2). cbn. congruence.
Qed.

Section HalfOpen.
  Context {K V : Type} {cmp : K -> K -> comparison} {veqb : V -> V -> bool}.
  Context (HO : TotalOrd cmp) (HV : PartialEquiv veqb) (Hid : forall a b, cmp a b = Eq -> a = b).
  Notation run := (rm_run cmp veqb).

  Definition fcall (o : fop (range K) V) : list (op (range K) V) :=
    match o with
    | FInsert r v => if valid_range cmp r then [OInsert r v] else []
    | FRemove r => if valid_range cmp r then [ORemove r] else []
    end.
  Lemma fapply_run ops : forall pre,
    for_each (fapply cmp veqb) ops (run pre) = (Ret tt, run (pre ++ flat_map fcall ops)).
  Proof.
    induction ops as [|o ops IH]; intros pre; cbn [for_each flat_map]; [rewrite app_nil_r; reflexivity|].
    unfold bind at 1. assert (E : fapply cmp veqb o (run pre) = (Ret tt, run (pre ++ fcall o))).
    { destruct o as [r v|r]; cbn [fapply fcall]; fold (valid_range cmp r).
      - pose proof (insert_outcome HO HV pre r v) as H. destruct (valid_range cmp r).
        + destruct H as (m' & H & _). rewrite H, run_snoc. cbn [rm_exec]. rewrite H. reflexivity.
        + rewrite app_nil_r. reflexivity.
      - pose proof (remove_outcome HO HV pre r) as H. destruct (valid_range cmp r).
        + destruct H as (m' & H & _). rewrite H, run_snoc. cbn [rm_exec]. rewrite H. reflexivity.
        + rewrite app_nil_r. reflexivity. }
    rewrite E, IH, app_assoc. reflexivity.
  Qed.

  Lemma coalesce_ok ops : fuzz_coalesce cmp veqb ops = Ret tt.
  Proof.
    unfold fuzz_coalesce. pose proof (fapply_run ops []) as H. change (run []) with (@rm_new K V) in H.
    rewrite H. cbn [obind app]. apply windows_all. intros a b l1 l2 E.
    pose proof (WF_coalesced HO _ (run_WF HO HV (flat_map fcall ops)) a b) as C.
    unfold rm_iter in *. rewrite E in C.
    assert (I1 : In a (l1 ++ a :: b :: l2)) by (apply in_or_app; right; left; reflexivity).
    assert (I2 : In b (l1 ++ a :: b :: l2)) by (apply in_or_app; right; right; left; reflexivity).
    specialize (C I1 I2). destruct (eqb cmp (r_end (fst a)) (r_start (fst b))); [|reflexivity].
    rewrite (C eq_refl). reflexivity.
  Qed.

  Lemma trunc_clip outer r :
    mkR (kmax cmp (r_start r) (r_start outer)) (kmin cmp (r_end r) (r_end outer)) = clip cmp outer r.
  Proof.
    unfold clip, kmax, kmin, ltb. f_equal.
    rewrite (ord_dual _ HO). destruct (cmp (r_start r) (r_start outer)) eqn:E; cbn; try reflexivity.
    symmetry. apply Hid, E.
  Qed.

  Lemma tiles_starts l : forall s e, tiles cmp s e l ->
    leb cmp s e = true /\ (forall r, In r l -> valid_range cmp r = true /\ leb cmp s (r_start r) = true) /\
    StronglySorted (fun a b => leb cmp (r_start a) (r_start b) = true /\ leb cmp (r_start b) (r_start a) = false) l.
  Proof.
    induction l as [|r l IH]; cbn; intros s e H.
    - splits; [ord|intros r []|constructor].
    - destruct H as (H1 & H2 & H3). destruct (IH _ _ H3) as (I1 & I2 & I3). unfold valid_range in H2. splits.
      + ord.
      + intros r0 [<- | H0]; [split; [exact H2|ord]|]. destruct (I2 _ H0) as [J1 J2]. split; [exact J1|ord].
      + constructor; [exact I3|]. apply Forall_forall. intros r0 H0. destruct (I2 _ H0) as [J1 J2]. split; ord.
  Qed.
  Lemma tiles_first s e l : tiles cmp s e l -> ltb cmp s e = true -> exists r l', l = r :: l' /\ eqb cmp (r_start r) s = true.
  Proof.
    destruct l as [|r l]; cbn; intros H1 H2.
    - exfalso. ord.
    - exists r, l. intuition.
  Qed.
  Lemma tiles_split l1 : forall s e l2, tiles cmp s e (l1 ++ l2) -> exists x, tiles cmp s x l1 /\ tiles cmp x e l2.
  Proof.
    induction l1 as [|r l1 IH]; cbn; intros s e l2 H.
    - exists s. split; [ord|exact H].
    - destruct H as (H1 & H2 & H3). destruct (IH _ _ _ H3) as (x & X1 & X2). exists x. auto.
  Qed.
  Lemma tiles_last s e r l : tiles cmp s e (l ++ [r]) -> eqb cmp (r_end r) e = true.
  Proof. intros H. apply tiles_split in H as (x & _ & H). cbn in H. apply H. Qed.
  Lemma tiles_next s e l1 l2 a b : tiles cmp s e (l1 ++ a :: b :: l2) -> eqb cmp (r_end a) (r_start b) = true.
  Proof. intros H. apply tiles_split in H as (x & _ & H). cbn in H. destruct H as (_ & _ & H & _). ord. Qed.

  Lemma filter_all {A} (p : A -> bool) l : (forall a, In a l -> p a = true) -> filter p l = l.
  Proof.
    induction l as [|a l IH]; intros H; cbn; [reflexivity|]. rewrite (H a (or_introl eq_refl)). f_equal. apply IH.
    intros b Hb. apply H. right. exact Hb.
  Qed.
  Lemma filter_none {A} (p : A -> bool) l : (forall a, In a l -> p a = false) -> filter p l = [].
  Proof.
    induction l as [|a l IH]; intros H; cbn; [reflexivity|]. rewrite (H a (or_introl eq_refl)). apply IH.
    intros b Hb. apply H. right. exact Hb.
  Qed.

  Lemma gaps_ok ops outer : exists n, forall fuel, n <= fuel -> fuzz_gaps cmp veqb fuel ops outer = Ret tt.
  Proof.
    unfold fuzz_gaps, fuzz_gaps_asserts. pose proof (fapply_run ops []) as H. change (run []) with (@rm_new K V) in H.
    rewrite H. cbn [obind app]. generalize (flat_map fcall ops). clear ops H. intros ops.
    assert (Ee : r_is_empty cmp outer = negb (valid_range cmp outer)) by reflexivity. rewrite Ee. destruct (valid_range cmp outer) eqn:Ho.
    - destruct (map_tiles HO HV ops outer Ho) as (g & o & gs & es & l & Hg & Hgn & Hov & Hon & P & T).
      exists (S (length gs + length es)). intros fuel Hf. rewrite Hg. cbn [obind].
      rewrite (drain_pure _ _ gs) by (auto; lia). cbn [obind]. rewrite Hov. cbn [obind].
      rewrite (drain_pure _ _ es) by (auto; lia). cbn [obind negb].
      destruct (tiles_starts _ _ _ T) as (_ & T1 & T2).
      assert (EK : sort_by (fun a b => leb cmp (r_start a) (r_start b))
        (filter (fun r => negb (r_is_empty cmp r))
           (map (fun e : range K * V => mkR (kmax cmp (r_start (fst e)) (r_start outer)) (kmin cmp (r_end (fst e)) (r_end outer))) es) ++ gs) = l).
      { rewrite (map_ext _ (fun e => clip cmp outer (fst e))) by (intros; apply trunc_clip). rewrite filter_all.
        2:{ intros r Hr. unfold r_is_empty. rewrite negb_involutive. fold (valid_range cmp r). apply T1.
            apply (Permutation_in _ (Permutation_sym P)), in_or_app. right. exact Hr. }
        apply sort_by_unique.
        - intros a b. destruct (leb cmp (r_start a) (r_start b)) eqn:E; [left; reflexivity|right; ord].
        - intros a b c H1 H2. ord.
        - exact T2.
        - rewrite P. apply Permutation_app_comm. }
      rewrite EK. clear EK P.
      destruct (tiles_first _ _ _ T Ho) as (r & l' & E & Er). rewrite E at 1. cbv beta iota. rewrite Er. cbn [fassert obind].
      destruct (rev l) as [|r2 l2] eqn:E2.
      { apply (f_equal (@rev _)) in E2. rewrite rev_involutive in E2. rewrite E in E2. discriminate. }
      apply (f_equal (@rev _)) in E2. rewrite rev_involutive in E2. cbn [rev] in E2.
      rewrite E2 in T at 1. apply tiles_last in T as T3. rewrite T3. cbn [fassert obind].
      apply windows_all. intros a b l3 l4 E4. rewrite <- E2, E4 in T. apply tiles_next in T. rewrite T. reflexivity.
    - destruct (map_no_tiles HO HV ops outer Ho) as (g & o & es & Hg & Hgn & Hov & Hon & P).
      exists (S (length es)). intros fuel Hf. rewrite Hg. cbn [obind].
      rewrite (drain_pure _ _ []) by (try (intros; rewrite Hgn, yields_nil; reflexivity); cbn; lia).
      cbn [obind]. rewrite Hov. cbn [obind].
      rewrite (drain_pure _ _ es) by (auto; lia). cbn [obind negb].
      rewrite (map_ext _ (fun e => clip cmp outer (fst e))) by (intros; apply trunc_clip).
      rewrite filter_none; [reflexivity|]. intros r Hr. apply in_map_iff in Hr as (e & <- & He).
      unfold r_is_empty. rewrite negb_involutive. apply P, He.
  Qed.
End HalfOpen.

Section Inclusive.
  Context {K V : Type} {cmp : K -> K -> comparison} {veqb : V -> V -> bool} {st : stepfns K}.
  Context (HO : TotalOrd cmp) (HS : StepLaws cmp st) (HV : PartialEquiv veqb) (Hid : forall a b, cmp a b = Eq -> a = b).
  Notation run := (im_run cmp veqb st).

  Definition fcalli (o : fop (rangei K) V) : op (rangei K) V :=
    match o with FInsert r v => OInsert r v | FRemove r => ORemove r end.
  Notation good ops := (forallb (fun o => valid_rangei cmp (frange o)) ops).

  Lemma fapplyi_run ops : Forall (fun o => ri_exhausted (frange o) = false) ops -> forall pre, fresh_ops pre ->
    if good ops
    then for_each (fapplyi cmp veqb st) ops (run pre) = (Ret tt, run (pre ++ map fcalli ops)) /\ fresh_ops (pre ++ map fcalli ops)
    else fst (for_each (fapplyi cmp veqb st) ops (run pre)) = Panicked PAssert.
  Proof.
    induction ops as [|o ops IH]; intros Hf pre Hp.
    - cbn. rewrite app_nil_r. auto.
    - apply Forall_cons_iff in Hf as [Hf1 Hf2]. cbn [for_each map forallb]. unfold bind at 1 2.
      assert (E : if valid_rangei cmp (frange o)
        then fapplyi cmp veqb st o (run pre) = (Ret tt, run (pre ++ [fcalli o]))
        else fapplyi cmp veqb st o (run pre) = (Panicked PAssert, run pre)).
      { destruct o as [r v|r]; cbn [fapplyi fcalli frange] in *.
        - pose proof (iinsert_outcome HO HS HV pre r v Hp Hf1) as H. destruct (valid_rangei cmp r); [|exact H].
          destruct H as (m' & H & _). rewrite run_isnoc. cbn [im_exec]. rewrite H. reflexivity.
        - pose proof (iremove_outcome HO HS HV pre r Hp) as H. destruct (valid_rangei cmp r); [|exact H].
          destruct H as (m' & H & _). rewrite run_isnoc. cbn [im_exec]. rewrite H. reflexivity. }
      destruct (valid_rangei cmp (frange o)); rewrite E; [|reflexivity]. cbn [andb].
      specialize (IH Hf2 (pre ++ [fcalli o])). rewrite <- !app_assoc in IH. cbn [app] in IH. apply IH.
      unfold fresh_ops in *. rewrite forallb_app, Hp. cbn [forallb andb].
      destruct o; cbn in *; try rewrite Hf1; reflexivity.
  Qed.

  Lemma coalescei_ok ops : Forall (fun o => ri_exhausted (frange o) = false) ops ->
    fuzz_coalescei cmp veqb st ops = if good ops then Ret tt else Panicked PAssert.
  Proof.
    intros Hf. unfold fuzz_coalescei. pose proof (fapplyi_run ops Hf [] eq_refl) as H. change (run []) with (@im_new K V) in H.
    destruct (good ops).
    2:{ destruct (for_each _ ops _) as [o m]. cbn in H. rewrite H. reflexivity. }
    destruct H as [H Hfr]. rewrite H. cbn [obind app] in *. apply windows_all. intros a b l1 l2 E.
    destruct (iiter_valid_ascending HO HS HV _ Hfr) as [A1 A2].
    pose proof (iiter_coalesced HO HS HV _ Hfr a b) as C. rewrite E in C, A1, A2.
    assert (I1 : In a (l1 ++ a :: b :: l2)) by (apply in_or_app; right; left; reflexivity).
    assert (I2 : In b (l1 ++ a :: b :: l2)) by (apply in_or_app; right; right; left; reflexivity).
    assert (L : ltb cmp (ri_end (fst a)) (ri_start (fst b)) = true).
    { apply SS_app in A1 as (_ & A1 & _). apply StronglySorted_inv in A1 as [_ A1].
      apply Forall_cons_iff in A1 as [A1 _]. exact A1. }
    specialize (C I1 I2 L). destruct (step_pred _ _ HS _ _ L) as (p & Ep & P1 & P2). rewrite Ep. cbn [farith obind].
    destruct (eqb cmp (ri_end (fst a)) p) eqn:E1; [|reflexivity].
    destruct (veqb (snd a) (snd b)) eqn:E2; [|reflexivity]. exfalso. destruct (C eq_refl) as (k & K1 & K2).
    destruct (step_pred _ _ HS _ _ K2) as (p' & Ep' & P1' & P2'). rewrite Ep in Ep'. injection Ep' as <-. ord.
  Qed.

  Lemma nonempty_valid r : ri_exhausted r = false -> ri_is_empty cmp r = negb (valid_rangei cmp r).
  Proof.
    intros Hx. unfold ri_is_empty, valid_rangei. rewrite Hx, negb_involutive. cbn [orb]. unfold leb, ltb.
    rewrite (ord_dual _ HO (ri_end r)). destruct (cmp _ _); reflexivity.
  Qed.
  Lemma trunci_clip outer r :
    incl (kmax cmp (ri_start r) (ri_start outer)) (kmin cmp (ri_end r) (ri_end outer)) = clipi cmp outer r.
  Proof.
    unfold incl, clipi, kmax, kmin, ltb. f_equal.
    rewrite (ord_dual _ HO). destruct (cmp (ri_start r) (ri_start outer)) eqn:E; cbn; try reflexivity.
    symmetry. apply Hid, E.
  Qed.

  Lemma tilesi_starts l : forall s e, tilesi cmp s e l ->
    (forall r, In r l -> valid_rangei cmp r = true /\ leb cmp s (ri_start r) = true) /\
    StronglySorted (fun a b => leb cmp (ri_start a) (ri_start b) = true /\ leb cmp (ri_start b) (ri_start a) = false) l.
  Proof.
    induction l as [|r [|r2 l] IH]; intros s e H; [destruct H| |].
    - destruct H as (H1 & H2 & _). split; [|repeat constructor]. intros r0 [<- | []]. split; [exact H2|ord].
    - destruct H as (H1 & H2 & H3 & H4 & H5). destruct (IH _ _ H5) as [I1 I2]. unfold valid_rangei in H2. split.
      + intros r0 [<- | H0]; [split; [exact H2|ord]|]. destruct (I1 _ H0) as [J1 J2]. split; [exact J1|ord].
      + constructor; [exact I2|]. apply Forall_forall. intros r0 H0. destruct (I1 _ H0) as [J1 J2]. split; ord.
  Qed.
  Lemma tilesi_suffix l1 : forall s e r l2, tilesi cmp s e (l1 ++ r :: l2) -> exists x, tilesi cmp x e (r :: l2).
  Proof.
    induction l1 as [|r1 l1 IH]; intros s e r l2 H; [exists s; exact H|].
    cbn in H. destruct (l1 ++ r :: l2) as [|r2 l] eqn:E; [destruct l1; discriminate|].
    destruct H as (_ & _ & _ & _ & H). rewrite <- E in H. eapply IH, H.
  Qed.
  Lemma tilesi_last s e r l : tilesi cmp s e (l ++ [r]) -> eqb cmp (ri_end r) e = true.
  Proof. intros H. apply tilesi_suffix in H as (x & H). apply H. Qed.
  Lemma tilesi_next s e l1 l2 a b : tilesi cmp s e (l1 ++ a :: b :: l2) ->
    exists p, add_one st (ri_end a) = Some p /\ eqb cmp p (ri_start b) = true.
  Proof.
    intros H. apply tilesi_suffix in H as (x & _ & _ & H1 & H2 & _).
    destruct (step_succ _ _ HS _ _ H1) as (p & E & P1 & P2). exists p. split; [exact E|].
    destruct (eqb cmp p (ri_start b)) eqn:E2; [reflexivity|]. exfalso. apply (H2 p P1). ord.
  Qed.

  Lemma gapsi_ok ops outer : Forall (fun o => ri_exhausted (frange o) = false) ops -> ri_exhausted outer = false ->
    exists n, forall fuel, n <= fuel ->
    fuzz_gapsi cmp veqb st fuel ops outer = if good ops then Ret tt else Panicked PAssert.
  Proof.
    intros Hf Hx. unfold fuzz_gapsi, fuzz_gapsi_asserts. pose proof (fapplyi_run ops Hf [] eq_refl) as H. change (run []) with (@im_new K V) in H.
    destruct (good ops).
    2:{ exists 0. intros fuel _. destruct (for_each _ ops _) as [o m]. cbn in H. rewrite H. reflexivity. }
    destruct H as [H Hfr]. rewrite H. cbn [obind app] in *. revert Hfr. generalize (map fcalli ops). clear ops H Hf. intros ops Hfr.
    assert (Ee : ri_is_empty cmp outer = negb (valid_rangei cmp outer)) by (apply nonempty_valid, Hx).
    rewrite Ee. destruct (valid_rangei cmp outer) eqn:Ho.
    - destruct (imap_tiles HO HS HV ops outer Ho) as (g & o & gs & es & l & Hg & Hgn & Hov & Hon & P & T).
      exists (S (length gs + length es)). intros fuel Hfu. rewrite Hg. cbn [obind].
      rewrite (drain_ok _ gs) by (try exact Hgn; lia). cbn [obind]. rewrite Hov. cbn [obind].
      rewrite (drain_pure _ _ es) by (auto; lia). cbn [obind negb].
      destruct (tilesi_starts _ _ _ T) as (T1 & T2).
      assert (EK : sort_by (fun a b => leb cmp (ri_start a) (ri_start b))
        (filter (fun r => negb (ri_is_empty cmp r))
           (map (fun e : rangei K * V => incl (kmax cmp (ri_start (fst e)) (ri_start outer)) (kmin cmp (ri_end (fst e)) (ri_end outer))) es) ++ gs) = l).
      { rewrite (map_ext _ (fun e => clipi cmp outer (fst e))) by (intros; apply trunci_clip). rewrite filter_all.
        2:{ intros r Hr. apply in_map_iff in Hr as (e & <- & Hr). rewrite nonempty_valid, negb_involutive by reflexivity. apply T1.
            apply (Permutation_in _ (Permutation_sym P)), in_or_app. right. apply (in_map (fun e => clipi cmp outer (fst e))), Hr. }
        apply sort_by_unique.
        - intros a b. destruct (leb cmp (ri_start a) (ri_start b)) eqn:E; [left; reflexivity|right; ord].
        - intros a b c H1 H2. ord.
        - exact T2.
        - rewrite P. apply Permutation_app_comm. }
      rewrite EK. clear EK P.
      destruct l as [|r l'] eqn:E; [destruct T|]. pose proof T as T0. destruct T0 as (Er & _). rewrite Er. cbn [fassert obind].
      rewrite <- E in *. destruct (rev l) as [|r2 l2] eqn:E2.
      { apply (f_equal (@rev _)) in E2. rewrite rev_involutive in E2. rewrite E in E2. discriminate. }
      apply (f_equal (@rev _)) in E2. rewrite rev_involutive in E2. cbn [rev] in E2.
      rewrite E2 in T at 1. apply tilesi_last in T as T3. rewrite T3. cbn [fassert obind].
      apply windows_all. intros a b l3 l4 E4. rewrite <- E2, E4 in T. apply tilesi_next in T as (p & Ep & Eq). rewrite Ep.
      cbn [farith obind]. rewrite Eq. reflexivity.
    - destruct (imap_no_tiles HO HS HV ops outer Ho) as (g & o & es & Hg & Hgn & Hov & Hon & P).
      exists (S (length es)). intros fuel Hfu. rewrite Hg. cbn [obind].
      rewrite (drain_ok _ []).
      2:{ intros n. rewrite Hgn, yields_nil. clear. induction n; cbn; congruence. }
      2: cbn; lia.
      cbn [obind]. rewrite Hov. cbn [obind].
      rewrite (drain_pure _ _ es) by (auto; lia). cbn [obind negb].
      rewrite (map_ext _ (fun e => clipi cmp outer (fst e))) by (intros; apply trunci_clip).
      rewrite filter_none; [reflexivity|]. intros r Hr. apply in_map_iff in Hr as (e & <- & He).
      rewrite nonempty_valid, negb_involutive by reflexivity. apply P, He.
  Qed.
End Inclusive.

Lemma ival_id t (a b : ival t) : icmp t a b = Eq -> a = b.
Proof.
  unfold icmp. intros H%Z.compare_eq. destruct a as [a Ha], b as [b Hb]. cbn in H. subst b. f_equal.
  apply Eqdep_dec.UIP_dec, bool_dec.
Qed.
Lemma eqb_per {K} (cmp : K -> K -> comparison) : TotalOrd cmp -> PartialEquiv (eqb cmp).
Proof. intros HO. split; intros; ord. Qed.

Lemma u8_targets : forall md,
  (forall ops, fuzz_coalesce (icmp u8) (eqb (icmp u8)) ops = Ret tt) /\
  (forall ops outer, exists n, forall fuel, (n <= fuel)%nat -> fuzz_gaps (icmp u8) (eqb (icmp u8)) fuel ops outer = Ret tt) /\
  (forall ops, Forall (fun o => ri_exhausted (frange o) = false /\ valid_rangei (icmp u8) (frange o) = true) ops ->
     fuzz_coalescei (icmp u8) (eqb (icmp u8)) (int_steps md u8) ops = Ret tt) /\
  (forall ops s e, Forall (fun o => ri_exhausted (frange o) = false /\ valid_rangei (icmp u8) (frange o) = true) ops ->
     exists n, forall fuel, (n <= fuel)%nat ->
     fuzz_gapsi (icmp u8) (eqb (icmp u8)) (int_steps md u8) fuel ops (incl s e) = Ret tt).
Proof.
  intros md. pose proof (int_order u8) as HO. pose proof (eqb_per _ HO) as HV.
  pose proof (int_steplaws u8 md eq_refl) as HS.
  assert (B : forall ops : list (fop (rangei (ival u8)) (ival u8)),
    Forall (fun o => ri_exhausted (frange o) = false /\ valid_rangei (icmp u8) (frange o) = true) ops ->
    Forall (fun o => ri_exhausted (frange o) = false) ops /\ forallb (fun o => valid_rangei (icmp u8) (frange o)) ops = true).
  { intros ops H. split; [eapply Forall_impl; [|exact H]; intros o [Ho _]; exact Ho|]. apply forallb_forall. rewrite Forall_forall in H.
    intros o Ho. apply H, Ho. }
  split; [exact (coalesce_ok HO HV)|]. split; [exact (gaps_ok HO HV (ival_id u8))|]. split.
  - intros ops [H1 H2]%B. rewrite (coalescei_ok HO HS HV ops H1), H2. reflexivity.
  - intros ops s e [H1 H2]%B.
    destruct (gapsi_ok HO HS HV (ival_id u8) ops (incl s e) H1 eq_refl) as (n & Hn).
    exists n. intros fuel Hf. rewrite (Hn fuel Hf), H2. reflexivity.
Qed.
