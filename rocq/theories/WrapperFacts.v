(** Facts about the key wrappers and about [overlaps] / [touches]. *)
From Coq Require Import List Bool.
From Verif Require Import Order Outcome BTree Ranges History Spec SearchTree MapModel IMapModel
  ListLemmas MapFacts MapMore MapProps IMapProps CrashModel CrashFacts CrashProps ExhaustedCrash WrapperModel.
Import ListNotations.

Section Contract.
  Context {K : Type} {kcmp : K -> K -> comparison} {kpcmp : K -> K -> option comparison} {keqb : K -> K -> bool}.
  Context (HK : ord_contract kcmp kpcmp keqb).
  (** comparison through a function inherits the contract *)
  Lemma contract_via {W} (f : W -> K) :
    ord_contract (fun a b => kcmp (f a) (f b)) (fun a b => kpcmp (f a) (f b)) (fun a b => keqb (f a) (f b)).
  Proof.
    destruct HK as (HO & H1 & H2). split; [|split].
    - split.
      + intros x. apply (ord_refl _ HO).
      + intros x y. apply (ord_dual _ HO).
      + intros c x y z. apply (ord_trans _ HO).
    - intros a b. apply H1.
    - intros a b. apply H2.
  Qed.
  Lemma wrappers_lawful :
    ord_contract (sw_cmp kcmp) (sw_partial_cmp kpcmp) (sw_eq keqb) /\
    ord_contract (ew_cmp kcmp) (ew_partial_cmp kpcmp) (ew_eq keqb) /\
    ord_contract (isw_cmp kcmp) (isw_partial_cmp kpcmp) (isw_eq keqb) /\
    ord_contract (iew_cmp kcmp) (iew_partial_cmp kpcmp) (iew_eq keqb).
  Proof.
    split; [|split; [|split]].
    - exact (contract_via (fun w => r_start (sw_deref w))).
    - exact (contract_via (fun w => r_end (ew_deref w))).
    - exact (contract_via (fun w => ri_start (isw_deref w))).
    - exact (contract_via (fun w => ri_end (iew_deref w))).
  Qed.
End Contract.

(** entries sorted by two orders: the two agree on them, and only an entry
    itself compares Equal to it *)
Lemma sorted_both {Q V} (c d : Q -> Q -> comparison) (HC : TotalOrd c) (HD : TotalOrd d) (l : list (Q * V)) :
  sorted_by c l -> sorted_by d l -> forall a b, In a l -> In b l ->
  c (fst a) (fst b) = d (fst a) (fst b) /\ (c (fst a) (fst b) = Eq -> a = b).
Proof.
  intros H1 H2 a b Ha Hb. apply in_split in Ha as (l1 & l2 & ->).
  apply in_app_or in Hb as [Hb|[<-|Hb]].
  - apply in_split in Hb as (l3 & l4 & ->). rewrite <- app_assoc in H1, H2. cbn in H1, H2.
    pose proof (H1 _ _ _ _ _ eq_refl) as E1. pose proof (H2 _ _ _ _ _ eq_refl) as E2.
    apply (proj1 (cmp_Lt_Gt HC _ _)) in E1. apply (proj1 (cmp_Lt_Gt HD _ _)) in E2.
    rewrite E1, E2. split; [reflexivity|discriminate].
  - rewrite (ord_refl _ HC), (ord_refl _ HD). split; auto.
  - apply in_split in Hb as (l3 & l4 & ->).
    pose proof (H1 _ _ _ _ _ eq_refl) as E1. pose proof (H2 _ _ _ _ _ eq_refl) as E2.
    rewrite E1, E2. split; [reflexivity|discriminate].
Qed.

Section Ext.
  Context {K : Type} {cmp : K -> K -> comparison} (HO : TotalOrd cmp).
  Ltac kcase := unfold kmax, kmin in *;
    repeat match goal with
    | H : context [if ?c then _ else _] |- _ => destruct c eqn:?
    | |- context [if ?c then _ else _] => destruct c eqn:?
    end.

  Lemma overlaps_share (a b : range K) : r_overlaps cmp a b = true <-> share (in_range cmp) a b.
  Proof.
    unfold r_overlaps, share, in_range. split.
    - intros H. exists (kmax cmp (r_start a) (r_start b)). kcase; split; ord.
    - intros (k & H1 & H2). apply andb_prop in H1 as [H1 H3]. apply andb_prop in H2 as [H2 H4].
      kcase; ord.
  Qed.
  Lemma touches_joined (a b : range K) : valid_range cmp a = true -> valid_range cmp b = true ->
    r_touches cmp a b = true <-> exists c, joined (in_range cmp) a b c.
  Proof.
    unfold r_touches, joined, in_range, valid_range. intros Ha Hb. split.
    - intros H. exists (mkR (kmin cmp (r_start a) (r_start b)) (kmax cmp (r_end a) (r_end b))).
      intros k. cbn [r_start r_end]. rewrite !andb_true_iff, !negb_true_iff. split.
      + intros [H1 H2].
        destruct (negb (ltb cmp k (r_start a)) && ltb cmp k (r_end a)) eqn:E.
        * left. apply andb_prop in E as [E1 E2]. rewrite negb_true_iff in E1. auto.
        * right. kcase; split; ord.
      + intros [[H1 H2]|[H1 H2]]; kcase; split; ord.
    - intros (c & H).
      destruct (leb cmp (kmax cmp (r_start a) (r_start b)) (kmin cmp (r_end a) (r_end b))) eqn:E; [reflexivity|].
      exfalso.
      pose proof (proj2 (H (r_start a))) as Ca. pose proof (proj2 (H (r_start b))) as Cb.
      pose proof (proj1 (H (r_end a))) as Ea. pose proof (proj1 (H (r_end b))) as Eb.
      rewrite !andb_true_iff, !negb_true_iff in *.
      destruct Ca as [C1 C2]; [left; split; ord|]. destruct Cb as [C3 C4]; [right; split; ord|].
      destruct (ltb cmp (r_end a) (r_start b)) eqn:E1.
      + destruct Ea as [[X Y]|[X Y]]; [split; ord|first [discriminate|ord]|first [discriminate|ord]].
      + assert (ltb cmp (r_end b) (r_start a) = true) by (kcase; ord).
        destruct Eb as [[X Y]|[X Y]]; [split; ord|first [discriminate|ord]|first [discriminate|ord]].
  Qed.
  Lemma touches_sym (a b : range K) : r_touches cmp a b = r_touches cmp b a.
  Proof. unfold r_touches. kcase; ord. Qed.
  Lemma overlaps_sym (a b : range K) : r_overlaps cmp a b = r_overlaps cmp b a.
  Proof. unfold r_overlaps. kcase; ord. Qed.
  Lemma overlaps_touches (a b : range K) : r_overlaps cmp a b = true -> r_touches cmp a b = true.
  Proof. unfold r_overlaps, r_touches. intros H. ord. Qed.

  Lemma ioverlaps_share (a b : rangei K) : ri_overlaps cmp a b = true <-> share (in_rangei cmp) a b.
  Proof.
    unfold ri_overlaps, share, in_rangei. split.
    - intros H. exists (kmax cmp (ri_start a) (ri_start b)). kcase; split; ord.
    - intros (k & H1 & H2). apply andb_prop in H1 as [H1 H3]. apply andb_prop in H2 as [H2 H4].
      kcase; ord.
  Qed.
  Lemma ioverlaps_sym (a b : rangei K) : ri_overlaps cmp a b = ri_overlaps cmp b a.
  Proof. unfold ri_overlaps. kcase; ord. Qed.

  Context {st : stepfns K} (HS : StepLaws cmp st).
  Lemma itouches_ret (a b : rangei K) : exists t, ri_touches cmp st a b = Ret t.
  Proof.
    unfold ri_touches. cbv zeta.
    destruct (ltb cmp (kmin cmp (ri_end a) (ri_end b)) (kmax cmp (ri_start a) (ri_start b))) eqn:E.
    - destruct (step_succ _ _ HS _ _ E) as (s & -> & _). eexists. reflexivity.
    - eexists. reflexivity.
  Qed.
  (** the answer: no key lies strictly between *)
  Lemma itouches_true (a b : rangei K) : ri_touches cmp st a b = Ret true <->
    forall k, ltb cmp (kmin cmp (ri_end a) (ri_end b)) k = true ->
              ltb cmp k (kmax cmp (ri_start a) (ri_start b)) = true -> False.
  Proof.
    unfold ri_touches. cbv zeta.
    set (x := kmin cmp _ _). set (y := kmax cmp _ _).
    destruct (ltb cmp x y) eqn:E.
    - destruct (step_succ _ _ HS _ _ E) as (s & H1 & H2 & H3). rewrite H1. cbn. split.
      + intros [= H] k K1 K2. destruct (step_succ _ _ HS _ _ K1) as (s' & H1' & _ & H3').
        rewrite H1 in H1'. injection H1' as <-. exfalso. ord.
      + intros H. f_equal. destruct (leb cmp y s) eqn:E2; [reflexivity|]. exfalso.
        apply (H s H2). ord.
    - cbn. split.
      + intros _ k K1 K2. exfalso. ord.
      + intros _. f_equal. ord.
  Qed.
  Lemma itouches_joined (a b : rangei K) : valid_rangei cmp a = true -> valid_rangei cmp b = true ->
    ri_touches cmp st a b = Ret true <-> exists c, joined (in_rangei cmp) a b c.
  Proof.
    unfold joined, in_rangei, valid_rangei. intros Ha Hb. rewrite itouches_true. split.
    - intros H. exists (mkRI (kmin cmp (ri_start a) (ri_start b)) (kmax cmp (ri_end a) (ri_end b)) false).
      intros k. specialize (H k). cbn [ri_start ri_end].
      rewrite !andb_true_iff, !negb_true_iff in *. split.
      + intros [H1 H2].
        destruct (negb (ltb cmp k (ri_start a)) && negb (ltb cmp (ri_end a) k)) eqn:E.
        * left. apply andb_prop in E as [E1 E2]. rewrite negb_true_iff in E1, E2. auto.
        * destruct (negb (ltb cmp k (ri_start b)) && negb (ltb cmp (ri_end b) k)) eqn:E'.
          -- right. apply andb_prop in E' as [E1 E2]. rewrite negb_true_iff in E1, E2. auto.
          -- exfalso. apply H; kcase; ord.
      + intros [[H1 H2]|[H1 H2]]; kcase; split; ord.
    - intros (c & H) k H1 H2.
      pose proof (proj2 (H (ri_start a))) as Ca. pose proof (proj2 (H (ri_start b))) as Cb.
      pose proof (proj1 (H k)) as E.
      rewrite !andb_true_iff, !negb_true_iff in *.
      destruct Ca as [C1 C2]; [left; split; ord|]. destruct Cb as [C3 C4]; [right; split; ord|].
      destruct E as [[X Y]|[X Y]]; [split; kcase; ord|kcase; ord|kcase; ord].
  Qed.
  Lemma itouches_sym (a b : rangei K) : ri_touches cmp st a b = ri_touches cmp st b a.
  Proof.
    destruct (itouches_ret a b) as [x Hx], (itouches_ret b a) as [y Hy].
    rewrite Hx, Hy. f_equal. pose proof (itouches_true a b) as A. pose proof (itouches_true b a) as B.
    rewrite Hx in A. rewrite Hy in B.
    assert (X : x = true <-> y = true); [|destruct x, y; try reflexivity; [symmetry; apply X; reflexivity|apply X; reflexivity]].
    assert (E1 : (Ret x = Ret true) <-> x = true) by (split; [intros [= ->]; reflexivity|intros ->; reflexivity]).
    assert (E2 : (Ret y = Ret true) <-> y = true) by (split; [intros [= ->]; reflexivity|intros ->; reflexivity]).
    rewrite <- E1, <- E2, A, B. split; intros H k H1 H2; apply (H k); kcase; ord.
  Qed.
  Lemma ioverlaps_touches (a b : rangei K) : ri_overlaps cmp a b = true -> ri_touches cmp st a b = Ret true.
  Proof.
    unfold ri_overlaps. intros H. apply itouches_true. intros k H1 H2. exfalso. ord.
  Qed.
End Ext.

(** ** At every moment of every call *)
Section Moments.
  Context {K V : Type} {cmp : K -> K -> comparison} {veqb : V -> V -> bool}.
  Context (HO : TotalOrd cmp) (HV : PartialEquiv veqb).

  Lemma moment_borrow xs (a b : range K * V) :
    In a (rmx_run cmp veqb xs) -> In b (rmx_run cmp veqb xs) ->
    let wa := sw_new (fst a) in let wb := sw_new (fst b) in
    sw_cmp cmp wa wb = ew_cmp cmp (sw_borrow wa) (sw_borrow wb) /\ (sw_cmp cmp wa wb = Eq -> a = b).
  Proof.
    destruct (xrun_reachable HO HV xs) as (ops & ->). intros Ha Hb. cbv zeta.
    destruct (WF_sorted_by HO _ (run_WF HO HV ops)) as (S1 & S2).
    assert (O1 : TotalOrd (cmp_start cmp)).
    { split; intros; [apply (ord_refl _ HO)|apply (ord_dual _ HO)|eapply (ord_trans _ HO); eassumption]. }
    assert (O2 : TotalOrd (cmp_end cmp)).
    { split; intros; [apply (ord_refl _ HO)|apply (ord_dual _ HO)|eapply (ord_trans _ HO); eassumption]. }
    exact (sorted_both _ _ O1 O2 _ S1 S2 a b Ha Hb).
  Qed.
  Lemma moment_search xs (t : tree (range K * V)) : elems t = rmx_run cmp veqb xs ->
    forall c, c = cmp_start cmp \/ c = cmp_end cmp ->
    forall lo hi, bad_bounds c lo hi = false ->
      bt_range c lo hi (rmx_run cmp veqb xs) = Ret (tree_range c lo hi t).
  Proof.
    destruct (xrun_reachable HO HV xs) as (ops & ->). intros Ht.
    exact (tree_search HO _ t (run_WF HO HV ops) Ht).
  Qed.

  Context {st : stepfns K} (HS : StepLaws cmp st).
  Lemma imoment_borrow xs (a b : rangei K * V) :
    In a (imx_run cmp veqb st xs) -> In b (imx_run cmp veqb st xs) ->
    let wa := isw_new (fst a) in let wb := isw_new (fst b) in
    isw_cmp cmp wa wb = iew_cmp cmp (isw_borrow wa) (isw_borrow wb) /\ (isw_cmp cmp wa wb = Eq -> a = b).
  Proof.
    intros Ha Hb. cbv zeta. destruct (ixrun_sorted_any HO HS HV xs) as (S1 & S2).
    assert (O1 : TotalOrd (cmpi_start cmp)).
    { split; intros; [apply (ord_refl _ HO)|apply (ord_dual _ HO)|eapply (ord_trans _ HO); eassumption]. }
    assert (O2 : TotalOrd (cmpi_end cmp)).
    { split; intros; [apply (ord_refl _ HO)|apply (ord_dual _ HO)|eapply (ord_trans _ HO); eassumption]. }
    exact (sorted_both _ _ O1 O2 _ S1 S2 a b Ha Hb).
  Qed.
  Lemma imoment_search xs (t : tree (rangei K * V)) :
    elems t = imx_run cmp veqb st xs ->
    forall c, c = cmpi_start cmp \/ c = cmpi_end cmp ->
    forall lo hi, bad_bounds c lo hi = false ->
      bt_range c lo hi (imx_run cmp veqb st xs) = Ret (tree_range c lo hi t).
  Proof.
    intros E c Hc lo hi Hb. destruct (ixrun_sorted_any HO HS HV xs) as [H1 H2]. rewrite <- E in *.
    destruct Hc as [-> | ->]; apply tree_range_ok; auto using (cmpi_start_order HO), (cmpi_end_order HO).
  Qed.
End Moments.
