(** Interrupted [RangeInclusiveMap] updates: every state they go through
    simulates a state of the corresponding [RangeMap] update (ISim.v). *)
From Coq Require Import List Bool Sorting.Sorted Lia.
From Verif Require Import Order Outcome BTree Ranges History Spec MapModel IMapModel ListLemmas
  MapProofs MapRemove AnyEq MapFacts MapIter ISim CrashModel CrashFacts.
Import ListNotations.

Section Sim.
  Context {K K' V : Type} {cmp : K -> K -> comparison} {cmp' : K' -> K' -> comparison}.
  Context {veqb : V -> V -> bool} {st : stepfns K} {lo hi : K -> K'}.
  Context (HC : Cuts cmp cmp' st lo hi) (HO : TotalOrd cmp').

  Notation WF := (@WF K' V cmp' veqb).
  Notation WW := (@MapProofs.WF K' V cmp' (fun _ _ => false)).
  Notation Rr := (@Rr K K' cmp' lo hi).
  Notation Rn := (@Rn K K' cmp' lo hi).
  Notation Re := (@Re K K' V cmp' lo hi).
  Notation Rm := (@Rm K K' V cmp' lo hi).
  Notation res := (@res K K' V cmp' lo hi _ _).
  Notation U := (fun _ _ : unit => True).

  Definition xres {A B} (R : A -> B -> Prop) (x : list (imap K V) * (outcome A * imap K V))
      (x' : list (rmap K' V) * (outcome B * rmap K' V)) : Prop :=
    Forall2 Rm (fst x) (fst x') /\ res R (snd x) (snd x').
  Definition xsim {A B} (R : A -> B -> Prop) (c : C (imap K V) A) (c' : C (rmap K' V) B) : Prop :=
    forall m m', Rm m m' -> xres R (c m) (c' m').

  Lemma xsim_ret {A B} (R : A -> B -> Prop) a b : R a b -> xsim R (cret a) (cret b).
  Proof. intros H m m' Hm. split; [constructor|split; [exact H|exact Hm]]. Qed.
  Lemma xres_bind {A B X Y} (R : A -> B -> Prop) (Q : X -> Y -> Prop)
      (c : C (imap K V) A) (c' : C (rmap K' V) B) f f' m m' :
    xres R (c m) (c' m') ->
    (forall a b s s', R a b -> Rm s s' -> snd (c' m') = (Ret b, s') -> xres Q (f a s) (f' b s')) ->
    xres Q (cbind c f m) (cbind c' f' m').
  Proof.
    intros [H0 [H1 H3]] H2. unfold cbind.
    destruct (c m) as [t [[a|p|] s]], (c' m') as [t' [[b|p'|] s']]; cbn in *; try contradiction.
    - destruct (H2 a b s s' H1 H3 eq_refl) as [H4 H5].
      destruct (f a s) as [u x], (f' b s') as [u' x']. split; [apply Forall2_app; assumption|exact H5].
    - split; [exact H0|split; assumption].
    - split; [exact H0|split; assumption].
  Qed.
  Lemma xsim_bind {A B X Y} (R : A -> B -> Prop) (Q : X -> Y -> Prop) c c' f f' :
    xsim R c c' -> (forall a b, R a b -> xsim Q (f a) (f' b)) -> xsim Q (cbind c f) (cbind c' f').
  Proof.
    intros H1 H2 m m' Hm. eapply xres_bind; [apply H1; exact Hm|]. intros a b s s' Hab Hs _.
    apply H2; assumption.
  Qed.
  Lemma xsim_get : xsim Rm cget cget.
  Proof. intros m m' Hm. split; [constructor|split; exact Hm]. Qed.
  Lemma xsim_modify f f' : (forall m m', Rm m m' -> Rm (f m) (f' m')) -> xsim U (cmodify f) (cmodify f').
  Proof.
    intros H m m' Hm. split; [cbn; constructor; [apply H; exact Hm|constructor]|].
    split; [exact I|apply H; exact Hm].
  Qed.
  Lemma xsim_lift {A B} (R : A -> B -> Prop) o o' : osim R o o' -> xsim R (clift o) (clift o').
  Proof. intros H m m' Hm. split; [constructor|split; [exact H|exact Hm]]. Qed.
  Lemma xsim_if {A B} (R : A -> B -> Prop) (b b' : bool) c d c' d' :
    b = b' -> (b = true -> xsim R c c') -> (b = false -> xsim R d d') ->
    xsim R (if b then c else d) (if b' then c' else d').
  Proof. intros <- H1 H2. destruct b; auto. Qed.

  Lemma xpiece_left_sim s s' v r r' : Rr s s' -> Rr r r' ->
    ltb cmp (ri_start s) (ri_start r) = true ->
    xsim U (cbind (clift (step_o (sub_one st (ri_start r)))) (fun p =>
              cmodify (bt_insert (cmpi_start cmp) (incl (ri_start s) p) v)))
           (cmodify (bt_insert (cmp_start cmp') (mkR (r_start s') (r_start r')) v)).
  Proof.
    intros Hs Hr E. destruct (cut_pred _ _ _ _ _ HC _ _ E) as (p & Hp & H1). rewrite Hp. cbn.
    intros m m' Hm. cbn.
    assert (Q : Rm (bt_insert (cmpi_start cmp) (incl (ri_start s) p) v m) (bt_insert (cmp_start cmp') (mkR (r_start s') (r_start r')) v m'))
      by (apply (bt_insert_sim HC HO); [|exact Hm]; destruct Hs as [S1 S2], Hr as [R1 R2];
        split; [split; cbn; [exact S1|ord]|reflexivity]).
    split; [constructor; [exact Q|constructor]|split; [exact I|exact Q]].
  Qed.
  Lemma xpiece_right_sim s s' v r r' : Rr s s' -> Rr r r' ->
    gtb cmp (ri_end s) (ri_end r) = true ->
    xsim U (cbind (clift (step_o (add_one st (ri_end r)))) (fun p =>
              cmodify (bt_insert (cmpi_start cmp) (incl p (ri_end s)) v)))
           (cmodify (bt_insert (cmp_start cmp') (mkR (r_end r') (r_end s')) v)).
  Proof.
    intros Hs Hr E. destruct (cut_succ _ _ _ _ _ HC _ _ E) as (p & Hp & H1 & _). rewrite Hp. cbn.
    intros m m' Hm. cbn.
    assert (Q : Rm (bt_insert (cmpi_start cmp) (incl p (ri_end s)) v m) (bt_insert (cmp_start cmp') (mkR (r_end r') (r_end s')) v m'))
      by (apply (bt_insert_sim HC HO); [|exact Hm]; destruct Hs as [S1 S2], Hr as [R1 R2];
        split; [split; cbn; [ord|exact S2]|reflexivity]).
    split; [constructor; [exact Q|constructor]|split; [exact I|exact Q]].
  Qed.

  Lemma xadjust_insert_sim s s' sv r r' v : Rn s s' -> Rn r r' ->
    xsim Rn (imx_adjust_touching_ranges_for_insert cmp veqb st s sv r v)
            (rmx_adjust_touching_ranges_for_insert cmp' veqb s' sv r' v).
  Proof.
    intros Hs Hr.
    unfold imx_adjust_touching_ranges_for_insert, rmx_adjust_touching_ranges_for_insert.
    apply xsim_if; [reflexivity| |]; intros Ev.
    - eapply xsim_bind; [apply xsim_modify; intros; apply (bt_remove_sim HC HO); [apply Hs|assumption]|].
      intros _ _ _. apply xsim_ret. apply (join_sim HC HO); [apply Hr|apply Hs].
    - apply xsim_if; [apply (overlaps_sim HC HO); [apply Hr|apply Hs]| |]; intros Eo.
      + eapply xsim_bind; [apply xsim_modify; intros; apply (bt_remove_sim HC HO); [apply Hs|assumption]|].
        intros _ _ _. eapply xsim_bind.
        { apply xsim_if; [apply (start_lt_sim HC HO); [apply Hs|apply Hr]| |]; intros E.
          - apply xpiece_left_sim; [apply Hs|apply Hr|exact E].
          - apply xsim_ret. exact I. }
        intros _ _ _. eapply xsim_bind.
        { apply xsim_if; [apply (end_lt_sim HC HO); [apply Hr|apply Hs]| |]; intros E.
          - apply xpiece_right_sim; [apply Hs|apply Hr|exact E].
          - apply xsim_ret. exact I. }
        intros _ _ _. apply xsim_ret. exact Hr.
      + apply xsim_ret. exact Hr.
  Qed.
  Lemma xadjust_remove_sim s s' sv r r' : Rr s s' -> Rr r r' ->
    xsim U (imx_adjust_overlapping_ranges_for_remove cmp st s sv r)
           (rmx_adjust_overlapping_ranges_for_remove cmp' s' sv r').
  Proof.
    intros Hs Hr.
    unfold imx_adjust_overlapping_ranges_for_remove, rmx_adjust_overlapping_ranges_for_remove.
    eapply xsim_bind; [apply xsim_modify; intros; apply (bt_remove_sim HC HO); [apply Hs|assumption]|].
    intros _ _ _. eapply xsim_bind.
    { apply xsim_if; [apply (start_lt_sim HC HO); [apply Hs|apply Hr]| |]; intros E.
      - apply xpiece_left_sim; [apply Hs|apply Hr|exact E].
      - apply xsim_ret. exact I. }
    intros _ _ _. apply xsim_if; [apply (end_lt_sim HC HO); [apply Hr|apply Hs]| |]; intros E.
    - apply xpiece_right_sim; [apply Hs|apply Hr|exact E].
    - apply xsim_ret. exact I.
  Qed.

  (** [remove] *)
  Lemma xremove_loop_sim fuel r r' : Rr r r' -> ltb cmp' (r_start r') (r_end r') = true ->
    xsim U (imx_remove_loop cmp st fuel r (incl (ri_end r) (ri_end r)))
           (rmx_remove_loop cmp' fuel r' (mkR (r_end r') (r_end r'))).
  Proof.
    intros Hr Hv. induction fuel as [|fuel IH]; cbn [imx_remove_loop rmx_remove_loop].
    { intros m m' Hm. split; [constructor|split; [exact I|exact Hm]]. }
    eapply xsim_bind; [apply xsim_get|]. intros m m' Hm.
    eapply (xsim_bind Rm).
    - apply xsim_lift. apply bt_range_sim; [exact Hm| | |].
      + cbn. unfold cmpi_start, cmp_start. cbn.
        assert (E : leb cmp (ri_start r) (ri_end r) = true)
          by (rewrite (start_end_sim HC HO r r' r r' Hr Hr); exact Hv).
        unfold leb in E. unfold ltb in Hv.
        destruct (cmp (ri_start r) (ri_end r)), (cmp' (r_start r') (r_end r')); congruence.
      + intros e e' He. cbn. rewrite (start_sim HC HO _ _ r r' (proj1 (proj1 He)) Hr). reflexivity.
      + intros e e' He. cbn. unfold cmpi_start, cmp_start. cbn.
        pose proof (start_end_sim HC HO _ _ r r' (proj1 (proj1 He)) Hr) as E.
        unfold leb, ltb in E.
        destruct (cmp (ri_start (fst e)) (ri_end r)), (cmp' (r_start (fst e')) (r_end r')); congruence.
    - intros l l' Hl. destruct (next_sim l l' Hl) as [Hn _].
      destruct (fst (it_next l)) as [[s sv]|], (fst (it_next l')) as [[s' sv']|]; cbn in Hn;
        try contradiction.
      + destruct Hn as [Hn1 Hn2]. cbn in Hn1, Hn2. subst sv'.
        eapply xsim_bind; [apply xadjust_remove_sim; [apply Hn1|exact Hr]|]. intros _ _ _. exact IH.
      + apply xsim_ret. exact I.
  Qed.

  Lemma xremove_sim r r' : Rr r r' -> xsim U (imx_remove cmp st r) (rmx_remove cmp' r').
  Proof.
    intros Hr. unfold imx_remove, rmx_remove.
    pose proof (start_end_sim HC HO r r' r r' Hr Hr) as E. unfold cassert, assert_. rewrite E.
    destruct (ltb cmp' (r_start r') (r_end r')) eqn:Hv.
    2:{ intros m m' Hm. split; [constructor|split; [reflexivity|exact Hm]]. }
    eapply (xsim_bind U); [intros m m' Hm; split; [constructor|split; [exact I|exact Hm]]|]. intros _ _ _.
    eapply xsim_bind; [apply xsim_get|]. intros m m' Hm.
    eapply (xsim_bind Rm); [apply xsim_lift, (before_sim HC HO); assumption|]. intros l l' Hl.
    eapply (xsim_bind U).
    { pose proof (last_sim l l' Hl) as Hn.
      destruct (last_opt l) as [[s sv]|], (last_opt l') as [[s' sv']|]; cbn in Hn; try contradiction.
      - destruct Hn as [Hn1 Hn2]. cbn in Hn1, Hn2. subst sv'.
        apply xsim_if; [apply (overlaps_sim HC HO); [apply Hn1|exact Hr]| |]; intros _.
        + apply xadjust_remove_sim; [apply Hn1|exact Hr].
        + apply xsim_ret. exact I.
      - apply xsim_ret. exact I. }
    intros _ _ _. eapply xsim_bind; [apply xsim_get|]. intros m1 m1' Hm1.
    rewrite (len_sim m1 m1' Hm1). apply xremove_loop_sim; assumption.
  Qed.


  (** [insert] *)
  Lemma cbind_Ret {S A B} (c : C S A) (f : A -> C S B) s a s' :
    c s = ([], (Ret a, s')) -> cbind c f s = f a s'.
  Proof. intros H. unfold cbind. rewrite H. destruct (f a s'). reflexivity. Qed.

  Lemma xinsert_loop_sim v e0 end0 : cmp' (hi (ri_start e0)) (r_start end0) = Eq ->
    forall fuel A B m new new',
    Rn new new' -> Rm m (A ++ B) -> WW B ->
    (forall a, In a A -> ltb cmp' (r_start (fst a)) (r_start new') = true) ->
    starts_from (cmp := cmp') B (r_start new') ->
    leb cmp' (r_start new') (r_start end0) = true ->
    (eqb cmp' (r_start end0) (r_end new') = true \/
     (ltb cmp' (r_start end0) (r_end new') = true /\
      forall b, In b B -> leb cmp' (r_end new') (r_start (fst b)) = true)) ->
    xres Rn (imx_insert_loop cmp veqb st fuel new v e0 m)
            (rmx_insert_loop cmp' veqb fuel new' v end0 (A ++ B)).
  Proof.
    intros He0. induction fuel as [|fuel IH]; intros A B m new new' Hn Hm HW HA HB Hle Hi.
    { split; [constructor|split; [exact I|exact Hm]]. }
    cbn [imx_insert_loop rmx_insert_loop].
    rewrite (cbind_Ret cget _ m m m eq_refl), (cbind_Ret cget _ (A ++ B) (A ++ B) (A ++ B) eq_refl).
    rewrite (range_incl HO A B new' end0 HA HB Hle).
    assert (HR : osim Rm (bt_range (cmpi_start cmp) (Included new) Unbounded m)
                   (bt_range (cmp_start cmp') (Included new') Unbounded (A ++ B))).
    { apply bt_range_sim; [exact Hm|reflexivity| |reflexivity].
      intros e e' He. cbn. rewrite (start_sim HC HO _ _ new new' (proj1 (proj1 He)) (proj1 Hn)). reflexivity. }
    rewrite (range_from_split HO A B new' HA HB) in HR.
    destruct (bt_range (cmpi_start cmp) (Included new) Unbounded m) as [l| |]; cbn in HR;
      try contradiction.
    rewrite (cbind_Ret (clift (Ret l)) _ m l m eq_refl),
      (cbind_Ret (clift (Ret (take_while _ B))) _ (A ++ B) _ (A ++ B) eq_refl).
    destruct B as [|[b bv] T].
    { inversion HR; subst. split; [constructor|split; [exact Hn|exact Hm]]. }
    inversion HR as [|[x xv] [b0 bv0] l0 T0 [Hx Hxv] Hl]; subst. cbn in Hx, Hxv. subst xv.
    cbn [it_next fst take_while].
    assert (Hsb : leb cmp' (r_start new') (r_start b) = true) by (apply (HB (b, bv)); left; reflexivity).
    assert (Hbrk : (if gtb cmp (ri_start x) (ri_start e0)
                    then omap (fun latest => gtb cmp (ri_start x) latest
                                 || (eqb cmp (ri_start x) latest && negb (veqb bv v)))
                              (step_o (add_one st (ri_start e0)))
                    else Ret false) =
                   Ret (ltb cmp' (r_start end0) (r_start b)
                        || (eqb cmp' (r_start b) (r_start end0) && negb (veqb bv v)))).
    { destruct Hx as [[X1 X2] _]. unfold gtb. destruct (ltb cmp (ri_start e0) (ri_start x)) eqn:E.
      - destruct (cut_succ _ _ _ _ _ HC _ _ E) as (y & Hy & H1 & H2). rewrite Hy. cbn.
        rewrite (lo_lt HC), (lo_eq HC). f_equal.
        assert (E1 : ltb cmp' (lo y) (lo (ri_start x)) = ltb cmp' (r_start end0) (r_start b)) by ord.
        assert (E2 : eqb cmp' (lo (ri_start x)) (lo y) = eqb cmp' (r_start b) (r_start end0)) by ord.
        rewrite E1, E2. reflexivity.
      - rewrite (lohi_le HC HO) in E. f_equal.
        assert (E1 : ltb cmp' (r_start end0) (r_start b) = false) by ord.
        assert (E2 : eqb cmp' (r_start b) (r_start end0) = false) by ord.
        rewrite E1, E2. reflexivity. }
    rewrite Hbrk. clear Hbrk. erewrite cbind_Ret by reflexivity.
    destruct (leb cmp' (r_start b) (r_start end0)) eqn:Ele.
    2:{ assert (E1 : ltb cmp' (r_start end0) (r_start b) = true) by ord. rewrite E1. cbn.
        split; [constructor|split; [exact Hn|exact Hm]]. }
    assert (E1 : ltb cmp' (r_start end0) (r_start b) = false) by ord. rewrite E1. cbn [orb it_next fst].
    assert (E2 : eqb cmp' (r_start b) (r_start end0) = eqb cmp' (r_start b) (r_end new')).
    { destruct Hi as [Hi|[Hi1 Hi2]]; [ord|].
      specialize (Hi2 (b, bv) (or_introl eq_refl)). cbn in Hi2. exfalso. ord. }
    rewrite E2. destruct (eqb cmp' (r_start b) (r_end new') && negb (veqb bv v)) eqn:Ebrk.
    { cbn. split; [constructor|split; [exact Hn|exact Hm]]. }
    pose proof (adjust_shape HO v end0 A b bv T new' HW HA HB Hle Hi Ele Ebrk)
      as (new1 & B1 & Q1 & Q2 & Q3 & Q4 & Q5).
    rewrite <- e_adjust in Q1.
    eapply (xres_bind Rn); [apply (xadjust_insert_sim x b bv new new' v Hx Hn _ _ Hm)|].
    intros n1 n1' t t' Hn1 Ht He. rewrite Q1 in He. injection He as <- <-.
    apply IH; auto; rewrite ?Q3; auto.
  Qed.

  Lemma xinsert_any_sim r r' v m m' : Rn r r' -> Rm m m' -> WW m' ->
    xres U (imx_insert cmp veqb st r v m) (rmx_insert cmp' veqb r' v m').
  Proof.
    intros Hr Hm HW. unfold imx_insert, rmx_insert.
    pose proof (start_end_sim HC HO r r' r r' (proj1 Hr) (proj1 Hr)) as E. unfold cassert, assert_. rewrite E.
    destruct (ltb cmp' (r_start r') (r_end r')) eqn:Hv.
    2:{ split; [constructor|split; [reflexivity|exact Hm]]. }
    destruct (phase1_any HO (veqb := veqb) m' r' v HW Hv) as (L & HR & n1' & A & B & H1 & H2).
    destruct H2 as (P1 & P2 & P3 & P4 & P5 & _).
    rewrite (cbind_Ret (fun s => ([], ret tt s)) _ m tt m eq_refl),
      (cbind_Ret (fun s => ([], ret tt s)) _ m' tt m' eq_refl).
    rewrite (cbind_Ret cget _ m m m eq_refl), (cbind_Ret cget _ m' m' m' eq_refl).
    pose proof (before_sim HC HO r r' m m' (proj1 Hr) Hm) as Hb. rewrite HR in Hb. rewrite HR.
    destruct (bt_range (cmpi_start cmp) Unbounded (Included r) m) as [l| |]; cbn in Hb; try contradiction.
    rewrite (cbind_Ret (clift (Ret l)) _ m l m eq_refl), (cbind_Ret (clift (Ret L)) _ m' L m' eq_refl).
    pose proof (cands_sim HC HO r r' _ _ (proj1 Hr) (firstn_sim 2 _ _ (rev_sim l L Hb))) as Hc.
    destruct (filter_o (fun e => ri_touches cmp st (fst e) r) (firstn 2 (rev l))) as [c| |];
      unfold osim in Hc; try contradiction.
    rewrite (cbind_Ret (clift (Ret c)) _ m c m eq_refl).
    eapply (xres_bind Rn).
    { destruct Hc as [|[s sv] [s' sv'] c c' [Hs Hsv] Hc]; [apply xsim_ret; [exact Hr|exact Hm]|].
      cbn in Hs, Hsv. subst sv'.
      destruct Hc as [|[t tv] [t' tv'] c c' [Ht Htv] Hc]; [apply xadjust_insert_sim; assumption|].
      cbn in Ht, Htv. subst tv'. apply xadjust_insert_sim; assumption. }
    intros n1 n2' m1 m1' Hn1 Hm1 He.
    assert (He' : (Ret n2', m1') = (Ret n1', A ++ B)).
    { rewrite <- He, <- H1.
      destruct (filter (fun e => r_touches cmp' (fst e) r') (firstn 2 (rev L))) as [|[s sv] [|[t tv] l']];
        [reflexivity|apply e_adjust|apply e_adjust]. }
    injection He' as -> ->.
    rewrite (cbind_Ret cget _ m1 m1 m1 eq_refl), (cbind_Ret cget _ (A ++ B) (A ++ B) (A ++ B) eq_refl).
    rewrite (len_sim _ _ Hm1).
    apply WF_app in P1 as (W1 & W2 & W3).
    eapply (xres_bind Rn).
    { apply xinsert_loop_sim; auto.
      - apply (proj2 (proj1 Hn1)).
      - apply (lefts_lt HO A n1' W1 P2).
      - cbn. ord.
      - left. cbn. ord. }
    intros n2 n2' m2 m2' Hn2 Hm2 _. apply xsim_modify; [|exact Hm2].
    intros. apply (bt_insert_sim HC HO); assumption.
  Qed.

  Lemma xextend_any_sim l : forall m m', Rm m m' -> WW m' ->
    forallb (fun e => negb (ri_exhausted (fst e))) l = true ->
    xres U (imx_extend cmp veqb st l m) (rmx_extend cmp' veqb (map (ence (lo := lo) (hi := hi)) l) m').
  Proof.
    unfold imx_extend, rmx_extend.
    induction l as [|[r v] l IH]; intros m m' Hm HW Hf; cbn [map cfor_each ence fst snd].
    - split; [constructor|split; [exact I|exact Hm]].
    - cbn in Hf. apply andb_prop in Hf as [Hf1 Hf2]. apply negb_true_iff in Hf1.
      eapply (xres_bind U).
      { apply xinsert_any_sim; [apply (encr_Rn HO); exact Hf1|exact Hm|exact HW]. }
      intros u u' s s' _ Hs He. apply IH; auto.
      replace s' with (snd (rm_insert cmp' veqb (encr (lo := lo) (hi := hi) r) v m'))
        by (rewrite <- e_insert, He; reflexivity).
      apply (exec_any HO (OInsert (encr (lo := lo) (hi := hi) r) v) m' HW).
  Qed.
  Lemma xexec_any_sim o m m' : Rm m m' -> WW m' -> fresh_op o = true ->
    xres U (imx_exec cmp veqb st o m) (rmx_exec cmp' veqb (enc_op (lo := lo) (hi := hi) o) m').
  Proof.
    intros Hm HW Hf. destruct o as [r v|r| |l]; cbn [imx_exec rmx_exec enc_op].
    - apply xinsert_any_sim; auto. apply (encr_Rn HO). cbn in Hf. apply negb_true_iff. exact Hf.
    - apply xremove_sim; [apply (encr_Rr HO)|exact Hm].
    - apply xsim_modify; [intros; constructor|exact Hm].
    - apply xextend_any_sim; assumption.
  Qed.
  Lemma xinsert_sim (HV : PartialEquiv veqb) r r' v m m' : Rn r r' -> Rm m m' -> WF m' ->
    xres U (imx_insert cmp veqb st r v m) (rmx_insert cmp' veqb r' v m').
  Proof. intros H1 H2 H3. apply xinsert_any_sim; auto. apply (WF_WW (veqb := veqb) m' H3). Qed.
  Lemma xexec_sim (HV : PartialEquiv veqb) o m m' : Rm m m' -> WF m' -> fresh_op o = true ->
    xres U (imx_exec cmp veqb st o m) (rmx_exec cmp' veqb (enc_op (lo := lo) (hi := hi) o) m').
  Proof. intros H1 H2 H3. apply xexec_any_sim; auto. apply (WF_WW (veqb := veqb) m' H2). Qed.
End Sim.
