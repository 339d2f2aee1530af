(** Updates whose questions [==] and [!=] are answered in any way (AskModel.v):
    every state a [RangeInclusiveMap] update goes through simulates a state of the
    corresponding [RangeMap] update with the same answers. *)
From Coq Require Import List Bool Sorting.Sorted Lia.
From Verif Require Import Order Outcome BTree Ranges History Spec MapModel IMapModel ListLemmas
  MapProofs MapRemove AnyEq MapFacts MapIter ISim CrashModel CrashFacts CrashSim AnyFacts AnyCrash AskModel AskFacts.
Import ListNotations.

Section Sim.
  Context {K K' V : Type} {cmp : K -> K -> comparison} {cmp' : K' -> K' -> comparison}.
  Context {st : stepfns K} {lo hi : K -> K'}.
  Context (HC : Cuts cmp cmp' st lo hi) (HO : TotalOrd cmp').

  Notation WW := (@MapProofs.WF K' V cmp' (fun _ _ => false)).
  Notation Rr := (@Rr K K' cmp' lo hi).
  Notation Rn := (@Rn K K' cmp' lo hi).
  Notation Rm := (@Rm K K' V cmp' lo hi).
  Notation xres := (@xres K K' V cmp' lo hi _ _).
  Notation U := (fun _ _ : unit => True).
  Notation const b := (fun _ _ : V => b).

  (** related results, and the same answers left over *)
  Definition Rb {A B} (R : A -> B -> Prop) (x : A * list bool) (y : B * list bool) : Prop :=
    R (fst x) (fst y) /\ snd x = snd y.
  Lemma q_bind {A B X Y} (R : A -> B -> Prop) (P : X -> Y -> Prop)
      (c : Q (imap K V) A) (c' : Q (rmap K' V) B) f f' bs m m' :
    xres (Rb R) (c bs m) (c' bs m') ->
    (forall a b rest s s', R a b -> Rm s s' -> snd (c' bs m') = (Ret (b, rest), s') ->
       xres (Rb P) (f a rest s) (f' b rest s')) ->
    xres (Rb P) (qbind c f bs m) (qbind c' f' bs m').
  Proof.
    intros H1 H2. unfold qbind. eapply xres_bind; [exact H1|].
    intros [a r] [b r'] s s' [Hab E] Hs He. cbn [fst snd] in *. subst r'. apply H2; assumption.
  Qed.
  Lemma q_lift {A B} (R : A -> B -> Prop) (c : C (imap K V) A) (c' : C (rmap K' V) B) bs m m' :
    xres R (c m) (c' m') -> xres (Rb R) (qlift c bs m) (qlift c' bs m').
  Proof.
    intros H. unfold qlift. eapply xres_bind; [exact H|]. intros a b s s' Hab Hs _.
    apply xsim_ret; [split; [exact Hab|reflexivity]|exact Hs].
  Qed.
  Lemma q_ret {A B} (R : A -> B -> Prop) a b bs m m' : R a b -> Rm m m' -> xres (Rb R) (qret a bs m) (qret b bs m').
  Proof. intros H1 H2. apply xsim_ret; [split; [exact H1|reflexivity]|exact H2]. Qed.
  Lemma q_ask bs m m' : Rm m m' -> xres (Rb eq) (ask bs m) (ask bs m').
  Proof.
    intros H. destruct bs as [|b bs]; [split; [constructor|split; [exact I|exact H]]|].
    apply xsim_ret; [split; reflexivity|exact H].
  Qed.
  Lemma q_adjust s s' sv r r' v bs m m' : Rn s s' -> Rn r r' -> Rm m m' ->
    xres (Rb Rn) (imq_adjust_touching_ranges_for_insert cmp st s sv r v bs m)
                 (rmq_adjust_touching_ranges_for_insert cmp' s' sv r' v bs m').
  Proof.
    intros Hs Hr Hm. eapply q_bind; [apply q_ask; exact Hm|]. intros b _ rest t t' <- Ht _.
    apply q_lift. apply (xadjust_insert_sim HC HO (veqb := const b)); assumption.
  Qed.
  Lemma qbind_Ret {S A B} (c : Q S A) (f : A -> Q S B) bs s a rest s' :
    c bs s = ([], (Ret (a, rest), s')) -> qbind c f bs s = f a rest s'.
  Proof. intros H. unfold qbind. erewrite cbind_Ret by exact H. reflexivity. Qed.
  Lemma qlift_Ret {S A} (c : C S A) bs s a s' : c s = ([], (Ret a, s')) -> qlift c bs s = ([], (Ret (a, bs), s')).
  Proof. intros H. unfold qlift. erewrite cbind_Ret by exact H. reflexivity. Qed.

  Lemma qbind_first {S A B} (c d : Q S A) (f : A -> Q S B) bs s : c bs s = d bs s -> qbind c f bs s = qbind d f bs s.
  Proof. intros H. unfold qbind, cbind. rewrite H. reflexivity. Qed.

  Lemma no_overlap_at_end (a b : range K') : eqb cmp' (r_start b) (r_end a) = true -> r_overlaps cmp' a b = false.
  Proof.
    intros H. unfold r_overlaps, kmax, kmin.
    destruct (ltb cmp' (r_start b) (r_start a)) eqn:E1, (ltb cmp' (r_end b) (r_end a)) eqn:E2; ord.
  Qed.

  (** a question whether to stop, then the adjustment *)
  Lemma q_loop v e0 end0 : cmp' (hi (ri_start e0)) (r_start end0) = Eq ->
    forall fuel A B bs m new new',
    Rn new new' -> Rm m (A ++ B) -> WW B ->
    (forall a, In a A -> ltb cmp' (r_start (fst a)) (r_start new') = true) ->
    starts_from (cmp := cmp') B (r_start new') ->
    leb cmp' (r_start new') (r_start end0) = true ->
    (eqb cmp' (r_start end0) (r_end new') = true \/
     (ltb cmp' (r_start end0) (r_end new') = true /\
      forall b, In b B -> leb cmp' (r_end new') (r_start (fst b)) = true)) ->
    xres (Rb Rn) (imq_insert_loop cmp st fuel new v e0 bs m)
                 (rmq_insert_loop cmp' fuel new' v end0 bs (A ++ B)).
  Proof.
    intros He0. induction fuel as [|fuel IH]; intros A B bs m new new' Hn Hm HW HA HB Hle Hi.
    { split; [constructor|split; [exact I|exact Hm]]. }
    cbn [imq_insert_loop rmq_insert_loop].
    rewrite (qbind_Ret (qlift cget) _ bs m m bs m) by (apply qlift_Ret; reflexivity).
    rewrite (qbind_Ret (qlift cget) _ bs (A ++ B) (A ++ B) bs (A ++ B)) by (apply qlift_Ret; reflexivity).
    rewrite (range_incl HO A B new' end0 HA HB Hle).
    assert (HR : osim Rm (bt_range (cmpi_start cmp) (Included new) Unbounded m)
                   (bt_range (cmp_start cmp') (Included new') Unbounded (A ++ B))).
    { apply bt_range_sim; [exact Hm|reflexivity| |reflexivity].
      intros e e' He. cbn. rewrite (start_sim HC HO _ _ new new' (proj1 (proj1 He)) (proj1 Hn)). reflexivity. }
    rewrite (range_from_split HO A B new' HA HB) in HR.
    destruct (bt_range (cmpi_start cmp) (Included new) Unbounded m) as [l| |]; cbn in HR;
      try contradiction.
    rewrite (qbind_Ret (qlift (clift (Ret l))) _ bs m l bs m) by (apply qlift_Ret; reflexivity).
    erewrite (qbind_Ret (qlift (clift (Ret (take_while _ B)))) _ bs (A ++ B) _ bs (A ++ B)) by (apply qlift_Ret; reflexivity).
    destruct B as [|[b bv] T].
    { inversion HR; subst. split; [constructor|split; [split; [exact Hn|reflexivity]|exact Hm]]. }
    inversion HR as [|[x xv] [b0 bv0] l0 T0 [Hx Hxv] Hl]; subst. cbn in Hx, Hxv. subst xv.
    cbn [it_next fst take_while].
    assert (Hsb : leb cmp' (r_start new') (r_start b) = true) by (apply (HB (b, bv)); left; reflexivity).
    assert (E2 : leb cmp' (r_start b) (r_start end0) = true ->
                 eqb cmp' (r_start b) (r_start end0) = eqb cmp' (r_start b) (r_end new')).
    { intros Ele. destruct Hi as [Hi|[Hi1 Hi2]]; [ord|].
      specialize (Hi2 (b, bv) (or_introl eq_refl)). cbn in Hi2. exfalso. ord. }
    (* whether to stop *)
    assert (Hbrk :
      (if gtb cmp (ri_start x) (ri_start e0)
       then latest <- qlift (clift (step_o (add_one st (ri_start e0)))) ;;
            if gtb cmp (ri_start x) latest then qret true
            else if eqb cmp (ri_start x) latest then ask
            else qret false
       else qret false)%Q bs m =
      (if ltb cmp' (r_start end0) (r_start b) then qret true
       else if eqb cmp' (r_start b) (r_start end0) then ask else qret false) bs m).
    { destruct Hx as [[X1 X2] _]. unfold gtb. destruct (ltb cmp (ri_start e0) (ri_start x)) eqn:E.
      - destruct (cut_succ _ _ _ _ _ HC _ _ E) as (y & Hy & H1 & H2). rewrite Hy. cbn [step_o].
        erewrite qbind_Ret by (apply qlift_Ret; reflexivity).
        rewrite (lo_lt HC), (lo_eq HC).
        assert (E1 : ltb cmp' (lo y) (lo (ri_start x)) = ltb cmp' (r_start end0) (r_start b)) by ord.
        assert (E3 : eqb cmp' (lo (ri_start x)) (lo y) = eqb cmp' (r_start b) (r_start end0)) by ord.
        rewrite E1, E3. reflexivity.
      - rewrite (lohi_le HC HO) in E.
        assert (E1 : ltb cmp' (r_start end0) (r_start b) = false) by ord.
        assert (E3 : eqb cmp' (r_start b) (r_start end0) = false) by ord.
        rewrite E1, E3. reflexivity. }
    rewrite (qbind_first _ _ _ _ _ Hbrk). clear Hbrk.
    destruct (leb cmp' (r_start b) (r_start end0)) eqn:Ele.
    2:{ assert (E1 : ltb cmp' (r_start end0) (r_start b) = true) by ord. rewrite E1. cbn.
        split; [constructor|split; [split; [exact Hn|reflexivity]|exact Hm]]. }
    assert (E1 : ltb cmp' (r_start end0) (r_start b) = false) by ord. rewrite E1. cbn [orb it_next fst].
    rewrite (E2 eq_refl). clear E2.
    eapply (q_bind eq).
    { destruct (eqb cmp' (r_start b) (r_end new')); [apply q_ask; exact Hm|apply q_ret; [reflexivity|exact Hm]]. }
    intros brk _ rest t t' <- Ht Hbrk.
    assert (Ht' : t' = A ++ (b, bv) :: T).
    { destruct (eqb cmp' (r_start b) (r_end new')); [destruct bs|]; cbn in Hbrk; congruence. }
    subst t'. destruct brk; [apply q_ret; [exact Hn|exact Ht]|].
    eapply (q_bind Rn); [apply q_adjust; [exact Hx|exact Hn|exact Ht]|].
    intros n1 n1' rest' t1 t1' Hn1 Ht1 He.
    unfold rmq_adjust_touching_ranges_for_insert, qbind, ask in He.
    destruct rest as [|eqans rest]; [discriminate He|].
    unfold cbind at 1, cret at 1, qlift, cbind in He. cbn [fst snd] in He.
    destruct (eqb cmp' (r_start b) (r_end new') && negb eqans) eqn:Ebrk.
    - (* [!=] and [==] were both denied for a range that begins where the new one ends *)
      apply andb_prop in Ebrk as [Eb1 Eb2]. apply negb_true_iff in Eb2. subst eqans.
      unfold rmx_adjust_touching_ranges_for_insert in He.
      assert (Eo : r_overlaps cmp' new' b = false).
      { apply no_overlap_at_end. exact Eb1. }
      rewrite Eo in He. cbn in He. injection He as <- <- <-. apply IH; auto.
    - pose proof (adjust_shape HO (veqb := const eqans) v end0 A b bv T new' HW HA HB Hle Hi Ele Ebrk)
        as (new1 & B1 & Q1 & Q2 & Q3 & Q4 & Q5).
      rewrite <- e_adjust in Q1.
      destruct (rmx_adjust_touching_ranges_for_insert cmp' (const eqans) b bv new' v (A ++ (b, bv) :: T)) as [tr [o s2]].
      cbn [snd] in Q1. injection Q1 as -> ->. cbn in He. injection He as <- <- <-.
      apply IH; auto; rewrite ?Q3; auto.
  Qed.

  Lemma q_insert_sim r r' v bs m m' : Rn r r' -> Rm m m' -> WW m' ->
    xres (Rb U) (imq_insert cmp st r v bs m) (rmq_insert cmp' r' v bs m').
  Proof.
    intros Hr Hm HW. unfold imq_insert, rmq_insert.
    pose proof (start_end_sim HC HO r r' r r' (proj1 Hr) (proj1 Hr)) as E. unfold cassert, assert_. rewrite E.
    destruct (ltb cmp' (r_start r') (r_end r')) eqn:Hv.
    2:{ split; [constructor|split; [reflexivity|exact Hm]]. }
    assert (HP : exists L, bt_range (cmp_start cmp') Unbounded (Included r') m' = Ret L /\ forall b, exists n1 A B,
      (match filter (fun e => r_touches cmp' (fst e) r') (firstn 2 (rev L)) with
       | [] => ret r'
       | [(s, sv)] => rm_adjust_touching_ranges_for_insert cmp' (const b) s sv r' v
       | _ :: (s, sv) :: _ => rm_adjust_touching_ranges_for_insert cmp' (const b) s sv r' v
       end) m' = (Ret n1, A ++ B) /\ phase1 (cmp := cmp') (veqb := const b) m' r' v n1 A B).
    { destruct (phase1_any HO (veqb := const true) m' r' v HW Hv) as (L & HR & _). exists L. split; [exact HR|].
      intros b. destruct (phase1_any HO (veqb := const b) m' r' v HW Hv) as (L' & HR' & n1 & A & B & H1 & H2).
      rewrite HR in HR'. injection HR' as <-. exists n1, A, B. split; assumption. }
    destruct HP as (L & HR & HP).
    rewrite (qbind_Ret _ _ bs m tt bs m) by (apply qlift_Ret; reflexivity).
    rewrite (qbind_Ret _ _ bs m' tt bs m') by (apply qlift_Ret; reflexivity).
    rewrite (qbind_Ret (qlift cget) _ bs m m bs m) by (apply qlift_Ret; reflexivity).
    rewrite (qbind_Ret (qlift cget) _ bs m' m' bs m') by (apply qlift_Ret; reflexivity).
    pose proof (before_sim HC HO r r' m m' (proj1 Hr) Hm) as Hb. rewrite HR in Hb. rewrite HR.
    destruct (bt_range (cmpi_start cmp) Unbounded (Included r) m) as [l| |]; cbn in Hb; try contradiction.
    rewrite (qbind_Ret _ _ bs m l bs m) by (apply qlift_Ret; reflexivity).
    rewrite (qbind_Ret _ _ bs m' L bs m') by (apply qlift_Ret; reflexivity).
    pose proof (cands_sim HC HO r r' _ _ (proj1 Hr) (firstn_sim 2 _ _ (rev_sim l L Hb))) as Hc.
    destruct (filter_o (fun e => ri_touches cmp st (fst e) r) (firstn 2 (rev l))) as [c| |];
      unfold osim in Hc; try contradiction.
    rewrite (qbind_Ret (qlift (clift (Ret c))) _ bs m c bs m) by (apply qlift_Ret; reflexivity).
    eapply (q_bind Rn).
    { destruct Hc as [|[s sv] [s' sv'] c c' [Hs Hsv] Hc]; [apply q_ret; [exact Hr|exact Hm]|].
      cbn in Hs, Hsv. subst sv'.
      destruct Hc as [|[t tv] [t' tv'] c c' [Ht Htv] Hc]; [apply q_adjust; assumption|].
      cbn in Ht, Htv. subst tv'. apply q_adjust; assumption. }
    intros n1 n2' rest m1 m1' Hn1 Hm1 He.
    assert (HE : exists b A B, m1' = A ++ B /\ phase1 (cmp := cmp') (veqb := const b) m' r' v n2' A B).
    { assert (Ha : forall s sv, (forall b, exists n1 A B,
          rm_adjust_touching_ranges_for_insert cmp' (const b) s sv r' v m' = (Ret n1, A ++ B) /\
          phase1 (cmp := cmp') (veqb := const b) m' r' v n1 A B) ->
        snd (rmq_adjust_touching_ranges_for_insert cmp' s sv r' v bs m') = (Ret (n2', rest), m1') ->
        exists b A B, m1' = A ++ B /\ phase1 (cmp := cmp') (veqb := const b) m' r' v n2' A B).
      { intros s sv H1 H2. unfold rmq_adjust_touching_ranges_for_insert, qbind, ask in H2.
        destruct bs as [|b bs0]; [discriminate H2|].
        unfold cbind at 1, cret at 1, qlift, cbind in H2. cbn [fst snd] in H2.
        destruct (H1 b) as (n & A & B & Q1 & Q2). rewrite <- e_adjust in Q1.
        destruct (rmx_adjust_touching_ranges_for_insert cmp' (const b) s sv r' v m') as [tr [o s2]].
        cbn [snd] in Q1. injection Q1 as -> ->. cbn in H2. injection H2 as <- <- <-. exists b, A, B. split; [reflexivity|exact Q2]. }
      destruct (filter (fun e => r_touches cmp' (fst e) r') (firstn 2 (rev L))) as [|[s sv] [|[t tv] l']].
      - destruct (HP true) as (n & A & B & Q1 & Q2). cbn in Q1, He. injection Q1 as <- ->. injection He as <- <- <-.
        exists true, A, B. split; [reflexivity|exact Q2].
      - apply (Ha s sv); [exact HP|exact He].
      - apply (Ha t tv); [exact HP|exact He]. }
    destruct HE as (b & A & B & -> & H2). destruct H2 as (P1 & P2 & P3 & P4 & P5 & _).
    apply WF_app in P1 as (W1 & W2 & W3).
    eapply (q_bind Rn).
    { apply q_loop; auto.
      - apply (proj2 (proj1 Hn1)).
      - apply (lefts_lt HO A n2' W1 P2).
      - cbn. ord.
      - left. cbn. ord. }
    intros n2 n3' rest' m2 m2' Hn2 Hm2 _. apply q_lift. apply xsim_modify; [|exact Hm2].
    intros. apply (bt_insert_sim HC HO); assumption.
  Qed.
  Lemma q_extend_sim l : forall bs m m', Rm m m' -> WW m' ->
    forallb (fun e => negb (ri_exhausted (fst e))) l = true ->
    xres (Rb U) (imq_extend cmp st l bs m) (rmq_extend cmp' (map (ence (lo := lo) (hi := hi)) l) bs m').
  Proof.
    unfold imq_extend, rmq_extend.
    induction l as [|[r v] l IH]; intros bs m m' Hm HW Hf; cbn [map qfor_each ence fst snd].
    - apply q_ret; [exact I|exact Hm].
    - cbn in Hf. apply andb_prop in Hf as [Hf1 Hf2]. apply negb_true_iff in Hf1.
      eapply (q_bind U).
      { apply q_insert_sim; [apply (encr_Rn HO); exact Hf1|exact Hm|exact HW]. }
      intros u u' rest s s' _ Hs He. apply IH; auto.
      replace s' with (snd (snd (rmq_insert cmp' (encr (lo := lo) (hi := hi) r) v bs m'))) by (rewrite He; reflexivity).
      apply (qinsert_crash HO _ _ _ _ _ HW (qlast_or _ m' (qt_insert _ v bs))).
  Qed.
  Lemma q_exec_sim o bs m m' : Rm m m' -> WW m' -> fresh_op o = true ->
    xres (Rb U) (imq_exec cmp st o bs m) (rmq_exec cmp' (enc_op (lo := lo) (hi := hi) o) bs m').
  Proof.
    intros Hm HW Hf. destruct o as [r v|r| |l]; cbn [imq_exec rmq_exec enc_op].
    - apply q_insert_sim; auto. apply (encr_Rn HO). cbn in Hf. apply negb_true_iff. exact Hf.
    - apply q_lift. apply (xremove_sim HC HO); [apply (encr_Rr HO)|exact Hm].
    - apply q_lift. apply xsim_modify; [intros; constructor|exact Hm].
    - apply q_extend_sim; assumption.
  Qed.
End Sim.
