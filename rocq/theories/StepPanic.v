(** Step functions that may panic on any key: every update goes as with the
    lawful ones up to the first panic. *)
From Coq Require Import List Bool Lia.
From Verif Require Import Order Outcome BTree Ranges History Spec SpecStep MapModel IMapModel CrashModel ListLemmas
  MapProofs MapRemove MapFacts MapIter ISim Cuts IFacts IMapProps CrashFacts CrashSim CrashProps Exhausted ExhaustedCrash IExact CrashAny ExhaustedAny AnyCrash.
Import ListNotations.

Section Panicking.
  Context {K V : Type} {cmp : K -> K -> comparison} {veqb : V -> V -> bool} {st pst : stepfns K}.
  Context (Hadd : forall x, add_one pst x = None \/ add_one pst x = add_one st x).
  Context (Hsub : forall x, sub_one pst x = None \/ sub_one pst x = sub_one st x).
  Notation c_start := (cmpi_start cmp).

  (** [c'] (with the panicking functions) goes as [c] or stops on the way *)
  Definition follows {S A} (c' : M S A) (c : C S A) : Prop := forall s,
    In (snd (snd (c s))) (crash_states c s) /\
    (c' s = snd (c s) \/ exists s', c' s = (Panicked PStep, s') /\ In s' (crash_states c s)).

  Lemma fl_same {S A} (c' : M S A) (c : C S A) :
    (forall s, In (snd (snd (c s))) (crash_states c s) /\ c' s = snd (c s)) -> follows c' c.
  Proof. intros H s. destruct (H s). auto. Qed.
  Lemma fl_ret {S A} (a : A) : follows (S := S) (ret a) (cret a).
  Proof. apply fl_same. intros s. cbn. auto. Qed.
  Lemma fl_get {S} : follows (S := S) get cget.
  Proof. apply fl_same. intros s. cbn. auto. Qed.
  Lemma fl_modify {S} (f : S -> S) : follows (modify f) (cmodify f).
  Proof. apply fl_same. intros s. cbn. auto. Qed.
  Lemma fl_lift {S A} (o : outcome A) : follows (S := S) (lift o) (clift o).
  Proof. apply fl_same. intros s. cbn. auto. Qed.
  Lemma fl_nofuel {S A} : follows (S := S) (A := A) nofuel cnofuel.
  Proof. apply fl_same. intros s. cbn. auto. Qed.
  Lemma fl_assert {S} b : follows (S := S) (assert_ b) (cassert b).
  Proof. apply fl_same. intros s. destruct b; cbn; auto. Qed.
  Lemma fl_lift_le {S A} (o' o : outcome A) : o' = Panicked PStep \/ o' = o -> follows (S := S) (lift o') (clift o).
  Proof.
    intros H s. split; [cbn; auto|]. destruct H as [-> | ->]; [right|left; reflexivity].
    exists s. cbn. auto.
  Qed.
  Lemma fl_bind {S A B} (c' : M S A) (c : C S A) (f' : A -> M S B) (f : A -> C S B) :
    follows c' c -> (forall a, follows (f' a) (f a)) -> follows (bind c' f') (cbind c f).
  Proof.
    intros Hc Hf s. destruct (Hc s) as [H1 H2]. unfold bind, cbind, crash_states in *.
    destruct (c s) as [t [o s1]] eqn:E. cbn [fst snd] in *.
    destruct o as [a|p|]; cbn [fst snd].
    - destruct (Hf a s1) as [F1 F2]. unfold crash_states in *. destruct (f a s1) as [t' x]. cbn [fst snd] in *.
      assert (G : forall y, In y (s1 :: t') -> In y (s :: t ++ t')).
      { intros y [<-|Hy]; [destruct H1 as [<-|H1]; [left; reflexivity|right; apply in_or_app; auto]|].
        right. apply in_or_app. auto. }
      split; [apply G, F1|]. destruct H2 as [-> | (s' & -> & Hs)].
      + destruct F2 as [F2 | (s' & F2 & Hs)]; [left; exact F2|right]. exists s'. split; [exact F2|apply G, Hs].
      + right. exists s'. split; [reflexivity|]. destruct Hs as [<-|Hs]; [left; reflexivity|right; apply in_or_app; auto].
    - split; [exact H1|]. destruct H2 as [-> | (s' & -> & Hs)]; [left; reflexivity|right; eauto].
    - split; [exact H1|]. destruct H2 as [-> | (s' & -> & Hs)]; [left; reflexivity|right; eauto].
  Qed.
  Lemma fl_add {S} x : follows (S := S) (lift (step_o (add_one pst x))) (clift (step_o (add_one st x))).
  Proof. apply fl_lift_le. destruct (Hadd x) as [-> | ->]; auto. Qed.
  Lemma fl_sub {S} x : follows (S := S) (lift (step_o (sub_one pst x))) (clift (step_o (sub_one st x))).
  Proof. apply fl_lift_le. destruct (Hsub x) as [-> | ->]; auto. Qed.

  Ltac fl := repeat first
    [ apply fl_add | apply fl_sub | apply fl_ret | apply fl_get | apply fl_modify | apply fl_lift
    | apply fl_nofuel | apply fl_assert | (apply fl_bind; [|intros]) ].

  Lemma fl_adjust_insert stored sv r v :
    follows (im_adjust_touching_ranges_for_insert cmp veqb pst stored sv r v)
            (imx_adjust_touching_ranges_for_insert cmp veqb st stored sv r v).
  Proof.
    unfold im_adjust_touching_ranges_for_insert, imx_adjust_touching_ranges_for_insert.
    destruct (veqb sv v); [fl|]. destruct (ri_overlaps cmp r stored); [|fl].
    fl; [destruct (ltb cmp (ri_start stored) (ri_start r))|destruct (gtb cmp (ri_end stored) (ri_end r))]; fl.
  Qed.
  Lemma fl_insert_loop v sl : forall fuel r,
    follows (im_insert_loop cmp veqb pst fuel r v sl) (imx_insert_loop cmp veqb st fuel r v sl).
  Proof.
    induction fuel as [|fuel IH]; intros r; cbn [im_insert_loop imx_insert_loop]; [fl|].
    apply fl_bind; [fl|intros m]. apply fl_bind; [fl|intros l].
    destruct (fst (it_next l)) as [[stored sv]|]; [|fl].
    apply fl_bind.
    - apply fl_lift_le. destruct (gtb cmp (ri_start stored) (ri_start sl)); [|auto].
      destruct (Hadd (ri_start sl)) as [-> | ->]; auto.
    - intros b. destruct b; [fl|]. apply fl_bind; [apply fl_adjust_insert|intros r']. apply IH.
  Qed.
  Lemma le_touches a b : ri_touches cmp pst a b = Panicked PStep \/ ri_touches cmp pst a b = ri_touches cmp st a b.
  Proof.
    unfold ri_touches. cbv zeta. destruct (ltb cmp _ _); [|auto].
    destruct (Hadd (kmin cmp (ri_end a) (ri_end b))) as [-> | ->]; auto.
  Qed.
  Lemma le_filter r (l : list (rangei K * V)) :
    filter_o (fun e => ri_touches cmp pst (fst e) r) l = Panicked PStep \/
    filter_o (fun e => ri_touches cmp pst (fst e) r) l = filter_o (fun e => ri_touches cmp st (fst e) r) l.
  Proof.
    induction l as [|e l IH]; cbn; [auto|]. destruct (le_touches (fst e) r) as [-> | ->]; [auto|].
    destruct (ri_touches cmp st (fst e) r); cbn; auto. destruct IH as [-> | ->]; auto.
  Qed.
  (** a panic before the last modification *)
  Definition before_last {S A} (c' : M S A) (c : C S A) : Prop := forall s,
    ((exists a, fst (snd (c s)) = Ret a) -> fst (c s) <> []) /\
    (c' s = snd (c s) \/ exists s', c' s = (Panicked PStep, s') /\
       (In s' (removelast (crash_states c s)) \/ forall a, fst (snd (c s)) <> Ret a)).
  Lemma bl_modify {S} (f : S -> S) : before_last (modify f) (cmodify f).
  Proof. intros s. split; [intros _; discriminate|left; reflexivity]. Qed.
  Lemma bl_bind {S A B} (c' : M S A) (c : C S A) (f' : A -> M S B) (f : A -> C S B) :
    follows c' c -> (forall a, before_last (f' a) (f a)) -> before_last (bind c' f') (cbind c f).
  Proof.
    intros Hc Hf s. destruct (Hc s) as [H1 H2]. unfold bind, cbind, crash_states in *.
    destruct (c s) as [t [o s1]] eqn:E. cbn [fst snd] in *.
    destruct o as [a|p|]; cbn [fst snd].
    - destruct (Hf a s1) as [F1 F2]. unfold crash_states in *. destruct (f a s1) as [t' x]. cbn [fst snd] in *.
      split; [intros Hx E'; apply F1; [exact Hx|apply app_eq_nil in E'; tauto]|].
      assert (G : forall y, t' <> [] -> In y (removelast (s1 :: t')) -> In y (removelast (s :: t ++ t'))).
      { intros y Hn Hy. change (s :: t ++ t') with ((s :: t) ++ t'). rewrite removelast_app by exact Hn.
        change (s1 :: t') with ([s1] ++ t') in Hy. rewrite removelast_app in Hy by exact Hn.
        apply in_app_or in Hy as [[<-|[]]|Hy]; apply in_or_app; auto. }
      assert (D : t' <> [] \/ forall b, fst x <> Ret b).
      { destruct (fst x) as [b| |] eqn:X; [left; apply F1; eauto|right; congruence|right; congruence]. }
      destruct H2 as [-> | (s' & -> & Hs)].
      + destruct F2 as [F2 | (s' & F2 & Hs)]; [left; exact F2|right]. exists s'. split; [exact F2|].
        destruct D as [D|D]; [|right; exact D]. destruct Hs as [Hs|Hs]; [left; apply G; assumption|right; exact Hs].
      + right. exists s'. split; [reflexivity|]. destruct D as [D|D]; [left|right; exact D].
        change (s :: t ++ t') with ((s :: t) ++ t'). rewrite removelast_app by exact D. apply in_or_app. left. exact Hs.
    - split; [intros [a Ha]; discriminate|]. destruct H2 as [-> | (s' & -> & Hs)]; [left; reflexivity|right].
      exists s'. split; [reflexivity|]. right. discriminate.
    - split; [intros [a Ha]; discriminate|]. destruct H2 as [-> | (s' & -> & Hs)]; [left; reflexivity|right].
      exists s'. split; [reflexivity|]. right. discriminate.
  Qed.
  Lemma bl_insert r v : before_last (im_insert cmp veqb pst r v) (imx_insert cmp veqb st r v).
  Proof.
    unfold im_insert, imx_insert. apply bl_bind; [fl|intros _]. apply bl_bind; [fl|intros m].
    apply bl_bind; [fl|intros before]. apply bl_bind; [apply fl_lift_le, le_filter|intros cands].
    apply bl_bind.
    - destruct cands as [|[s sv] [|[s2 sv2] cands]]; [fl| |]; apply fl_adjust_insert.
    - intros new1. apply bl_bind; [fl|intros m1]. apply bl_bind; [apply fl_insert_loop|intros new2]. apply bl_modify.
  Qed.
  Lemma fl_insert r v : follows (im_insert cmp veqb pst r v) (imx_insert cmp veqb st r v).
  Proof.
    unfold im_insert, imx_insert. apply fl_bind; [fl|intros _]. apply fl_bind; [fl|intros m].
    apply fl_bind; [fl|intros before]. apply fl_bind; [apply fl_lift_le, le_filter|intros cands].
    apply fl_bind.
    - destruct cands as [|[s sv] [|[s2 sv2] cands]]; [fl| |]; apply fl_adjust_insert.
    - intros new1. apply fl_bind; [fl|intros m1]. apply fl_bind; [apply fl_insert_loop|intros new2]. fl.
  Qed.
  Lemma fl_adjust_remove stored sv r :
    follows (im_adjust_overlapping_ranges_for_remove cmp (V := V) pst stored sv r)
            (imx_adjust_overlapping_ranges_for_remove cmp st stored sv r).
  Proof.
    unfold im_adjust_overlapping_ranges_for_remove, imx_adjust_overlapping_ranges_for_remove.
    fl; [destruct (ltb cmp (ri_start stored) (ri_start r))|destruct (gtb cmp (ri_end stored) (ri_end r))]; fl.
  Qed.
  Lemma fl_remove_loop r e : forall fuel,
    follows (im_remove_loop cmp (V := V) pst fuel r e) (imx_remove_loop cmp st fuel r e).
  Proof.
    induction fuel as [|fuel IH]; cbn [im_remove_loop imx_remove_loop]; [fl|].
    apply fl_bind; [fl|intros m]. apply fl_bind; [fl|intros l].
    destruct (fst (it_next l)) as [[stored sv]|]; [|fl]. apply fl_bind; [apply fl_adjust_remove|intros _; apply IH].
  Qed.
  Lemma fl_remove r : follows (im_remove cmp (V := V) pst r) (imx_remove cmp st r).
  Proof.
    unfold im_remove, imx_remove. apply fl_bind; [fl|intros _]. apply fl_bind; [fl|intros m].
    apply fl_bind; [fl|intros before]. apply fl_bind.
    - destruct (last_opt before) as [[s sv]|]; [|fl]. destruct (ri_overlaps cmp s r); [apply fl_adjust_remove|fl].
    - intros _. apply fl_bind; [fl|intros m1]. apply fl_remove_loop.
  Qed.
  Lemma fl_exec o : follows (im_exec cmp veqb pst o) (imx_exec cmp veqb st o).
  Proof.
    destruct o as [r v|r| |l]; cbn.
    - apply fl_insert.
    - apply fl_remove.
    - unfold im_clear, imx_clear. fl.
    - unfold im_extend, imx_extend. induction l as [|[r v] l IH]; cbn; [fl|]. apply fl_bind; [apply fl_insert|intros _; exact IH].
  Qed.
  Lemma sp_call o m :
    im_exec cmp veqb pst o m = im_exec cmp veqb st o m \/
    exists m', im_exec cmp veqb pst o m = (Panicked PStep, m') /\ In m' (crash_states (imx_exec cmp veqb st o) m).
  Proof.
    destruct (fl_exec o m) as [_ [H|H]]; [left|right; exact H]. rewrite H. apply irecord_faithful.
  Qed.
  Lemma sp_history ops : exists xs, map xop_of xs = ops /\
    im_run cmp veqb pst ops = imx_run cmp veqb st xs.
  Proof.
    induction ops as [|o ops IH] using rev_ind; [exists []; split; reflexivity|].
    destruct IH as (xs & E1 & E2). unfold im_run, run_ops, imx_run in *. rewrite fold_left_app. cbn.
    rewrite E2. set (m := fold_left (xexec (imx_exec cmp veqb st)) xs []) in *.
    destruct (sp_call o m) as [H | (m' & H & Hin)]; rewrite H.
    - exists (xs ++ [XDone o]). rewrite map_app, E1, fold_left_app. split; [reflexivity|]. cbn.
      fold m. rewrite (proj1 (irecord_faithful cmp veqb st o m)). reflexivity.
    - apply (In_nth _ _ (snd (snd (imx_exec cmp veqb st o m)))) in Hin as (n & _ & Hn).
      exists (xs ++ [XCrash o n]). rewrite map_app, E1, fold_left_app. split; [reflexivity|]. cbn.
      fold m. symmetry. exact Hn.
  Qed.

  (** the iterator over the gaps *)
  Lemma sp_gaps_loop qe : forall (l : list (rangei K * V)) needs cand,
    fst (fst (fst (gpi_loop cmp pst needs cand qe l))) = Panicked PStep \/
    gpi_loop cmp pst needs cand qe l = gpi_loop cmp st needs cand qe l.
  Proof.
    induction l as [|[r v] l IH]; intros needs cand; cbn [gpi_loop]; [auto|].
    destruct (ltb cmp qe (ri_start r)); [auto|].
    assert (Hn : (if needs then step_o (add_one pst cand) else Ret cand) = Panicked PStep \/
                 (if needs then step_o (add_one pst cand) else Ret cand) = (if needs then step_o (add_one st cand) else Ret cand)).
    { destruct needs; [|auto]. destruct (Hadd cand) as [-> | ->]; auto. }
    destruct Hn as [-> | ->]; [left; reflexivity|].
    destruct (if needs then step_o (add_one st cand) else Ret cand) as [cur|p|]; try (right; reflexivity).
    destruct (ltb cmp cur (ri_start r)); [|apply IH].
    destruct (Hsub (ri_start r)) as [-> | ->]; [left; reflexivity|right; reflexivity].
  Qed.
  Lemma sp_gaps (g : gapsi K V) :
    gpi_next cmp pst g = gpi_next cmp st g \/ fst (gpi_next cmp pst g) = Panicked PStep.
  Proof.
    unfold gpi_next. cbv zeta.
    destruct (sp_gaps_loop (gpi_query_end g) (gpi_iter g) (gpi_needs_plus_one g) (gpi_candidate_start g)) as [H | H].
    - right. destruct (gpi_loop cmp pst _ _ _ _) as [[[o n] c] l]. cbn in H. subst o. reflexivity.
    - rewrite H. destruct (gpi_loop cmp st _ _ _ _) as [[[o n] c] l]. destruct o as [[x|]|p|]; auto.
      destruct n; [|auto]. destruct (ltb cmp c (gpi_query_end g)); [|auto].
      destruct (Hadd c) as [-> | ->]; auto.
  Qed.

  (** ** over lawful step functions *)
  Context (HO : TotalOrd cmp) (HS : StepLaws cmp st) (HV : PartialEquiv veqb).
  Notation prun := (im_run cmp veqb pst).
  Notation run := (im_run cmp veqb st).
  Lemma sp_reachable ops : exists ops', prun ops = run ops'.
  Proof.
    destruct (sp_history ops) as (xs & _ & ->). exact (ixrun_reachable_any HO HS HV xs).
  Qed.
  Lemma sp_valid ops :
    ascendingi cmp (im_iter (prun ops)) /\
    (forall r v, In (r, v) (im_iter (prun ops)) -> valid_rangei cmp r = true) /\
    coalescedi cmp veqb (im_iter (prun ops)).
  Proof. destruct (sp_history ops) as (xs & _ & ->). exact (ixrun_valid_any HO HS HV xs). Qed.

  Lemma before_no_more ops r v x : In x (removelast (crash_states (imx_insert cmp veqb st r v) (run ops))) ->
    no_more (cmp := cmp) x (run ops).
  Proof.
    intros H. apply no_more_flags. rewrite <- x_run.
    assert (H' : In (map freshen_entry x) (removelast (crash_states (imx_insert cmp veqb st (freshen r) v) (run (map freshen_op ops))))).
    { change (imx_insert cmp veqb st (freshen r) v) with (imx_exec cmp veqb st (freshen_op (OInsert r v))).
      rewrite x_run, cx_states, removelast_map. apply in_map, H. }
    destruct (iinsert_before HO HS HV _ (freshen r) v _ (freshen_fresh ops) eq_refl H') as [H1 H2].
    apply (get_no_more HO HS HV); [|apply freshen_fresh|exact H2].
    destruct (WFi_reachable HO HS _ H1) as (ops' & Hf & E). eauto.
  Qed.

  Lemma sp_insert ops r v :
    if valid_rangei cmp r
    then (im_insert cmp veqb pst r v (prun ops) = im_insert cmp veqb st r v (prun ops) /\
          fst (im_insert cmp veqb pst r v (prun ops)) = Ret tt) \/
         (exists x, im_insert cmp veqb pst r v (prun ops) = (Panicked PStep, x) /\
            no_more (cmp := cmp) x (prun ops) /\
            (forall e, In e (prun ops) -> apart (cmp := cmp) (veqb := veqb) r v e -> In e x))
    else im_insert cmp veqb pst r v (prun ops) = (Panicked PAssert, prun ops).
  Proof.
    destruct (sp_reachable ops) as (ops' & ->). pose proof (any_insert HO HS HV ops' r v) as H.
    destruct (valid_rangei cmp r) eqn:E.
    - destruct (proj2 (bl_insert r v (run ops'))) as [B | (x & B & Hx)].
      + left. rewrite (proj1 (irecord_faithful cmp veqb st (OInsert r v) (run ops')) : snd (imx_insert cmp veqb st r v _) = _) in B.
        cbn in B. rewrite B. split; [reflexivity|]. rewrite H. reflexivity.
      + right. exists x. split; [exact B|].
        assert (Hx' : In x (removelast (crash_states (imx_insert cmp veqb st r v) (run ops')))).
        { destruct Hx as [Hx|Hx]; [exact Hx|exfalso]. apply (Hx tt).
          rewrite (proj1 (irecord_faithful cmp veqb st (OInsert r v) (run ops')) : snd (imx_insert cmp veqb st r v _) = _).
          cbn. rewrite H. reflexivity. }
        split; [exact (before_no_more _ _ _ _ Hx')|].
        intros e He Ha. apply (any_insert_keeps HO HS HV ops' r v e x He Ha).
        unfold crash_states in *. apply removelast_In. exact Hx'.
    - assert (X : leb cmp (ri_start r) (ri_end r) = false) by (unfold valid_rangei in E; ord).
      unfold im_insert, bind. rewrite X. reflexivity.
  Qed.
  Lemma sp_remove ops r :
    if valid_rangei cmp r
    then (im_remove cmp pst r (prun ops) = im_remove cmp st r (prun ops) /\
          fst (im_remove cmp pst r (prun ops)) = Ret tt) \/
         (exists x, im_remove cmp pst r (prun ops) = (Panicked PStep, x) /\
            no_more (cmp := cmp) x (prun ops) /\
            (forall e, In e (prun ops) ->
               ltb cmp (ri_end (fst e)) (ri_start r) = true \/ ltb cmp (ri_end r) (ri_start (fst e)) = true -> In e x))
    else im_remove cmp pst r (prun ops) = (Panicked PAssert, prun ops).
  Proof.
    destruct (sp_reachable ops) as (ops' & ->). pose proof (any_remove HO HS HV ops' r) as H.
    destruct (valid_rangei cmp r) eqn:E.
    - destruct (sp_call (ORemove r) (run ops')) as [B | (x & B & Hx)]; cbn [im_exec] in *.
      + left. rewrite B. split; [reflexivity|]. rewrite H. reflexivity.
      + right. exists x. split; [exact B|]. exact (iremove_interrupted_any HO HS HV ops' r x Hx).
    - assert (X : leb cmp (ri_start r) (ri_end r) = false) by (unfold valid_rangei in E; ord).
      unfold im_remove, bind. rewrite X. reflexivity.
  Qed.
  Lemma sp_outcome ops o :
    fst (im_exec cmp veqb pst o (prun ops)) = Ret tt \/ fst (im_exec cmp veqb pst o (prun ops)) = Panicked PAssert \/
    fst (im_exec cmp veqb pst o (prun ops)) = Panicked PStep.
  Proof.
    destruct (sp_reachable ops) as (ops' & ->).
    destruct (sp_call o (run ops')) as [-> | (x & -> & _)]; [|auto].
    enough (fst (im_exec cmp veqb st o (run ops')) = Ret tt \/ fst (im_exec cmp veqb st o (run ops')) = Panicked PAssert) by tauto.
    destruct o as [r v|r| |l]; cbn [im_exec].
    - pose proof (any_insert HO HS HV ops' r v) as H. destruct (valid_rangei cmp r); rewrite H; auto.
    - pose proof (any_remove HO HS HV ops' r) as H. destruct (valid_rangei cmp r); rewrite H; auto.
    - left. reflexivity.
    - unfold im_extend. revert ops'. induction l as [|[r v] l IH]; intros ops'; cbn [for_each]; [left; reflexivity|].
      unfold bind. pose proof (any_insert HO HS HV ops' r v) as H. cbn [fst snd].
      destruct (valid_rangei cmp r); rewrite H; [apply IH|auto].
  Qed.
  Lemma sp_quiet ops :
    (forall l1 o l2, ops = l1 ++ o :: l2 -> fst (im_exec cmp veqb pst o (prun l1)) <> Panicked PStep) ->
    prun ops = run ops.
  Proof.
    clear HO HS HV.
    induction ops as [|o ops IH] using rev_ind; intros H; [reflexivity|].
    unfold im_run, run_ops. rewrite !fold_left_app. cbn [fold_left]. fold (run_ops (im_exec cmp veqb pst) ops im_new).
    fold (run_ops (im_exec cmp veqb st) ops im_new). fold (prun ops). fold (run ops).
    rewrite <- IH.
    - destruct (sp_call o (prun ops)) as [-> | (x & E & _)]; [reflexivity|exfalso].
      apply (H ops o [] eq_refl). rewrite E. reflexivity.
    - intros l1 o1 l2 E. apply (H l1 o1 (l2 ++ [o])). rewrite E, <- app_assoc. reflexivity.
  Qed.
End Panicking.
