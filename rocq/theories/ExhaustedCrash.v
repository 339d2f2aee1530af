(** Exhausted [RangeInclusive]s and interrupted updates (C38): the flag has no
    influence on the states a call goes through. *)
From Coq Require Import List Bool Sorting.Sorted Lia.
From Verif Require Import Order Outcome BTree Ranges History Spec MapModel IMapModel CrashModel ListLemmas
  SearchTree IFacts IMapProps Exhausted CrashProps Cost.
Import ListNotations.

Section Flags.
  Context {K V : Type} {cmp : K -> K -> comparison} {veqb : V -> V -> bool} {st : stepfns K}.
  Notation fr := (@freshen K).
  Notation fe := (@freshen_entry K V).
  Notation c_start := (cmpi_start cmp).
  Notation id := (fun x : unit => x).

  Definition chom {A B} (F : A -> B) (c : C (imap K V) A) (c' : C (imap K V) B) : Prop :=
    forall m, c' (map fe m) = (map (map fe) (fst (c m)), fres F (snd (c m))).
  Lemma chom_ret {A B} (F : A -> B) a : chom F (cret a) (cret (F a)).
  Proof. intros m. reflexivity. Qed.
  Lemma chom_bind {A B X Y} (F : A -> B) (G : X -> Y) c c' h h' :
    chom F c c' -> (forall a, chom G (h a) (h' (F a))) -> chom G (cbind c h) (cbind c' h').
  Proof.
    intros H1 H2 m. unfold cbind. rewrite H1. unfold fres.
    destruct (c m) as [t [[a|p|] m1]]; cbn; [|reflexivity|reflexivity].
    rewrite H2. destruct (h a m1) as [t2 [o m2]]. cbn. rewrite map_app. reflexivity.
  Qed.
  Lemma chom_get : chom (map fe) cget cget.
  Proof. intros m. reflexivity. Qed.
  Lemma chom_modify h h' : (forall m, h' (map fe m) = map fe (h m)) -> chom id (cmodify h) (cmodify h').
  Proof. intros H m. unfold cmodify, fres. cbn. rewrite H. reflexivity. Qed.
  Lemma chom_lift {A B} (F : A -> B) o o' : o' = omap F o -> chom F (clift o) (clift o').
  Proof. intros -> m. reflexivity. Qed.
  Lemma chom_lift_id {A} (o : outcome A) : chom (fun x => x) (clift o) (clift o).
  Proof. intros m. unfold fres, clift. cbn. destruct o; reflexivity. Qed.
  Lemma chom_if {A B} (F : A -> B) (b : bool) c d c' d' :
    chom F c c' -> chom F d d' -> chom F (if b then c else d) (if b then c' else d').
  Proof. intros H1 H2. destruct b; assumption. Qed.
  Lemma chom_nofuel {A B} (F : A -> B) : chom F cnofuel cnofuel.
  Proof. intros m. reflexivity. Qed.
  Lemma chom_assert b : chom id (cassert b) (cassert b).
  Proof. destruct b; intros m; reflexivity. Qed.

  Lemma chom_insert_piece r v :
    chom id (cmodify (bt_insert c_start r v)) (cmodify (bt_insert c_start (fr r) v)).
  Proof. apply chom_modify. intros m. apply x_bt_insert. Qed.
  Lemma chom_remove_piece r : chom id (cmodify (bt_remove c_start r)) (cmodify (bt_remove c_start (fr r))).
  Proof. apply chom_modify. intros m. apply x_bt_remove. Qed.

  Lemma cx_adjust_insert s sv r v :
    chom fr (imx_adjust_touching_ranges_for_insert cmp veqb st s sv r v)
           (imx_adjust_touching_ranges_for_insert cmp veqb st (fr s) sv (fr r) v).
  Proof.
    unfold imx_adjust_touching_ranges_for_insert. apply chom_if.
    - cbn [freshen ri_start ri_end].
      eapply chom_bind; [apply chom_remove_piece|]. intros _.
      exact (chom_ret fr (incl (kmin cmp (ri_start r) (ri_start s)) (kmax cmp (ri_end r) (ri_end s)))).
    - change (ri_overlaps cmp (fr r) (fr s)) with (ri_overlaps cmp r s).
      apply chom_if; [|apply chom_ret].
      eapply chom_bind; [apply chom_remove_piece|]. intros _. cbn [freshen ri_start ri_end].
      eapply chom_bind; [apply chom_if; [|apply (chom_ret id tt)]|].
      { eapply chom_bind; [apply chom_lift_id|]. intros p. exact (chom_insert_piece (incl (ri_start s) p) sv). }
      intros _. eapply chom_bind; [apply chom_if; [|apply (chom_ret id tt)]|].
      { eapply chom_bind; [apply chom_lift_id|]. intros p. exact (chom_insert_piece (incl p (ri_end s)) sv). }
      intros _. exact (chom_ret fr r).
  Qed.
  Lemma cx_insert_loop fuel : forall r v e,
    chom fr (imx_insert_loop cmp veqb st fuel r v e) (imx_insert_loop cmp veqb st fuel (fr r) v (fr e)).
  Proof.
    induction fuel as [|fuel IH]; intros r v e; cbn [imx_insert_loop]; [apply chom_nofuel|].
    eapply chom_bind; [apply chom_get|]. intros m.
    eapply chom_bind; [apply chom_lift, (x_range c_start (Included r) Unbounded), x_start|].
    intros [|[s sv] l]; cbn [map it_next fst freshen_entry snd]; [apply chom_ret|].
    cbn [freshen ri_start]. eapply chom_bind; [apply chom_lift_id|]. intros b.
    apply chom_if; [exact (chom_ret fr r)|].
    eapply chom_bind; [apply cx_adjust_insert|]. intros new'. apply IH.
  Qed.
  Lemma cx_insert r v : chom id (imx_insert cmp veqb st r v) (imx_insert cmp veqb st (fr r) v).
  Proof.
    unfold imx_insert. eapply chom_bind; [apply chom_assert|]. intros _.
    eapply chom_bind; [apply chom_get|]. intros m.
    eapply chom_bind; [apply chom_lift, (x_range c_start Unbounded (Included r)), x_start|].
    intros l. eapply chom_bind.
    { apply chom_lift. rewrite <- map_rev, firstn_map.
      apply (x_filter_o (fun e => ri_touches cmp st (fst e) r)). reflexivity. }
    intros cands. eapply chom_bind.
    { destruct cands as [|[a av] [|[b bv] l']]; cbn [map freshen_entry fst snd];
        [apply (chom_ret fr)|apply cx_adjust_insert|apply cx_adjust_insert]. }
    intros new1. eapply chom_bind; [apply chom_get|]. intros m1. rewrite map_length.
    eapply chom_bind; [apply (cx_insert_loop _ new1 v (incl (ri_end new1) (ri_end new1)))|].
    intros new2. apply chom_insert_piece.
  Qed.
  Lemma cx_adjust_remove s (sv : V) r :
    chom id (imx_adjust_overlapping_ranges_for_remove cmp st s sv r)
           (imx_adjust_overlapping_ranges_for_remove cmp st (fr s) sv (fr r)).
  Proof.
    unfold imx_adjust_overlapping_ranges_for_remove.
    eapply chom_bind; [apply chom_remove_piece|]. intros _. cbn [freshen ri_start ri_end].
    eapply chom_bind; [apply chom_if; [|apply (chom_ret id tt)]|].
    { eapply chom_bind; [apply chom_lift_id|]. intros p. exact (chom_insert_piece (incl (ri_start s) p) sv). }
    intros _. apply chom_if; [|apply (chom_ret id tt)].
    eapply chom_bind; [apply chom_lift_id|]. intros p. exact (chom_insert_piece (incl p (ri_end s)) sv).
  Qed.
  Lemma cx_remove_loop fuel : forall r e,
    chom id (imx_remove_loop cmp st fuel r e) (imx_remove_loop cmp st fuel (fr r) (fr e)).
  Proof.
    induction fuel as [|fuel IH]; intros r e; cbn [imx_remove_loop]; [apply chom_nofuel|].
    eapply chom_bind; [apply chom_get|]. intros m.
    eapply chom_bind; [apply chom_lift, (x_range c_start (Excluded r) (Included e)), x_start|].
    intros [|[s sv] l]; cbn [map it_next fst freshen_entry snd]; [apply (chom_ret id tt)|].
    eapply chom_bind; [apply cx_adjust_remove|]. intros _. apply IH.
  Qed.
  Lemma cx_remove r : chom id (imx_remove cmp st r) (imx_remove cmp st (fr r)).
  Proof.
    unfold imx_remove. eapply chom_bind; [apply chom_assert|]. intros _.
    eapply chom_bind; [apply chom_get|]. intros m.
    eapply chom_bind; [apply chom_lift, (x_range c_start Unbounded (Included r)), x_start|].
    intros l. eapply chom_bind.
    - rewrite x_last. destruct (last_opt l) as [[s sv]|]; cbn [option_map freshen_entry fst snd];
        [|apply (chom_ret id tt)].
      apply chom_if; [apply cx_adjust_remove|apply (chom_ret id tt)].
    - intros _. eapply chom_bind; [apply chom_get|]. intros m1. rewrite map_length.
      apply (cx_remove_loop _ r (incl (ri_end r) (ri_end r))).
  Qed.
  Lemma cx_exec o : chom id (imx_exec cmp veqb st o) (imx_exec cmp veqb st (freshen_op o)).
  Proof.
    destruct o as [r v|r| |l]; cbn [imx_exec freshen_op].
    - apply cx_insert.
    - apply cx_remove.
    - apply chom_modify. reflexivity.
    - unfold imx_extend. induction l as [|e l IH]; cbn [map cfor_each]; [apply (chom_ret id tt)|].
      eapply chom_bind; [apply cx_insert|]. intros _. exact IH.
  Qed.

  Notation xexec1 := (imx_exec cmp veqb st).
  Notation xrun := (imx_run cmp veqb st).
  Notation run := (im_run cmp veqb st).
  Definition freshen_xop (x : xop (rangei K) V) : xop (rangei K) V :=
    match x with XDone o => XDone (freshen_op o) | XCrash o n => XCrash (freshen_op o) n end.
  Lemma cx_states o m : crash_states (xexec1 (freshen_op o)) (map fe m) = map (map fe) (crash_states (xexec1 o) m).
  Proof. unfold crash_states. rewrite cx_exec. reflexivity. Qed.
  Lemma cx_run xs : xrun (map freshen_xop xs) = map fe (xrun xs).
  Proof.
    unfold imx_run. change (@nil (rangei K * V)) with (map fe []) at 1. generalize (@nil (rangei K * V)).
    induction xs as [|x xs IH]; intros m; cbn [map fold_left]; [reflexivity|].
    replace (xexec xexec1 (map fe m) (freshen_xop x)) with (map fe (xexec xexec1 m x)); [apply IH|].
    destruct x as [o|o n]; cbn [freshen_xop xexec].
    - rewrite cx_exec. reflexivity.
    - rewrite cx_states, cx_exec. cbn [snd fres]. symmetry. apply map_nth.
  Qed.
  Lemma cx_modifications ops : forall m,
    modifications xexec1 (map freshen_op ops) (map fe m) = modifications xexec1 ops m.
  Proof.
    induction ops as [|o ops IH]; intros m; cbn [map modifications]; [reflexivity|].
    rewrite cx_exec. cbn [fst snd fres]. rewrite map_length, IH. reflexivity.
  Qed.
  Lemma xfreshen_fresh xs : fresh_ops (map xop_of (map freshen_xop xs)).
  Proof.
    replace (map xop_of (map freshen_xop xs)) with (map (@freshen_op K V) (map xop_of xs)); [apply freshen_fresh|].
    rewrite !map_map. apply map_ext. intros []; reflexivity.
  Qed.

  Context (HO : TotalOrd cmp) (HS : StepLaws cmp st) (HV : PartialEquiv veqb).
  Lemma asc_map m : ascendingi cmp (map fe m) -> ascendingi cmp m.
  Proof.
    unfold ascendingi. induction m as [|e m IH]; cbn [map]; intros H; [constructor|].
    apply StronglySorted_inv in H as [H1 H2]. constructor; [apply IH, H1|].
    rewrite Forall_map in H2. exact H2.
  Qed.
  Lemma sorted_map c m : (forall a b, c (fr a) (fr b) = c a b) -> sorted_by c (map fe m) -> sorted_by c m.
  Proof.
    intros Hc H l1 a l2 b l3 E. rewrite <- Hc. apply (H (map fe l1) (fe a) (map fe l2) (fe b) (map fe l3)).
    rewrite E, map_app. cbn. rewrite map_app. reflexivity.
  Qed.
  (** ascending, non-empty, coalesced: whatever the flags, whatever is interrupted *)
  Lemma ixrun_valid_any xs :
    ascendingi cmp (im_iter (xrun xs)) /\
    (forall r v, In (r, v) (im_iter (xrun xs)) -> valid_rangei cmp r = true) /\
    coalescedi cmp veqb (im_iter (xrun xs)).
  Proof.
    destruct (ixrun_valid HO HS HV _ (xfreshen_fresh xs)) as (A & B & D). unfold im_iter in *. rewrite cx_run in *.
    split; [exact (asc_map _ A)|]. split.
    - intros r v H. exact (proj1 (B (fr r) v (in_map fe _ _ H))).
    - intros a b Ha Hb. exact (D (fe a) (fe b) (in_map fe _ _ Ha) (in_map fe _ _ Hb)).
  Qed.
  Lemma ixrun_sorted_any xs :
    sorted_by (cmpi_start cmp) (xrun xs) /\ sorted_by (cmpi_end cmp) (xrun xs).
  Proof.
    destruct (ixrun_reachable HO HS HV _ (xfreshen_fresh xs)) as (ops & Hf & E). rewrite cx_run in E.
    destruct (irun_sorted HO HS HV ops Hf) as [H1 H2]. unfold im_iter in *. rewrite <- E in *.
    split; eapply sorted_map; try eassumption; reflexivity.
  Qed.
  Lemma budget_fresh (o : op (rangei K) V) : op_budget (freshen_op o) = op_budget o.
  Proof. destruct o; cbn [freshen_op op_budget]; rewrite ?map_length; reflexivity. Qed.
  Lemma icall_budget_any ops o :
    length (fst (xexec1 o (run ops))) + im_len (run (ops ++ [o])) <= im_len (run ops) + op_budget o.
  Proof.
    pose proof (freshen_fresh (V := V) (ops ++ [o])) as Hf. rewrite map_app in Hf.
    unfold fresh_ops in Hf. rewrite forallb_app in Hf. apply andb_prop in Hf as [Hf1 Hf2]. cbn in Hf2.
    rewrite andb_true_r in Hf2.
    pose proof (icall_budget HO HS HV _ _ Hf1 Hf2) as H.
    change ([freshen_op o]) with (map (@freshen_op K V) [o]) in H. rewrite <- map_app in H.
    rewrite !x_run, cx_exec, budget_fresh in H. unfold im_len in *. cbn [fst] in H. rewrite !map_length in H. exact H.
  Qed.
  Lemma itotal_budget_any ops :
    modifications xexec1 ops im_new + im_len (run ops) <= history_budget ops.
  Proof.
    pose proof (itotal_budget HO HS HV _ (freshen_fresh ops)) as H.
    change (@im_new K V) with (map fe (@im_new K V)) in H. rewrite cx_modifications, x_run in H.
    unfold im_len, history_budget in *. rewrite map_length, map_map in H.
    erewrite (map_ext (fun o => op_budget (freshen_op o))) in H by (intros; apply budget_fresh). exact H.
  Qed.
End Flags.
