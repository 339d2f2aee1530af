(** The facts behind P_Work.v: the recording functions agree with the model, and
    the calls they record are bounded. *)
From Coq Require Import List Bool Sorting.Sorted ZArith Lia.
From Verif Require Import Order Outcome BTree Ranges History Spec MapModel IMapModel StepModel ListLemmas
  MapProofs MapRemove MapFacts MapIter MapMore MapProps IMapProps CrashModel CrashFacts CrashProps Cost Exhausted ExhaustedCrash WorkModel.
Import ListNotations.

(** ** Forgetting the record *)
Section Erase.
  Context {S : Type}.
  Definition wsim {A} (t : T S A) (c : C S A) : Prop :=
    forall s, snd (t s) = snd (c s) /\ changes (fst (t s)) = length (fst (c s)).
  Lemma changes_app a b : changes (a ++ b) = changes a + changes b.
  Proof. unfold changes. rewrite filter_app, app_length. reflexivity. Qed.
  Lemma changes_read {A} (l : list A) : changes (map (fun _ => BRead) l) = 0.
  Proof. induction l; auto. Qed.
  Lemma w_ret {A} (a : A) : wsim (tret a) (cret a).
  Proof. split; reflexivity. Qed.
  Lemma w_get : wsim tget cget.
  Proof. split; reflexivity. Qed.
  Lemma w_insert f : wsim (tinsert f) (cmodify f).
  Proof. split; reflexivity. Qed.
  Lemma w_remove f : wsim (tremove f) (cmodify f).
  Proof. split; reflexivity. Qed.
  Lemma w_lift {A} (o : outcome A) : wsim (tlift o) (clift o).
  Proof. split; reflexivity. Qed.
  Lemma w_search {A} (o : outcome A) : wsim (tsearch o) (clift o).
  Proof. split; reflexivity. Qed.
  Lemma w_assert b : wsim (tassert b) (cassert b).
  Proof. split; reflexivity. Qed.
  Lemma w_nofuel {A} : wsim (@tnofuel S A) cnofuel.
  Proof. split; reflexivity. Qed.
  Lemma w_bind {A B} (t : T S A) c (f : A -> T S B) g :
    wsim t c -> (forall a, wsim (f a) (g a)) -> wsim (tbind t f) (cbind c g).
  Proof.
    intros H1 H2 s. destruct (H1 s) as [E1 E2]. unfold tbind, cbind.
    destruct (t s) as [tr [o s']], (c s) as [r [o' s'']]. cbn [fst snd] in E1, E2. injection E1 as -> ->.
    destruct o' as [a|p|]; auto. destruct (H2 a s'') as [F1 F2].
    destruct (f a s'') as [tr' x], (g a s'') as [r' x']. cbn [fst snd] in *. rewrite changes_app, app_length. auto.
  Qed.
  Lemma w_if {A} (b : bool) (t t' : T S A) c c' : wsim t c -> wsim t' c' -> wsim (if b then t else t') (if b then c else c').
  Proof. destruct b; auto. Qed.
  Lemma w_for_each {A} (f : A -> T S unit) g l : (forall a, wsim (f a) (g a)) -> wsim (tfor_each f l) (cfor_each g l).
  Proof. intros H. induction l; cbn; [apply w_ret|]. apply w_bind; auto. Qed.
  Lemma w_next {A B} (l : list A) (f : option A -> T S B) c : wsim (f (fst (it_next l))) c -> wsim (tbind (tnext l) f) c.
  Proof.
    intros H s. destruct (H s) as [E1 E2]. unfold tbind, tnext. destruct (it_next l) as [[x|] l']; cbn in *;
      destruct (f _ s) as [tr y]; cbn in *; auto.
  Qed.
  Lemma w_next_back {A B} (l : list A) (f : option A -> T S B) c : wsim (f (last_opt l)) c -> wsim (tbind (tnext_back l) f) c.
  Proof.
    intros H s. destruct (H s) as [E1 E2]. unfold tbind, tnext_back.
    unfold last_opt in *.
    destruct (it_next_back l) as [[x|] l']; cbn in *; destruct (f _ s) as [tr y]; cbn in *; auto.
  Qed.
  Lemma w_read {A B} (l : list A) (f : list A -> T S B) c : wsim (f l) c -> wsim (tbind (tread l) f) c.
  Proof.
    intros H s. destruct (H s) as [E1 E2]. unfold tbind, tread. destruct (f l s) as [tr y]. cbn [fst snd] in *.
    rewrite changes_app, changes_read. auto.
  Qed.
End Erase.
Ltac wsims :=
  repeat match goal with
    | |- wsim (tbind (tnext _) _) _ => apply w_next
    | |- wsim (tbind (tnext_back _) _) _ => apply w_next_back
    | |- wsim (tbind (tread _) _) _ => apply w_read
    | |- wsim (tbind _ _) _ => apply w_bind; [|intros]
    | |- wsim (if _ then _ else _) _ => apply w_if
    | |- wsim (tret _) _ => apply w_ret
    | |- wsim tget _ => apply w_get
    | |- wsim (tinsert _) _ => apply w_insert
    | |- wsim (tremove _) _ => apply w_remove
    | |- wsim (tsearch _) _ => apply w_search
    | |- wsim (tlift _) _ => apply w_lift
    | |- wsim (tassert _) _ => apply w_assert
    | |- wsim tnofuel _ => apply w_nofuel
    end.
Section EraseMaps.
  Context {K V : Type} (cmp : K -> K -> comparison) (veqb : V -> V -> bool) (st : stepfns K).
  Lemma w_adjust s sv r v : wsim (rmt_adjust_touching_ranges_for_insert cmp veqb s sv r v)
    (rmx_adjust_touching_ranges_for_insert cmp veqb s sv r v).
  Proof. unfold rmt_adjust_touching_ranges_for_insert, rmx_adjust_touching_ranges_for_insert. cbv zeta. wsims. Qed.
  Lemma w_insert_loop v x fuel : forall r, wsim (rmt_insert_loop cmp veqb fuel r v x) (rmx_insert_loop cmp veqb fuel r v x).
  Proof.
    induction fuel as [|n IH]; intros r; cbn [rmt_insert_loop rmx_insert_loop]; wsims.
    destruct (fst (it_next _)) as [[s sv]|]; wsims; [apply w_adjust|apply IH].
  Qed.
  Lemma w_insert_ r v : wsim (rmt_insert cmp veqb r v) (rmx_insert cmp veqb r v).
  Proof.
    unfold rmt_insert, rmx_insert. wsims; [|apply w_insert_loop].
    destruct (filter _ _) as [|[s sv] [|[t tv] l]]; wsims; apply w_adjust.
  Qed.
  Lemma w_adjust_remove s sv r :
    wsim (rmt_adjust_overlapping_ranges_for_remove (V := V) cmp s sv r) (rmx_adjust_overlapping_ranges_for_remove cmp s sv r).
  Proof. unfold rmt_adjust_overlapping_ranges_for_remove, rmx_adjust_overlapping_ranges_for_remove. wsims. Qed.
  Lemma w_remove_loop r x fuel : wsim (rmt_remove_loop (V := V) cmp fuel r x) (rmx_remove_loop cmp fuel r x).
  Proof.
    induction fuel as [|n IH]; cbn [rmt_remove_loop rmx_remove_loop]; wsims.
    destruct (fst (it_next _)) as [[s sv]|]; wsims; [apply w_adjust_remove|apply IH].
  Qed.
  Lemma w_remove_ r : wsim (rmt_remove (V := V) cmp r) (rmx_remove cmp r).
  Proof.
    unfold rmt_remove, rmx_remove. wsims; [|apply w_remove_loop].
    destruct (last_opt _) as [[s sv]|]; wsims; apply w_adjust_remove.
  Qed.
  Lemma w_exec o : wsim (rmt_exec cmp veqb o) (rmx_exec cmp veqb o).
  Proof.
    destruct o; cbn [rmt_exec rmx_exec]; [apply w_insert_|apply w_remove_|split; reflexivity|].
    apply w_for_each. intros a. apply w_insert_.
  Qed.
  Lemma w_iadjust s sv r v : wsim (imt_adjust_touching_ranges_for_insert cmp veqb st s sv r v)
    (imx_adjust_touching_ranges_for_insert cmp veqb st s sv r v).
  Proof. unfold imt_adjust_touching_ranges_for_insert, imx_adjust_touching_ranges_for_insert. cbv zeta. wsims. Qed.
  Lemma w_iinsert_loop v x fuel : forall r, wsim (imt_insert_loop cmp veqb st fuel r v x) (imx_insert_loop cmp veqb st fuel r v x).
  Proof.
    induction fuel as [|n IH]; intros r; cbn [imt_insert_loop imx_insert_loop]; wsims.
    destruct (fst (it_next _)) as [[s sv]|]; wsims; [apply w_iadjust|apply IH].
  Qed.
  Lemma w_iinsert r v : wsim (imt_insert cmp veqb st r v) (imx_insert cmp veqb st r v).
  Proof.
    unfold imt_insert, imx_insert. wsims; [|apply w_iinsert_loop].
    match goal with |- wsim (match ?x with _ => _ end) _ => destruct x as [|[s sv] [|[t tv] l]] end; wsims; apply w_iadjust.
  Qed.
  Lemma w_iadjust_remove s sv r :
    wsim (imt_adjust_overlapping_ranges_for_remove (V := V) cmp st s sv r) (imx_adjust_overlapping_ranges_for_remove cmp st s sv r).
  Proof. unfold imt_adjust_overlapping_ranges_for_remove, imx_adjust_overlapping_ranges_for_remove. wsims. Qed.
  Lemma w_iremove_loop r x fuel : wsim (imt_remove_loop (V := V) cmp st fuel r x) (imx_remove_loop cmp st fuel r x).
  Proof.
    induction fuel as [|n IH]; cbn [imt_remove_loop imx_remove_loop]; wsims.
    destruct (fst (it_next _)) as [[s sv]|]; wsims; [apply w_iadjust_remove|apply IH].
  Qed.
  Lemma w_iremove r : wsim (imt_remove (V := V) cmp st r) (imx_remove cmp st r).
  Proof.
    unfold imt_remove, imx_remove. wsims; [|apply w_iremove_loop].
    destruct (last_opt _) as [[s sv]|]; wsims; apply w_iadjust_remove.
  Qed.
  Lemma w_iexec o : wsim (imt_exec cmp veqb st o) (imx_exec cmp veqb st o).
  Proof.
    destruct o; cbn [imt_exec imx_exec]; [apply w_iinsert|apply w_iremove|split; reflexivity|].
    apply w_for_each. intros a. apply w_iinsert.
  Qed.
End EraseMaps.

(** ** Weights

    Bounds on a weighted count of the calls of a computation that returns. *)
Section Weights.
  Context (w : bt_call -> Z).
  Local Open Scope Z_scope.
  Definition weigh (l : list bt_call) : Z := fold_right (fun c a => w c + a) 0 l.
  Lemma weigh_app a b : weigh (a ++ b) = weigh a + weigh b.
  Proof. unfold weigh. induction a as [|c a IH]; cbn [fold_right app]; lia. Qed.
  Lemma weigh_cons c l : weigh (c :: l) = w c + weigh l.
  Proof. reflexivity. Qed.
  Lemma weigh_nil : weigh [] = 0.
  Proof. reflexivity. Qed.
  Lemma weigh_repeat {A} c (l : list A) : weigh (map (fun _ => c) l) = w c * Z.of_nat (length l).
  Proof. unfold weigh. induction l as [|x l IH]; cbn [map fold_right length]; lia. Qed.
  Context {S : Type}.
  Definition bnd {A} (k : Z) (t : T S A) : Prop := forall s tr a s', t s = (tr, (Ret a, s')) -> weigh tr <= k.
  Lemma b_bind {A B} k1 k2 (t : T S A) (f : A -> T S B) :
    bnd k1 t -> (forall a, bnd k2 (f a)) -> bnd (k1 + k2) (tbind t f).
  Proof.
    intros H1 H2 s tr b s' E. unfold tbind in E. destruct (t s) as [tr1 [[a|p|] s1]] eqn:E1; try discriminate.
    destruct (f a s1) as [tr2 x] eqn:E2. injection E as <- ->. rewrite weigh_app.
    specialize (H1 _ _ _ _ E1). specialize (H2 _ _ _ _ _ E2). lia.
  Qed.
  Lemma b_bind_le {A B} k1 k2 k (t : T S A) (f : A -> T S B) :
    k1 + k2 <= k -> bnd k1 t -> (forall a, bnd k2 (f a)) -> bnd k (tbind t f).
  Proof. intros Hk H1 H2 s tr b s' E. pose proof (b_bind _ _ _ _ H1 H2 _ _ _ _ E). lia. Qed.
  Lemma b_le {A} k k' (t : T S A) : bnd k t -> k <= k' -> bnd k' t.
  Proof. intros H Hk s tr a s' E. specialize (H _ _ _ _ E). lia. Qed.
  Lemma b_ret {A} (a : A) : bnd 0 (tret a).
  Proof. intros s tr b s' E. injection E as <- _ _. cbn. lia. Qed.
  Lemma b_get : bnd 0 tget.
  Proof. intros s tr b s' E. injection E as <- _ _. cbn. lia. Qed.
  Lemma b_nofuel {A} k : bnd k (@tnofuel S A).
  Proof. intros s tr b s' E. discriminate. Qed.
  Lemma b_lift {A} (o : outcome A) : bnd 0 (tlift o).
  Proof. intros s tr b s' E. injection E as <- _ _. cbn. lia. Qed.
  Lemma b_assert b : bnd 0 (tassert b).
  Proof. intros s tr a s' E. injection E as <- _. cbn. lia. Qed.
  Lemma b_search {A} (o : outcome A) : bnd (w BSearch) (tsearch o).
  Proof. intros s tr b s' E. injection E as <- _ _. cbn. lia. Qed.
  Lemma b_insert f : bnd (w BInsert) (tinsert f).
  Proof. intros s tr b s' E. injection E as <- _ _. cbn. lia. Qed.
  Lemma b_remove f : bnd (w BRemove) (tremove f).
  Proof. intros s tr b s' E. injection E as <- _ _. cbn. lia. Qed.
  Lemma b_if {A} k (b : bool) (t t' : T S A) : bnd k t -> bnd k t' -> bnd k (if b then t else t').
  Proof. destruct b; auto. Qed.
End Weights.
Ltac wg := cbn [app]; repeat first [rewrite weigh_app | rewrite weigh_cons | rewrite weigh_nil].

(** One turn of a loop: a search, an item, and a computation that removes an
    entry unless it does nothing. *)
Section Maps.
  Context {K V : Type} (cmp : K -> K -> comparison) (veqb : V -> V -> bool) (st : stepfns K) (w : bt_call -> Z).
  Local Open Scope Z_scope.
  Context (Wi : w BInsert <= 0) (Wr : w BRemove <= 0) (Wt : w BSearch + w BRead + w BRemove <= 0).
  Notation bnd := (bnd w).
  Notation turn := (w BSearch + Z.max 0 (w BRead)).

  Lemma wb_next {S A B} k (l : list A) (f : option A -> T S B) :
    bnd k (f None) -> (forall a, bnd (k - w BRead) (f (Some a))) -> bnd k (tbind (tnext l) f).
  Proof.
    intros H1 H2 s tr b s' E. unfold tbind, tnext in E. destruct (it_next l) as [[x|] l'].
    - destruct (f (Some x) s) as [tr' y] eqn:F. injection E as <- ->. specialize (H2 _ _ _ _ _ F). wg. lia.
    - destruct (f None s) as [tr' y] eqn:F. injection E as <- ->. exact (H1 _ _ _ _ F).
  Qed.
  Lemma wb_next_back {S A B} k (l : list A) (f : option A -> T S B) :
    bnd k (f None) -> (forall a, bnd (k - w BRead) (f (Some a))) -> bnd k (tbind (tnext_back l) f).
  Proof.
    intros H1 H2 s tr b s' E. unfold tbind, tnext_back in E. destruct (it_next_back l) as [[x|] l'].
    - destruct (f (Some x) s) as [tr' y] eqn:F. injection E as <- ->. specialize (H2 _ _ _ _ _ F). wg. lia.
    - destruct (f None s) as [tr' y] eqn:F. injection E as <- ->. exact (H1 _ _ _ _ F).
  Qed.
  Lemma wb_read {S A} (l : list A) : bnd (2 * Z.max 0 (w BRead)) (tread (S := S) (firstn 2 l)).
  Proof.
    intros s tr b s' E. injection E as <- _ _. rewrite weigh_repeat.
    destruct l as [|a [|a' l]]; cbn [length]; lia.
  Qed.
  Lemma bb {S A B} k1 k (t : T S A) (f : A -> T S B) : bnd k1 t -> (forall a, bnd (k - k1) (f a)) -> bnd k (tbind t f).
  Proof. apply b_bind_le. lia. Qed.
  Lemma bl {S A} k k' (t : T S A) : bnd k t -> k <= k' -> bnd k' t.
  Proof. apply b_le. Qed.

  (** *** Half-open *)
  Lemma b_adjust_remove s sv r : bnd (w BRemove) (rmt_adjust_overlapping_ranges_for_remove (V := V) cmp s sv r).
  Proof.
    unfold rmt_adjust_overlapping_ranges_for_remove.
    eapply bb; [apply b_remove|intros _]. apply (bb 0); [|intros _]; apply b_if;
      (eapply bl; [first [apply b_ret|apply b_insert]|lia]).
  Qed.
  Lemma b_remove_loop r x fuel : bnd turn (rmt_remove_loop (V := V) cmp fuel r x).
  Proof.
    induction fuel as [|n IH]; cbn [rmt_remove_loop]; [apply b_nofuel|].
    eapply bb; [apply b_get|intros m]. eapply bb; [apply b_search|intros l]. apply wb_next.
    - eapply bl; [apply b_ret|lia].
    - intros [s sv]. eapply bb; [apply b_adjust_remove|intros _; eapply bl; [exact IH|lia]].
  Qed.
  Lemma b_remove_ r : bnd (2 * turn) (rmt_remove (V := V) cmp r).
  Proof.
    unfold rmt_remove.
    eapply bb; [apply b_assert|intros _]. eapply bb; [apply b_get|intros m]. eapply bb; [apply b_search|intros l].
    apply wb_next_back.
    - eapply bb; [apply b_ret|intros _]. eapply bb; [apply b_get|intros m1]. eapply bl; [apply b_remove_loop|lia].
    - intros [s sv]. apply (bb 0).
      + apply b_if; (eapply bl; [first [apply b_ret|apply b_adjust_remove]|lia]).
      + intros _. eapply bb; [apply b_get|intros m1]. eapply bl; [apply b_remove_loop|lia].
  Qed.
  (** [adjust] removes an entry unless it does nothing *)
  Lemma b_adjust_idle s sv r v m :
    (veqb sv v = false /\ r_overlaps cmp r s = false /\ rmt_adjust_touching_ranges_for_insert cmp veqb s sv r v m = ([], (Ret r, m))) \/
    forall tr a m', rmt_adjust_touching_ranges_for_insert cmp veqb s sv r v m = (tr, (Ret a, m')) -> weigh w tr <= w BRemove.
  Proof.
    unfold rmt_adjust_touching_ranges_for_insert. destruct (veqb sv v).
    - right. apply (bb (w BRemove)); [apply b_remove|intros _]. eapply bl; [apply b_ret|lia].
    - destruct (r_overlaps cmp r s); [|left; auto]. right. revert m.
      apply (bb (w BRemove)); [apply b_remove|intros _]. apply (bb 0); [|intros _; apply (bb 0); [|intros _; eapply bl; [apply b_ret|lia]]];
      apply b_if; (eapply bl; [first [apply b_ret|apply b_insert]|lia]).
  Qed.
  Lemma insert_loop_idle v x cur m l s sv :
    bt_range (cmp_start cmp) (Included cur) (Included x) m = Ret l -> fst (it_next l) = Some (s, sv) ->
    eqb cmp (r_start s) (r_end cur) && negb (veqb sv v) = false ->
    rmt_adjust_touching_ranges_for_insert cmp veqb s sv cur v m = ([], (Ret cur, m)) ->
    forall n, fst (snd (rmt_insert_loop cmp veqb n cur v x m)) = OutOfFuel.
  Proof.
    intros H1 H2 H3 H4 n. induction n as [|n IH]; [reflexivity|].
    cbn [rmt_insert_loop]. unfold tbind, tget, tsearch, tnext. rewrite H1. cbn [fst snd].
    destruct (it_next l) as [o l']. cbn [fst] in H2. subst o. rewrite H3, H4.
    destruct (rmt_insert_loop cmp veqb n cur v x m) as [tr y]. exact IH.
  Qed.
  Lemma b_insert_loop v x fuel : forall cur, bnd turn (rmt_insert_loop cmp veqb fuel cur v x).
  Proof.
    induction fuel as [|n IH]; intros cur; [apply b_nofuel|].
    intros m tr a m' E. pose proof E as E0. cbn [rmt_insert_loop] in E. unfold tbind at 1, tget in E. unfold tbind at 1, tsearch in E.
    destruct (bt_range _ _ _ m) as [l|p|] eqn:Er; try discriminate. unfold tbind at 1, tnext in E.
    destruct (it_next l) as [[[s sv]|] l'] eqn:El.
    - destruct (eqb cmp (r_start s) (r_end cur) && negb (veqb sv v)) eqn:Eb.
      + injection E as <- _ _. wg. lia.
      + destruct (b_adjust_idle s sv cur v m) as [(_ & _ & H)|H].
        * exfalso. pose proof (insert_loop_idle v x cur m l s sv Er ltac:(rewrite El; reflexivity) Eb H (S n)) as G.
          rewrite E0 in G. discriminate.
        * unfold tbind in E.
          destruct (rmt_adjust_touching_ranges_for_insert cmp veqb s sv cur v m) as [t1 [[b|p|] m2]] eqn:Ea; try discriminate.
          destruct (rmt_insert_loop cmp veqb n b v x m2) as [t2 y] eqn:Eo. injection E as <- ->.
          specialize (H _ _ _ eq_refl). specialize (IH b _ _ _ _ Eo). wg. lia.
    - injection E as <- _ _. wg. lia.
  Qed.
  Lemma b_adjust s sv r v : bnd 0 (rmt_adjust_touching_ranges_for_insert cmp veqb s sv r v).
  Proof.
    intros m tr a m' E. destruct (b_adjust_idle s sv r v m) as [(_ & _ & H)|H].
    - rewrite H in E. injection E as <- _ _. wg. lia.
    - specialize (H _ _ _ E). lia.
  Qed.
  Lemma b_insert_ r v : bnd (2 * w BSearch + 3 * Z.max 0 (w BRead) + w BInsert) (rmt_insert cmp veqb r v).
  Proof.
    unfold rmt_insert.
    eapply bb; [apply b_assert|intros _]. eapply bb; [apply b_get|intros m]. eapply bb; [apply b_search|intros l].
    eapply bb; [apply wb_read|intros two]. apply (bb 0).
    - destruct (filter _ _) as [|[s sv] [|[t tv] l']]; [apply b_ret|apply b_adjust|apply b_adjust].
    - intros new1. eapply bb; [apply b_get|intros m1]. eapply bb; [apply b_insert_loop|intros new2].
      eapply bl; [apply b_insert|lia].
  Qed.

  (** *** Inclusive *)
  Lemma b_opt_insert (b : bool) (o : outcome K) (f : K -> imap K V -> imap K V) :
    bnd 0 (if b then (p <- tlift o ;; tinsert (f p))%T else tret tt).
  Proof.
    apply b_if; [|apply b_ret]. eapply bb; [apply b_lift|intros p]. eapply bl; [apply b_insert|lia].
  Qed.
  Lemma b_iadjust_remove s sv r : bnd (w BRemove) (imt_adjust_overlapping_ranges_for_remove (V := V) cmp st s sv r).
  Proof.
    unfold imt_adjust_overlapping_ranges_for_remove.
    eapply bb; [apply b_remove|intros _]. eapply bb; [apply b_opt_insert|intros _]. eapply bl; [apply b_opt_insert|lia].
  Qed.
  Lemma b_iremove_loop r x fuel : bnd turn (imt_remove_loop (V := V) cmp st fuel r x).
  Proof.
    induction fuel as [|n IH]; cbn [imt_remove_loop]; [apply b_nofuel|].
    eapply bb; [apply b_get|intros m]. eapply bb; [apply b_search|intros l]. apply wb_next.
    - eapply bl; [apply b_ret|lia].
    - intros [s sv]. eapply bb; [apply b_iadjust_remove|intros _; eapply bl; [exact IH|lia]].
  Qed.
  Lemma b_iremove r : bnd (2 * turn) (imt_remove (V := V) cmp st r).
  Proof.
    unfold imt_remove.
    eapply bb; [apply b_assert|intros _]. eapply bb; [apply b_get|intros m]. eapply bb; [apply b_search|intros l].
    apply wb_next_back.
    - eapply bb; [apply b_ret|intros _]. eapply bb; [apply b_get|intros m1]. eapply bl; [apply b_iremove_loop|lia].
    - intros [s sv]. apply (bb 0).
      + apply b_if; (eapply bl; [first [apply b_ret|apply b_iadjust_remove]|lia]).
      + intros _. eapply bb; [apply b_get|intros m1]. eapply bl; [apply b_iremove_loop|lia].
  Qed.
  Lemma b_iadjust_idle s sv r v m :
    imt_adjust_touching_ranges_for_insert cmp veqb st s sv r v m = ([], (Ret r, m)) \/
    forall tr a m', imt_adjust_touching_ranges_for_insert cmp veqb st s sv r v m = (tr, (Ret a, m')) -> weigh w tr <= w BRemove.
  Proof.
    unfold imt_adjust_touching_ranges_for_insert. destruct (veqb sv v).
    - right. apply (bb (w BRemove)); [apply b_remove|intros _]. eapply bl; [apply b_ret|lia].
    - destruct (ri_overlaps cmp r s); [|left; auto]. right. revert m.
      apply (bb (w BRemove)); [apply b_remove|intros _]. eapply bb; [apply b_opt_insert|intros _].
      eapply bb; [apply b_opt_insert|intros _]. eapply bl; [apply b_ret|lia].
  Qed.
  Lemma iinsert_loop_idle v x cur m l s sv :
    bt_range (cmpi_start cmp) (Included cur) Unbounded m = Ret l -> fst (it_next l) = Some (s, sv) ->
    (if gtb cmp (ri_start s) (ri_start x)
     then omap (fun latest => gtb cmp (ri_start s) latest || (eqb cmp (ri_start s) latest && negb (veqb sv v)))
            (step_o (add_one st (ri_start x))) else Ret false) = Ret false ->
    imt_adjust_touching_ranges_for_insert cmp veqb st s sv cur v m = ([], (Ret cur, m)) ->
    forall n, fst (snd (imt_insert_loop cmp veqb st n cur v x m)) = OutOfFuel.
  Proof.
    intros H1 H2 H3 H4 n. induction n as [|n IH]; [reflexivity|].
    cbn [imt_insert_loop]. unfold tbind, tget, tsearch, tnext, tlift. rewrite H1. cbn [fst snd].
    destruct (it_next l) as [o l']. cbn [fst] in H2. subst o. rewrite H3, H4.
    destruct (imt_insert_loop cmp veqb st n cur v x m) as [tr y]. exact IH.
  Qed.
  Lemma b_iinsert_loop v x fuel : forall cur, bnd turn (imt_insert_loop cmp veqb st fuel cur v x).
  Proof.
    induction fuel as [|n IH]; intros cur; [apply b_nofuel|].
    intros m tr a m' E. pose proof E as E0. cbn [imt_insert_loop] in E. unfold tbind at 1, tget in E. unfold tbind at 1, tsearch in E.
    destruct (bt_range _ _ _ m) as [l|p|] eqn:Er; try discriminate. unfold tbind at 1, tnext in E.
    destruct (it_next l) as [[[s sv]|] l'] eqn:El.
    - unfold tbind at 1, tlift in E.
      match type of E with context [if gtb cmp (ri_start s) (ri_start x) then ?A else ?B] =>
        destruct (if gtb cmp (ri_start s) (ri_start x) then A else B) as [b|p|] eqn:Eb end; try discriminate.
      destruct b.
      + injection E as <- _ _. wg. lia.
      + destruct (b_iadjust_idle s sv cur v m) as [H|H].
        * exfalso. pose proof (iinsert_loop_idle v x cur m l s sv Er ltac:(rewrite El; reflexivity) Eb H (S n)) as G.
          rewrite E0 in G. discriminate.
        * unfold tbind in E.
          destruct (imt_adjust_touching_ranges_for_insert cmp veqb st s sv cur v m) as [t1 [[b|p|] m2]] eqn:Ea; try discriminate.
          destruct (imt_insert_loop cmp veqb st n b v x m2) as [t2 y] eqn:Eo. injection E as <- ->.
          specialize (H _ _ _ eq_refl). specialize (IH b _ _ _ _ Eo). wg. lia.
    - injection E as <- _ _. wg. lia.
  Qed.
  Lemma b_iadjust s sv r v : bnd 0 (imt_adjust_touching_ranges_for_insert cmp veqb st s sv r v).
  Proof.
    intros m tr a m' E. destruct (b_iadjust_idle s sv r v m) as [H|H].
    - rewrite H in E. injection E as <- _ _. wg. lia.
    - specialize (H _ _ _ E). lia.
  Qed.
  Lemma b_iinsert r v : bnd (2 * w BSearch + 3 * Z.max 0 (w BRead) + w BInsert) (imt_insert cmp veqb st r v).
  Proof.
    unfold imt_insert.
    eapply bb; [apply b_assert|intros _]. eapply bb; [apply b_get|intros m]. eapply bb; [apply b_search|intros l].
    eapply bb; [apply wb_read|intros two]. eapply bb; [apply b_lift|intros cands]. apply (bb 0).
    - destruct cands as [|[s sv] [|[t tv] l']]; [apply b_ret|apply b_iadjust|apply b_iadjust].
    - intros new1. eapply bb; [apply b_get|intros m1]. eapply bb; [apply b_iinsert_loop|intros new2].
      eapply bl; [apply b_insert|lia].
  Qed.
End Maps.

(** ** The three weights *)
Section Counts.
  Local Open Scope Z_scope.
  Definition w_searches (c : bt_call) : Z := match c with BSearch => 1 | BRemove => -1 | _ => 0 end.
  Definition w_reads (c : bt_call) : Z := match c with BRead => 1 | BSearch => -1 | _ => 0 end.
  Definition w_all (c : bt_call) : Z := match c with BSearch | BRead => 1 | _ => -2 end.
  Lemma weigh_searches l : weigh w_searches l = Z.of_nat (searches l) - Z.of_nat (removes l).
  Proof. unfold searches, removes, weigh. induction l as [|[] l IH]; cbn [filter length fold_right w_searches]; lia. Qed.
  Lemma weigh_reads l : weigh w_reads l = Z.of_nat (reads l) - Z.of_nat (searches l).
  Proof. unfold searches, reads, weigh. induction l as [|[] l IH]; cbn [filter length fold_right w_reads]; lia. Qed.
  Lemma weigh_all l : weigh w_all l = Z.of_nat (length l) - 3 * Z.of_nat (changes l).
  Proof. unfold changes, weigh. induction l as [|[] l IH]; cbn [filter length fold_right w_all]; lia. Qed.
End Counts.

(** ** Amortised *)
Section Amortised.
  Context {R V E : Type} (tx : op R V -> T (list E) unit) (cx : op R V -> C (list E) unit) (mx : op R V -> M (list E) unit).
  Context (tc : forall o, wsim (tx o) (cx o)) (cm : forall o, erases (cx o) (mx o)).
  Notation run ops := (run_ops mx ops []).
  Context (HB : forall ops o, length (fst (cx o (run ops))) + length (run (ops ++ [o])) <= length (run ops) + op_budget o).
  Context (Hclear : forall m, tx OClear m = ([BClear], (Ret tt, []))).
  Context (Hext : forall l, tx (OExtend l) = tfor_each (fun e => tx (OInsert (fst e) (snd e))) l).
  Definition ends_well (t : T (list E) unit) (m : list E) : Prop :=
    (exists tr m', t m = (tr, (Ret tt, m'))) \/ t m = ([], (Panicked PAssert, m)).
  Context (Hins : forall ops r v, ends_well (tx (OInsert r v)) (run ops)).
  Context (Hrem : forall ops r, ends_well (tx (ORemove r)) (run ops)).
  Context (Bins : forall r v, bnd w_all 3 (tx (OInsert r v))) (Brem : forall r, bnd w_all 4 (tx (ORemove r))).

  Lemma tx_snoc ops o : run (ops ++ [o]) = snd (snd (tx o (run ops))).
  Proof. unfold run_ops. rewrite fold_left_app. cbn. rewrite <- (cm o), <- (proj1 (tc o _)). reflexivity. Qed.
  Lemma one_work k ops o : ends_well (tx o) (run ops) -> bnd w_all (Z.of_nat k) (tx o) ->
    length (fst (tx o (run ops))) + 3 * length (snd (snd (tx o (run ops)))) <= 3 * length (run ops) + (3 * op_budget o + k).
  Proof.
    intros H B. pose proof (HB ops o) as HC. rewrite tx_snoc in HC. rewrite <- (proj2 (tc o _)) in HC.
    destruct H as [(tr & m' & H)|H]; rewrite H in *; cbn [fst snd] in *; [|cbn [length]; lia].
    specialize (B _ _ _ _ H). rewrite weigh_all in B. lia.
  Qed.
  Lemma extend_work l : forall ops, let x := tfor_each (fun e => tx (OInsert (fst e) (snd e))) l (run ops) in
    length (fst x) + 3 * length (snd (snd x)) <= 3 * length (run ops) + 21 * length l.
  Proof.
    induction l as [|[r v] l IH]; intros ops; cbv zeta; cbn [tfor_each fst snd].
    - cbn. lia.
    - pose proof (one_work 3 ops (OInsert r v) (Hins ops r v) (Bins r v)) as H. specialize (IH (ops ++ [OInsert r v])).
      cbv zeta in IH. rewrite tx_snoc in IH. unfold tbind.
      destruct (tx (OInsert r v) (run ops)) as [tr [[[]|p|] m']]; cbn [fst snd length op_budget] in *; [|lia|lia].
      destruct (tfor_each _ l m') as [tr' x]. cbn [fst snd] in *. rewrite app_length. lia.
  Qed.
  Lemma call_work ops o :
    length (fst (tx o (run ops))) + 3 * length (run (ops ++ [o])) <= 3 * length (run ops) + op_work o.
  Proof.
    rewrite tx_snoc. destruct o as [r v|r| |l]; cbn [op_work].
    - exact (one_work 3 ops _ (Hins ops r v) (Bins r v)).
    - exact (one_work 4 ops _ (Hrem ops r) (Brem r)).
    - rewrite Hclear. cbn. lia.
    - rewrite Hext. apply extend_work.
  Qed.
  Lemma work_from ops : forall pre,
    length (bt_calls tx ops (run pre)) + 3 * length (run (pre ++ ops)) <= 3 * length (run pre) + history_work ops.
  Proof.
    induction ops as [|o ops IH]; intros pre; [cbn; rewrite app_nil_r; lia|].
    cbn [bt_calls]. rewrite app_length, <- tx_snoc. pose proof (call_work pre o) as H1. specialize (IH (pre ++ [o])).
    rewrite <- app_assoc in IH. cbn [app] in IH. unfold history_work, list_sum in *. cbn [map fold_right] in *. lia.
  Qed.
End Amortised.

Section Half.
  Context {K V : Type} {cmp : K -> K -> comparison} {veqb : V -> V -> bool}.
  Context (HO : TotalOrd cmp) (HV : PartialEquiv veqb).
  Notation run := (rm_run cmp veqb).
  Notation tx := (rmt_exec cmp veqb).

  Lemma wk_erase o m : snd (tx o m) = rm_exec cmp veqb o m /\ changes (fst (tx o m)) = length (fst (rmx_exec cmp veqb o m)).
  Proof. destruct (w_exec cmp veqb o m) as [H1 H2]. rewrite H1, e_exec. auto. Qed.
  Lemma wk_insert_ends ops r v : ends_well (tx (OInsert r v)) (run ops).
  Proof.
    pose proof (insert_outcome HO HV ops r v) as H. pose proof (proj1 (wk_erase (OInsert r v) (run ops))) as E.
    cbn [rm_exec] in E. destruct (valid_range cmp r) eqn:Ev.
    - destruct H as (m' & H & _). rewrite H in E. left. unfold rmap in *.
      destruct (tx (OInsert r v) (run ops)) as [tr x]. cbn in E. subst x. eauto.
    - right. cbn [rmt_exec]. unfold rmt_insert, tbind, tassert. unfold valid_range in Ev. rewrite Ev. reflexivity.
  Qed.
  Lemma wk_remove_ends ops r : ends_well (tx (ORemove r)) (run ops).
  Proof.
    pose proof (remove_outcome HO HV ops r) as H. pose proof (proj1 (wk_erase (ORemove r) (run ops))) as E.
    cbn [rm_exec] in E. destruct (valid_range cmp r) eqn:Ev.
    - destruct H as (m' & H & _). rewrite H in E. left. unfold rmap in *.
      destruct (tx (ORemove r) (run ops)) as [tr x]. cbn in E. subst x. eauto.
    - right. cbn [rmt_exec]. unfold rmt_remove, tbind, tassert. unfold valid_range in Ev. rewrite Ev. reflexivity.
  Qed.
  Lemma wk_insert ops r v : let t := fst (tx (OInsert r v) (run ops)) in
    searches t <= removes t + 2 /\ reads t <= searches t + 1 /\ length t <= 3 * changes t + 3.
  Proof.
    cbv zeta. destruct (wk_insert_ends ops r v) as [(tr & m' & H)|H]; rewrite H; cbn [fst]; [|cbn; lia].
    pose proof (b_insert_ cmp veqb w_searches ltac:(cbn; lia) ltac:(cbn; lia) ltac:(cbn; lia) r v _ _ _ _ H) as B1.
    pose proof (b_insert_ cmp veqb w_reads ltac:(cbn; lia) ltac:(cbn; lia) ltac:(cbn; lia) r v _ _ _ _ H) as B2.
    pose proof (b_insert_ cmp veqb w_all ltac:(cbn; lia) ltac:(cbn; lia) ltac:(cbn; lia) r v _ _ _ _ H) as B3.
    rewrite weigh_searches in B1. rewrite weigh_reads in B2. rewrite weigh_all in B3.
    cbn [w_searches w_reads w_all] in *. lia.
  Qed.
  Lemma wk_remove ops r : let t := fst (tx (ORemove r) (run ops)) in
    searches t <= removes t + 2 /\ reads t <= searches t /\ length t <= 3 * changes t + 4.
  Proof.
    cbv zeta. destruct (wk_remove_ends ops r) as [(tr & m' & H)|H]; rewrite H; cbn [fst]; [|cbn; lia].
    pose proof (b_remove_ cmp w_searches ltac:(cbn; lia) ltac:(cbn; lia) ltac:(cbn; lia) r _ _ _ _ H) as B1.
    pose proof (b_remove_ cmp w_reads ltac:(cbn; lia) ltac:(cbn; lia) ltac:(cbn; lia) r _ _ _ _ H) as B2.
    pose proof (b_remove_ cmp w_all ltac:(cbn; lia) ltac:(cbn; lia) ltac:(cbn; lia) r _ _ _ _ H) as B3.
    rewrite weigh_searches in B1. rewrite weigh_reads in B2. rewrite weigh_all in B3.
    cbn [w_searches w_reads w_all] in *. lia.
  Qed.
  Lemma wk_call ops o :
    length (fst (tx o (run ops))) + 3 * rm_len (run (ops ++ [o])) <= 3 * rm_len (run ops) + op_work o.
  Proof.
    apply (call_work tx (rmx_exec cmp veqb) (rm_exec cmp veqb)); auto.
    - apply w_exec.
    - apply e_exec.
    - apply (call_budget HO HV).
    - apply wk_insert_ends.
    - apply wk_remove_ends.
    - intros r v. apply (b_insert_ cmp veqb w_all); cbn; lia.
    - intros r. apply (b_remove_ cmp w_all); cbn; lia.
  Qed.
  Lemma wk_history ops :
    length (bt_calls tx ops rm_new) + 3 * rm_len (run ops) <= history_work ops.
  Proof.
    apply (work_from tx (rmx_exec cmp veqb) (rm_exec cmp veqb)) with (pre := []); auto.
    - apply w_exec.
    - apply e_exec.
    - apply (call_budget HO HV).
    - apply wk_insert_ends.
    - apply wk_remove_ends.
    - intros r v. apply (b_insert_ cmp veqb w_all); cbn; lia.
    - intros r. apply (b_remove_ cmp w_all); cbn; lia.
  Qed.
End Half.

Section Incl.
  Context {K V : Type} {cmp : K -> K -> comparison} {veqb : V -> V -> bool} {st : stepfns K}.
  Context (HO : TotalOrd cmp) (HS : StepLaws cmp st) (HV : PartialEquiv veqb).
  Notation run := (im_run cmp veqb st).
  Notation tx := (imt_exec cmp veqb st).

  Lemma iwk_erase o m : snd (tx o m) = im_exec cmp veqb st o m /\ changes (fst (tx o m)) = length (fst (imx_exec cmp veqb st o m)).
  Proof. destruct (w_iexec cmp veqb st o m) as [H1 H2]. rewrite H1, e_iexec. auto. Qed.
  Lemma iwk_ends ops o : match o with OInsert r _ | ORemove r => True | _ => False end -> ends_well (tx o) (run ops).
  Proof.
    intros Ho. pose proof (proj1 (iwk_erase o (run ops))) as E.
    assert (G : match o with OInsert r _ | ORemove r => if valid_rangei cmp r then fst (im_exec cmp veqb st o (run ops)) = Ret tt else True | _ => True end).
    { rewrite <- (x_outcome o (run ops)), <- x_run. destruct o as [r v|r| |l]; auto; cbn [freshen_op im_exec].
      - pose proof (iinsert_outcome HO HS HV _ (freshen r) v (freshen_fresh ops) eq_refl) as H.
        change (valid_rangei cmp (freshen r)) with (valid_rangei cmp r) in H. destruct (valid_rangei cmp r); [|exact Logic.I].
        destruct H as (m' & H & _). rewrite H. reflexivity.
      - pose proof (iremove_outcome HO HS HV _ (freshen r) (freshen_fresh ops)) as H.
        change (valid_rangei cmp (freshen r)) with (valid_rangei cmp r) in H. destruct (valid_rangei cmp r); [|exact Logic.I].
        destruct H as (m' & H & _). rewrite H. reflexivity. }
    destruct o as [r v|r| |l]; try destruct Ho; destruct (valid_rangei cmp r) eqn:Ev.
    - left. rewrite <- E in G. destruct (tx (OInsert r v) (run ops)) as [tr [o m']]. cbn in G. subst o. eauto.
    - right. cbn [imt_exec]. unfold imt_insert, tbind, tassert. unfold valid_rangei in Ev.
      replace (leb cmp (ri_start r) (ri_end r)) with false by ord. reflexivity.
    - left. rewrite <- E in G. destruct (tx (ORemove r) (run ops)) as [tr [o m']]. cbn in G. subst o. eauto.
    - right. cbn [imt_exec]. unfold imt_remove, tbind, tassert. unfold valid_rangei in Ev.
      replace (leb cmp (ri_start r) (ri_end r)) with false by ord. reflexivity.
  Qed.
  Lemma iwk_insert ops r v : let t := fst (tx (OInsert r v) (run ops)) in
    searches t <= removes t + 2 /\ reads t <= searches t + 1 /\ length t <= 3 * changes t + 3.
  Proof.
    cbv zeta. destruct (iwk_ends ops (OInsert r v) Logic.I) as [(tr & m' & H)|H]; rewrite H; cbn [fst]; [|cbn; lia].
    pose proof (b_iinsert cmp veqb st w_searches ltac:(cbn; lia) ltac:(cbn; lia) ltac:(cbn; lia) r v _ _ _ _ H) as B1.
    pose proof (b_iinsert cmp veqb st w_reads ltac:(cbn; lia) ltac:(cbn; lia) ltac:(cbn; lia) r v _ _ _ _ H) as B2.
    pose proof (b_iinsert cmp veqb st w_all ltac:(cbn; lia) ltac:(cbn; lia) ltac:(cbn; lia) r v _ _ _ _ H) as B3.
    rewrite weigh_searches in B1. rewrite weigh_reads in B2. rewrite weigh_all in B3.
    cbn [w_searches w_reads w_all] in *. lia.
  Qed.
  Lemma iwk_remove ops r : let t := fst (tx (ORemove r) (run ops)) in
    searches t <= removes t + 2 /\ reads t <= searches t /\ length t <= 3 * changes t + 4.
  Proof.
    cbv zeta. destruct (iwk_ends ops (ORemove r) Logic.I) as [(tr & m' & H)|H]; rewrite H; cbn [fst]; [|cbn; lia].
    pose proof (b_iremove cmp st w_searches ltac:(cbn; lia) ltac:(cbn; lia) ltac:(cbn; lia) r _ _ _ _ H) as B1.
    pose proof (b_iremove cmp st w_reads ltac:(cbn; lia) ltac:(cbn; lia) ltac:(cbn; lia) r _ _ _ _ H) as B2.
    pose proof (b_iremove cmp st w_all ltac:(cbn; lia) ltac:(cbn; lia) ltac:(cbn; lia) r _ _ _ _ H) as B3.
    rewrite weigh_searches in B1. rewrite weigh_reads in B2. rewrite weigh_all in B3.
    cbn [w_searches w_reads w_all] in *. lia.
  Qed.
  Lemma iwk_call ops o :
    length (fst (tx o (run ops))) + 3 * im_len (run (ops ++ [o])) <= 3 * im_len (run ops) + op_work o.
  Proof.
    apply (call_work tx (imx_exec cmp veqb st) (im_exec cmp veqb st)); auto.
    - apply w_iexec.
    - apply e_iexec.
    - apply (icall_budget_any HO HS HV).
    - intros. apply iwk_ends. exact Logic.I.
    - intros. apply iwk_ends. exact Logic.I.
    - intros r v. apply (b_iinsert cmp veqb st w_all); cbn; lia.
    - intros r. apply (b_iremove cmp st w_all); cbn; lia.
  Qed.
  Lemma iwk_history ops :
    length (bt_calls tx ops im_new) + 3 * im_len (run ops) <= history_work ops.
  Proof.
    apply (work_from tx (imx_exec cmp veqb st) (im_exec cmp veqb st)) with (pre := []); auto.
    - apply w_iexec.
    - apply e_iexec.
    - apply (icall_budget_any HO HS HV).
    - intros. apply iwk_ends. exact Logic.I.
    - intros. apply iwk_ends. exact Logic.I.
    - intros r v. apply (b_iinsert cmp veqb st w_all); cbn; lia.
    - intros r. apply (b_iremove cmp st w_all); cbn; lia.
  Qed.
End Incl.
