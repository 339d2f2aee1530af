(** Interrupted [RangeMap] updates: the recording functions agree with the
    model, and every state they go through satisfies the invariant. *)
From Coq Require Import List Bool Sorting.Sorted Lia.
From Verif Require Import Order Outcome BTree Ranges History Spec MapModel IMapModel ListLemmas
  MapProofs MapRemove MapFacts MapIter MapMore MapProps CrashModel.
Import ListNotations.

(** ** Forgetting the record *)
Section Erase.
  Context {S : Type}.
  Definition erases {A} (c : C S A) (d : M S A) : Prop := forall s, snd (c s) = d s.
  Lemma e_ret {A} (a : A) : erases (cret a) (ret a).
  Proof. intros s. reflexivity. Qed.
  Lemma e_get : erases cget get.
  Proof. intros s. reflexivity. Qed.
  Lemma e_modify f : erases (cmodify f) (modify f).
  Proof. intros s. reflexivity. Qed.
  Lemma e_lift {A} (o : outcome A) : erases (clift o) (lift o).
  Proof. intros s. reflexivity. Qed.
  Lemma e_assert b : erases (cassert b) (assert_ b).
  Proof. intros s. reflexivity. Qed.
  Lemma e_nofuel {A} : erases (@cnofuel S A) nofuel.
  Proof. intros s. reflexivity. Qed.
  Lemma e_bind {A B} (c : C S A) d (f : A -> C S B) g :
    erases c d -> (forall a, erases (f a) (g a)) -> erases (cbind c f) (bind d g).
  Proof.
    intros H1 H2 s. unfold cbind, bind. rewrite <- (H1 s).
    destruct (c s) as [t [[a|p|] s']]; cbn; auto. rewrite <- (H2 a s'). destruct (f a s'). reflexivity.
  Qed.
  Lemma e_if {A} (b : bool) (c c' : C S A) d d' :
    erases c d -> erases c' d' -> erases (if b then c else c') (if b then d else d').
  Proof. destruct b; auto. Qed.
  Lemma e_for_each {A} (f : A -> C S unit) g l :
    (forall a, erases (f a) (g a)) -> erases (cfor_each f l) (for_each g l).
  Proof.
    intros H. induction l; cbn; [apply e_ret|]. apply e_bind; auto.
  Qed.
End Erase.

Ltac erase :=
  repeat match goal with
    | |- erases (cbind _ _) _ => apply e_bind; [|intros]
    | |- erases (if _ then _ else _) _ => apply e_if
    | |- erases (cret _) _ => apply e_ret
    | |- erases cget _ => apply e_get
    | |- erases (cmodify _) _ => apply e_modify
    | |- erases (clift _) _ => apply e_lift
    | |- erases (cassert _) _ => apply e_assert
    | |- erases cnofuel _ => apply e_nofuel
    end.

Section EraseHalf.
  Context {K V : Type} (cmp : K -> K -> comparison) (veqb : V -> V -> bool).
  Lemma e_adjust s sv r v : erases (rmx_adjust_touching_ranges_for_insert cmp veqb s sv r v)
    (rm_adjust_touching_ranges_for_insert cmp veqb s sv r v).
  Proof.
    unfold rmx_adjust_touching_ranges_for_insert, rm_adjust_touching_ranges_for_insert. cbv zeta. erase.
  Qed.
  Lemma e_insert_loop v x fuel : forall r, erases (rmx_insert_loop cmp veqb fuel r v x)
    (rm_insert_loop cmp veqb fuel r v x).
  Proof.
    induction fuel as [|n IH]; intros r; cbn [rmx_insert_loop rm_insert_loop]; erase.
    destruct (fst (it_next _)) as [[s sv]|]; erase; [apply e_adjust|apply IH].
  Qed.
  Lemma e_insert r v : erases (rmx_insert cmp veqb r v) (rm_insert cmp veqb r v).
  Proof.
    unfold rmx_insert, rm_insert. erase; [|apply e_insert_loop].
    destruct (filter _ _) as [|[s sv] [|[t tv] l]]; erase; apply e_adjust.
  Qed.
  Lemma e_adjust_remove s sv r :
    erases (rmx_adjust_overlapping_ranges_for_remove (V := V) cmp s sv r)
      (rm_adjust_overlapping_ranges_for_remove cmp s sv r).
  Proof.
    unfold rmx_adjust_overlapping_ranges_for_remove, rm_adjust_overlapping_ranges_for_remove. erase.
  Qed.
  Lemma e_remove_loop r x fuel : erases (rmx_remove_loop (V := V) cmp fuel r x) (rm_remove_loop cmp fuel r x).
  Proof.
    induction fuel as [|n IH]; cbn [rmx_remove_loop rm_remove_loop]; erase.
    destruct (fst (it_next _)) as [[s sv]|]; erase; [apply e_adjust_remove|apply IH].
  Qed.
  Lemma e_remove r : erases (rmx_remove (V := V) cmp r) (rm_remove cmp r).
  Proof.
    unfold rmx_remove, rm_remove. erase; [|apply e_remove_loop].
    destruct (last_opt _) as [[s sv]|]; erase; apply e_adjust_remove.
  Qed.
  Lemma e_extend l : erases (rmx_extend cmp veqb l) (rm_extend cmp veqb l).
  Proof. apply e_for_each. intros a. apply e_insert. Qed.
  Lemma e_exec o : erases (rmx_exec cmp veqb o) (rm_exec cmp veqb o).
  Proof.
    destruct o; cbn [rmx_exec rm_exec]; [apply e_insert|apply e_remove|apply e_modify|apply e_extend].
  Qed.
End EraseHalf.

Section EraseIncl.
  Context {K V : Type} (cmp : K -> K -> comparison) (veqb : V -> V -> bool) (st : stepfns K).
  Lemma e_iadjust s sv r v : erases (imx_adjust_touching_ranges_for_insert cmp veqb st s sv r v)
    (im_adjust_touching_ranges_for_insert cmp veqb st s sv r v).
  Proof.
    unfold imx_adjust_touching_ranges_for_insert, im_adjust_touching_ranges_for_insert. cbv zeta. erase.
  Qed.
  Lemma e_iinsert_loop v x fuel : forall r, erases (imx_insert_loop cmp veqb st fuel r v x)
    (im_insert_loop cmp veqb st fuel r v x).
  Proof.
    induction fuel as [|n IH]; intros r; cbn [imx_insert_loop im_insert_loop]; erase.
    destruct (fst (it_next _)) as [[s sv]|]; erase; [apply e_iadjust|apply IH].
  Qed.
  Lemma e_iinsert r v : erases (imx_insert cmp veqb st r v) (im_insert cmp veqb st r v).
  Proof.
    unfold imx_insert, im_insert. erase; [|apply e_iinsert_loop].
    match goal with |- erases (match ?x with _ => _ end) _ => destruct x as [|[s sv] [|[t tv] l]] end;
      erase; apply e_iadjust.
  Qed.
  Lemma e_iadjust_remove s sv r :
    erases (imx_adjust_overlapping_ranges_for_remove (V := V) cmp st s sv r)
      (im_adjust_overlapping_ranges_for_remove cmp st s sv r).
  Proof.
    unfold imx_adjust_overlapping_ranges_for_remove, im_adjust_overlapping_ranges_for_remove. erase.
  Qed.
  Lemma e_iremove_loop r x fuel :
    erases (imx_remove_loop (V := V) cmp st fuel r x) (im_remove_loop cmp st fuel r x).
  Proof.
    induction fuel as [|n IH]; cbn [imx_remove_loop im_remove_loop]; erase.
    destruct (fst (it_next _)) as [[s sv]|]; erase; [apply e_iadjust_remove|apply IH].
  Qed.
  Lemma e_iremove r : erases (imx_remove (V := V) cmp st r) (im_remove cmp st r).
  Proof.
    unfold imx_remove, im_remove. erase; [|apply e_iremove_loop].
    destruct (last_opt _) as [[s sv]|]; erase; apply e_iadjust_remove.
  Qed.
  Lemma e_iextend l : erases (imx_extend cmp veqb st l) (im_extend cmp veqb st l).
  Proof. apply e_for_each. intros a. apply e_iinsert. Qed.
  Lemma e_iexec o : erases (imx_exec cmp veqb st o) (im_exec cmp veqb st o).
  Proof.
    destruct o; cbn [imx_exec im_exec]; [apply e_iinsert|apply e_iremove|apply e_modify|apply e_iextend].
  Qed.
End EraseIncl.

(** ** The last recorded state is the final one *)
Definition tracked {S A} (c : C S A) : Prop := forall s, last (fst (c s)) s = snd (snd (c s)).
Lemma last_app_last {A} (l l' : list A) d : last (l ++ l') d = last l' (last l d).
Proof.
  assert (HD : forall (t : list A) x d1 d2, last (x :: t) d1 = last (x :: t) d2).
  { induction t as [|y t IH]; intros x d1 d2; [reflexivity|]. apply (IH y d1 d2). }
  revert d. induction l as [|a l IH]; intros d; [reflexivity|].
  destruct l as [|b l]; [destruct l' as [|x l']; [reflexivity|apply (HD l' x d a)]|].
  change (last ((b :: l) ++ l') d = last l' (last (b :: l) d)). apply IH.
Qed.
Lemma t_bind {S A B} (c : C S A) (f : A -> C S B) :
  tracked c -> (forall a, tracked (f a)) -> tracked (cbind c f).
Proof.
  intros H1 H2 s. specialize (H1 s). unfold cbind. destruct (c s) as [t [[a|p|] s']]; cbn in *; auto.
  specialize (H2 a s'). destruct (f a s') as [t' [o s'']]. cbn in *.
  rewrite last_app_last, H1. exact H2.
Qed.
Lemma t_ret {S A} (a : A) : tracked (S := S) (cret a).
Proof. intros s. reflexivity. Qed.
Lemma t_get {S} : tracked (S := S) cget.
Proof. intros s. reflexivity. Qed.
Lemma t_modify {S} (f : S -> S) : tracked (cmodify f).
Proof. intros s. reflexivity. Qed.
Lemma t_lift {S A} (o : outcome A) : tracked (S := S) (clift o).
Proof. intros s. reflexivity. Qed.
Lemma t_assert {S} b : tracked (S := S) (cassert b).
Proof. intros s. destruct b; reflexivity. Qed.
Lemma t_nofuel {S A} : tracked (@cnofuel S A).
Proof. intros s. reflexivity. Qed.
Lemma t_if {S A} (b : bool) (c d : C S A) : tracked c -> tracked d -> tracked (if b then c else d).
Proof. destruct b; auto. Qed.
Lemma t_for_each {S A} (f : A -> C S unit) l : (forall a, tracked (f a)) -> tracked (cfor_each f l).
Proof. intros H. induction l; cbn; [apply t_ret|apply t_bind; auto]. Qed.
Ltac track :=
  repeat match goal with
    | |- tracked (cbind _ _) => apply t_bind; [|intros]
    | |- tracked (if _ then _ else _) => apply t_if
    | |- tracked (cret _) => apply t_ret
    | |- tracked cget => apply t_get
    | |- tracked (cmodify _) => apply t_modify
    | |- tracked (clift _) => apply t_lift
    | |- tracked (cassert _) => apply t_assert
    | |- tracked cnofuel => apply t_nofuel
    | |- tracked (cfor_each _ _) => apply t_for_each; intros
    | |- tracked (match ?x with _ => _ end) => destruct x
    end.
Section Tracked.
  Context {K V : Type} (cmp : K -> K -> comparison) (veqb : V -> V -> bool) (st : stepfns K).
  Lemma t_adjust s sv r v : tracked (rmx_adjust_touching_ranges_for_insert cmp veqb s sv r v).
  Proof. unfold rmx_adjust_touching_ranges_for_insert. cbv zeta. track. Qed.
  Lemma t_adjust_remove s (sv : V) r : tracked (rmx_adjust_overlapping_ranges_for_remove cmp s sv r).
  Proof. unfold rmx_adjust_overlapping_ranges_for_remove. track. Qed.
  Lemma t_insert r v : tracked (rmx_insert cmp veqb r v).
  Proof.
    assert (HL : forall n x cur, tracked (rmx_insert_loop cmp veqb n cur v x)).
    { induction n as [|n IH]; intros x cur; cbn [rmx_insert_loop]; track; [apply t_adjust|apply IH]. }
    unfold rmx_insert. track; try apply HL; apply t_adjust.
  Qed.
  Lemma t_remove r : tracked (rmx_remove (V := V) cmp r).
  Proof.
    assert (HL : forall n x, tracked (rmx_remove_loop (V := V) cmp n r x)).
    { induction n as [|n IH]; intros x; cbn [rmx_remove_loop]; track; [apply t_adjust_remove|apply IH]. }
    unfold rmx_remove. track; try apply HL; apply t_adjust_remove.
  Qed.
  Lemma t_exec o : tracked (rmx_exec cmp veqb o).
  Proof.
    destruct o; cbn [rmx_exec]; [apply t_insert|apply t_remove|apply t_modify|].
    apply t_for_each. intros. apply t_insert.
  Qed.
  Lemma t_iadjust s sv r v : tracked (imx_adjust_touching_ranges_for_insert cmp veqb st s sv r v).
  Proof. unfold imx_adjust_touching_ranges_for_insert. cbv zeta. track. Qed.
  Lemma t_iadjust_remove s (sv : V) r : tracked (imx_adjust_overlapping_ranges_for_remove cmp st s sv r).
  Proof. unfold imx_adjust_overlapping_ranges_for_remove. track. Qed.
  Lemma t_iinsert r v : tracked (imx_insert cmp veqb st r v).
  Proof.
    assert (HL : forall n x cur, tracked (imx_insert_loop cmp veqb st n cur v x)).
    { induction n as [|n IH]; intros x cur; cbn [imx_insert_loop]; track; [apply t_iadjust|apply IH]. }
    unfold imx_insert. track; try apply HL; apply t_iadjust.
  Qed.
  Lemma t_iremove r : tracked (imx_remove (V := V) cmp st r).
  Proof.
    assert (HL : forall n x, tracked (imx_remove_loop (V := V) cmp st n r x)).
    { induction n as [|n IH]; intros x; cbn [imx_remove_loop]; track; [apply t_iadjust_remove|apply IH]. }
    unfold imx_remove. track; try apply HL; apply t_iadjust_remove.
  Qed.
  Lemma t_iexec o : tracked (imx_exec cmp veqb st o).
  Proof.
    destruct o; cbn [imx_exec]; [apply t_iinsert|apply t_iremove|apply t_modify|].
    apply t_for_each. intros. apply t_iinsert.
  Qed.
  Lemma crash_last {A} (c : C (rmap K V) A) s : tracked c -> last (crash_states c s) s = snd (snd (c s)).
  Proof.
    intros H. rewrite <- H. unfold crash_states. change (s :: fst (c s)) with ([s] ++ fst (c s)).
    rewrite last_app_last. reflexivity.
  Qed.
  Lemma icrash_last {A} (c : C (imap K V) A) s : tracked c -> last (crash_states c s) s = snd (snd (c s)).
  Proof.
    intros H. rewrite <- H. unfold crash_states. change (s :: fst (c s)) with ([s] ++ fst (c s)).
    rewrite last_app_last. reflexivity.
  Qed.
  Lemma record_faithful o m :
    snd (rmx_exec cmp veqb o m) = rm_exec cmp veqb o m /\
    last (crash_states (rmx_exec cmp veqb o) m) m = snd (rm_exec cmp veqb o m).
  Proof. split; [apply e_exec|]. rewrite crash_last by apply t_exec. f_equal. apply e_exec. Qed.
  Lemma irecord_faithful o m :
    snd (imx_exec cmp veqb st o m) = im_exec cmp veqb st o m /\
    last (crash_states (imx_exec cmp veqb st o) m) m = snd (im_exec cmp veqb st o m).
  Proof. split; [apply e_iexec|]. rewrite icrash_last by apply t_iexec. f_equal. apply e_iexec. Qed.
End Tracked.

(** ** Consecutive recorded states differ by one modification of the tree *)
Section Chained.
  Context {S : Type} (R : S -> S -> Prop).
  Fixpoint chain (s : S) (l : list S) : Prop :=
    match l with [] => True | x :: l' => R s x /\ chain x l' end.
  Lemma chain_app l l' : forall s, chain s l -> chain (last l s) l' -> chain s (l ++ l').
  Proof.
    induction l as [|x l IH]; intros s H1 H2; cbn in *; [exact H2|]. destruct H1 as [H0 H1].
    split; [exact H0|]. apply IH; [exact H1|]. destruct l as [|y l]; [exact H2|].
    revert H2. clear. change (last (x :: y :: l) s) with (last (y :: l) s).
    assert (HD : forall (t : list S) a d1 d2, last (a :: t) d1 = last (a :: t) d2).
    { induction t as [|b t IH]; intros a d1 d2; [reflexivity|]. apply (IH b d1 d2). }
    rewrite (HD l y s x). auto.
  Qed.
  Definition chained {A} (c : C S A) : Prop :=
    forall s, chain s (fst (c s)) /\ last (fst (c s)) s = snd (snd (c s)).
  Lemma ch_bind {A B} (c : C S A) (f : A -> C S B) :
    chained c -> (forall a, chained (f a)) -> chained (cbind c f).
  Proof.
    intros H1 H2 s. destruct (H1 s) as [H3 H4]. unfold cbind.
    destruct (c s) as [t [[a|p|] s']]; cbn in *; auto.
    destruct (H2 a s') as [H5 H6]. destruct (f a s') as [t' [o s'']]. cbn in *. subst s'.
    rewrite last_app_last. split; [apply chain_app; assumption|exact H6].
  Qed.
  Lemma ch_ret {A} (a : A) : chained (cret a).
  Proof. intros s. split; [exact I|reflexivity]. Qed.
  Lemma ch_get : chained cget.
  Proof. intros s. split; [exact I|reflexivity]. Qed.
  Lemma ch_modify f : (forall s, R s (f s)) -> chained (cmodify f).
  Proof. intros H s. split; [split; [apply H|exact I]|reflexivity]. Qed.
  Lemma ch_lift {A} (o : outcome A) : chained (clift o).
  Proof. intros s. split; [exact I|reflexivity]. Qed.
  Lemma ch_assert b : chained (cassert b).
  Proof. intros s. split; [exact I|destruct b; reflexivity]. Qed.
  Lemma ch_nofuel {A} : chained (@cnofuel S A).
  Proof. intros s. split; [exact I|reflexivity]. Qed.
  Lemma ch_if {A} (b : bool) (c d : C S A) : chained c -> chained d -> chained (if b then c else d).
  Proof. destruct b; auto. Qed.
End Chained.
Ltac chains :=
  repeat match goal with
    | |- chained _ (cbind _ _) => apply ch_bind; [|intros]
    | |- chained _ (if _ then _ else _) => apply ch_if
    | |- chained _ (cret _) => apply ch_ret
    | |- chained _ cget => apply ch_get
    | |- chained _ (cmodify _) => apply ch_modify; intros
    | |- chained _ (clift _) => apply ch_lift
    | |- chained _ (cassert _) => apply ch_assert
    | |- chained _ cnofuel => apply ch_nofuel
    | |- chained _ (match ?x with _ => _ end) => destruct x
    end.
(** one [BTreeMap::remove] or [BTreeMap::insert] *)
Definition bt_step {Q V} (c : Q -> Q -> comparison) (s s' : list (Q * V)) : Prop :=
  exists k, s' = bt_remove c k s \/ exists v, s' = bt_insert c k v s.
Lemma step_remove {Q V} (c : Q -> Q -> comparison) k (s : list (Q * V)) : bt_step c s (bt_remove c k s).
Proof. exists k. left. reflexivity. Qed.
Lemma step_insert {Q V} (c : Q -> Q -> comparison) k v (s : list (Q * V)) : bt_step c s (bt_insert c k v s).
Proof. exists k. right. exists v. reflexivity. Qed.
Section ChainedCalls.
  Context {K V : Type} (cmp : K -> K -> comparison) (veqb : V -> V -> bool) (st : stepfns K).
  Notation step := (@bt_step (rangei K) V (cmpi_start cmp)).
  Lemma ch_iadjust s sv r v : chained step (imx_adjust_touching_ranges_for_insert cmp veqb st s sv r v).
  Proof.
    unfold imx_adjust_touching_ranges_for_insert. cbv zeta. chains; try apply step_remove; apply step_insert.
  Qed.
  Lemma ch_iadjust_remove s (sv : V) r : chained step (imx_adjust_overlapping_ranges_for_remove cmp st s sv r).
  Proof.
    unfold imx_adjust_overlapping_ranges_for_remove. chains; try apply step_remove; apply step_insert.
  Qed.
  Lemma ch_iinsert r v : chained step (imx_insert cmp veqb st r v).
  Proof.
    assert (HL : forall n x cur, chained step (imx_insert_loop cmp veqb st n cur v x)).
    { induction n as [|n IH]; intros x cur; cbn [imx_insert_loop]; chains; [apply ch_iadjust|apply IH]. }
    unfold imx_insert. chains; try apply HL; try apply ch_iadjust; apply step_insert.
  Qed.
  Lemma ch_iremove r : chained step (imx_remove (V := V) cmp st r).
  Proof.
    assert (HL : forall n x, chained step (imx_remove_loop (V := V) cmp st n r x)).
    { induction n as [|n IH]; intros x; cbn [imx_remove_loop]; chains; [apply ch_iadjust_remove|apply IH]. }
    unfold imx_remove. chains; try apply HL; apply ch_iadjust_remove.
  Qed.
  Lemma ch_for_each {S A} (R : S -> S -> Prop) (f : A -> C S unit) l :
    (forall a, chained R (f a)) -> chained R (cfor_each f l).
  Proof. intros H. induction l as [|a l IH]; cbn [cfor_each]; chains; auto. Qed.
  Lemma ch_iexec o : o <> OClear -> chained step (imx_exec cmp veqb st o).
  Proof.
    destruct o; intros H; cbn [imx_exec]; try contradiction.
    - apply ch_iinsert.
    - apply ch_iremove.
    - apply ch_for_each. intros e. apply ch_iinsert.
  Qed.

  Notation hstep := (@bt_step (range K) V (cmp_start cmp)).
  Lemma ch_adjust s sv r v : chained hstep (rmx_adjust_touching_ranges_for_insert cmp veqb s sv r v).
  Proof.
    unfold rmx_adjust_touching_ranges_for_insert. cbv zeta. chains; try apply step_remove; apply step_insert.
  Qed.
  Lemma ch_adjust_remove s (sv : V) r : chained hstep (rmx_adjust_overlapping_ranges_for_remove cmp s sv r).
  Proof.
    unfold rmx_adjust_overlapping_ranges_for_remove. chains; try apply step_remove; apply step_insert.
  Qed.
  Lemma ch_insert r v : chained hstep (rmx_insert cmp veqb r v).
  Proof.
    assert (HL : forall n x cur, chained hstep (rmx_insert_loop cmp veqb n cur v x)).
    { induction n as [|n IH]; intros x cur; cbn [rmx_insert_loop]; chains; [apply ch_adjust|apply IH]. }
    unfold rmx_insert. chains; try apply HL; try apply ch_adjust; apply step_insert.
  Qed.
  Lemma ch_remove r : chained hstep (rmx_remove (V := V) cmp r).
  Proof.
    assert (HL : forall n x, chained hstep (rmx_remove_loop (V := V) cmp n r x)).
    { induction n as [|n IH]; intros x; cbn [rmx_remove_loop]; chains; [apply ch_adjust_remove|apply IH]. }
    unfold rmx_remove. chains; try apply HL; apply ch_adjust_remove.
  Qed.
  Lemma ch_exec o : o <> OClear -> chained hstep (rmx_exec cmp veqb o).
  Proof.
    destruct o; intros H; cbn [rmx_exec]; try contradiction.
    - apply ch_insert.
    - apply ch_remove.
    - apply ch_for_each. intros e. apply ch_insert.
  Qed.

  Lemma bt_step_one {Q W} (c : Q -> Q -> comparison) (s s' : list (Q * W)) : bt_step c s s' -> one_change s s'.
  Proof.
    assert (HC : forall x (l l' : list (Q * W)), one_change l l' -> one_change (x :: l) (x :: l')).
    { intros x l l' [-> | (a & b & y & [[-> ->] | [[-> ->] | (z & -> & ->)]])]; [left; reflexivity|right..];
        exists (x :: a), b, y; [left|right; left|right; right]; cbn; eauto. }
    intros [k [-> | [v ->]]]; induction s as [|[k' v'] s IH]; cbn.
    - left. reflexivity.
    - destruct (c k k'); [|left; reflexivity|apply HC, IH].
      right. exists [], s, (k', v'). left. split; reflexivity.
    - right. exists [], [], (k, v). right; left. split; reflexivity.
    - destruct (c k k'); [| |apply HC, IH]; right.
      + exists [], s, (k', v'). right; right. exists (k', v). split; reflexivity.
      + exists [], ((k', v') :: s), (k, v). right; left. split; reflexivity.
  Qed.
  Lemma chain_stepwise {S} (R R' : S -> S -> Prop) l : (forall s s', R s s' -> R' s s') ->
    forall s, chain R s l -> stepwise R' (s :: l).
  Proof.
    intros HR. induction l as [|x l IH]; intros s H; [cbn; auto|]. destruct H as [H1 H2].
    split; [apply HR, H1|]. apply IH, H2.
  Qed.
  Lemma exec_stepwise o m : o <> OClear -> stepwise one_change (crash_states (rmx_exec cmp veqb o) m).
  Proof.
    intros H. apply (chain_stepwise _ _ _ (bt_step_one (cmp_start cmp))). apply (ch_exec o H m).
  Qed.
  Lemma iexec_stepwise o m : o <> OClear -> stepwise one_change (crash_states (imx_exec cmp veqb st o) m).
  Proof.
    intros H. apply (chain_stepwise _ _ _ (bt_step_one (cmpi_start cmp))). apply (ch_iexec o H m).
  Qed.
End ChainedCalls.

(** An entry whose place in the order is never left vacant, nor taken over with
    another value, is never touched. *)
Section Keeps.
  Context {Q V : Type} (c : Q -> Q -> comparison) (HO : TotalOrd c).
  Notation sorted := (StronglySorted (fun a b : Q * V => c (fst a) (fst b) = Lt)).
  Notation alive s e := (exists y : Q * V, In y s /\ c (fst y) (fst e) = Eq /\ snd y = snd e).
  Lemma step_keeps s s' e : sorted s -> sorted s' -> bt_step c s s' -> In e s -> alive s' e -> In e s'.
  Proof.
    intros HS _ (k & [-> | [v ->]]) Hi Ha; revert HS Hi Ha; induction s as [|[k' v'] s IH]; cbn;
      intros HS Hi (y & Hy & E1 & E2); try contradiction; apply SS_cons in HS as [HS HL].
    - destruct (c k k') eqn:E; [|exact Hi|].
      + destruct Hi as [<-|Hi]; [|exact Hi]. specialize (HL y Hy). cbn in *. exfalso. ord.
      + destruct Hi as [<-|Hi]; [left; reflexivity|right]. destruct Hy as [<-|Hy].
        * specialize (HL e Hi). cbn in *. exfalso. ord.
        * apply IH; auto. exists y. auto.
    - destruct (c k k') eqn:E; [|right; exact Hi|].
      + destruct Hi as [<-|Hi]; [|right; exact Hi]. destruct Hy as [<-|Hy].
        * cbn in E2. subst v'. left. reflexivity.
        * specialize (HL y Hy). cbn in *. exfalso. ord.
      + destruct Hi as [<-|Hi]; [left; reflexivity|right]. destruct Hy as [<-|Hy].
        * specialize (HL e Hi). cbn in *. exfalso. ord.
        * apply IH; auto. exists y. auto.
  Qed.
  Lemma chain_keeps l e : forall s, chain (bt_step c) s l -> sorted s ->
    (forall x, In x l -> sorted x /\ alive x e) -> In e s -> forall x, In x (s :: l) -> In e x.
  Proof.
    induction l as [|a l IH]; intros s Hc Hs Hl Hi x [<-|Hx]; auto; [destruct Hx|].
    destruct Hc as [Hc1 Hc2]. destruct (Hl a (or_introl eq_refl)) as [A1 A2].
    apply (IH a); auto.
    - intros y Hy. apply Hl. right. exact Hy.
    - apply (step_keeps s); auto.
  Qed.
End Keeps.

(** ** An invariant at every recorded state *)
Section Good.
  Context {S : Type} (J : S -> Prop).
  Definition good {A} (c : C S A) (s : S) (Q : A -> S -> Prop) : Prop :=
    Forall J (fst (c s)) /\
    match snd (c s) with (Ret a, s') => Q a s' | (_, s') => J s' end.
  Lemma good_bind {A B} (c : C S A) (f : A -> C S B) s Q Q' :
    good c s Q -> (forall a s', Q a s' -> good (f a) s' Q') -> good (cbind c f) s Q'.
  Proof.
    intros [H1 H2] H3. unfold good, cbind. destruct (c s) as [t [[a|p|] s']]; cbn in *; auto.
    destruct (H3 a s' H2) as [H4 H5]. destruct (f a s') as [t' x]. cbn in *.
    split; [apply Forall_app; auto|exact H5].
  Qed.
  Lemma good_ret {A} (a : A) s (Q : A -> S -> Prop) : Q a s -> good (cret a) s Q.
  Proof. intros H. split; [constructor|exact H]. Qed.
  Lemma good_get s (Q : S -> S -> Prop) : Q s s -> good cget s Q.
  Proof. intros H. split; [constructor|exact H]. Qed.
  Lemma good_modify f s (Q : unit -> S -> Prop) : J (f s) -> Q tt (f s) -> good (cmodify f) s Q.
  Proof. intros H1 H2. split; [repeat constructor; exact H1|exact H2]. Qed.
  Lemma good_lift {A} (o : outcome A) s (Q : A -> S -> Prop) :
    J s -> (forall a, o = Ret a -> Q a s) -> good (clift o) s Q.
  Proof. intros H1 H2. split; [constructor|]. destruct o; cbn; auto. Qed.
  Lemma good_nofuel {A} s (Q : A -> S -> Prop) : J s -> good cnofuel s Q.
  Proof. intros H. split; [constructor|exact H]. Qed.
  Lemma good_weaken {A} (c : C S A) s (Q Q' : A -> S -> Prop) :
    good c s Q -> (forall a s', Q a s' -> Q' a s') -> good c s Q'.
  Proof.
    intros [H1 H2] H3. split; [exact H1|]. destruct (snd (c s)) as [[a|p|] s']; auto.
  Qed.
  (** every recorded state except possibly the last one satisfies [J] *)
  Definition goodL {A} (c : C S A) (s : S) : Prop :=
    exists T, (fst (c s) = T \/ exists x, fst (c s) = T ++ [x]) /\ Forall J T.
  Lemma goodL_bind {A B} (c : C S A) (f : A -> C S B) s Q :
    good c s Q -> (forall a s', Q a s' -> goodL (f a) s') -> goodL (cbind c f) s.
  Proof.
    intros [H1 H2] H3. unfold goodL, cbind.
    destruct (c s) as [t [[a|p|] s']]; cbn in *; [|exists t; auto|exists t; auto].
    destruct (H3 a s' H2) as (T & HT & HF). destruct (f a s') as [t' y]. cbn in *. exists (t ++ T).
    split; [|apply Forall_app; auto]. destruct HT as [-> | [x ->]]; [left; reflexivity|right; exists x].
    apply app_assoc.
  Qed.
  Lemma goodL_modify f s : goodL (cmodify f) s.
  Proof. exists []. split; [right; exists (f s); reflexivity|constructor]. Qed.
End Good.

Lemma range_In {Q V} (c : Q -> Q -> comparison) lo hi (m l : list (Q * V)) e :
  bt_range c lo hi m = Ret l -> In e l -> In e m /\ above c hi (fst e) = false.
Proof.
  unfold bt_range. destruct (bad_bounds c lo hi); [discriminate|]. intros [= <-] He.
  split; [apply take_while_sub in He; apply drop_while_sub in He; exact He|].
  apply take_while_In in He. cbn in He. apply negb_true_iff. exact He.
Qed.
Lemma range_first {Q V} (c : Q -> Q -> comparison) lo hi (m l : list (Q * V)) e :
  bt_range c lo hi m = Ret l -> fst (it_next l) = Some e ->
  In e m /\ above c hi (fst e) = false /\ below c lo (fst e) = false.
Proof.
  intros H1 H2. assert (H3 : In e l) by (destruct l; [discriminate|]; injection H2 as ->; left; reflexivity).
  destruct (range_In c lo hi m l e H1 H3) as [H4 H5]. splits; auto.
  unfold bt_range in H1. destruct (bad_bounds c lo hi); [discriminate|]. injection H1 as <-.
  clear H3 H4 H5. induction m as [|a m IH]; cbn in *; [discriminate|].
  destruct (below c lo (fst a)) eqn:E; [auto|]. cbn in H2.
  destruct (negb (above c hi (fst a))); cbn in H2; [|discriminate]. congruence.
Qed.

Section Half.
  Context {K V : Type} {cmp : K -> K -> comparison} {veqb : V -> V -> bool}.
  Context (HO : TotalOrd cmp) (HV : PartialEquiv veqb).

  Notation ltb := (ltb cmp).
  Notation leb := (leb cmp).
  Notation eqb := (eqb cmp).
  Notation c_start := (cmp_start cmp).
  Notation entry := (range K * V)%type.
  Notation st e := (r_start (fst e)).
  Notation en e := (r_end (fst e)).
  Notation WF := (@WF K V cmp veqb).
  Notation sep := (@sep K V cmp veqb).
  Notation lk := (@lk K V cmp).

  Definition touch (r : range K) (a : range K) : bool :=
    leb (r_start a) (r_end r) && leb (r_start r) (r_end a).

  (** the entries a call may change: [insert] those sharing a key with [r], and
      those of its value touching [r]; [remove] those sharing a key with [r] *)
  Definition hit (r : range K) (v : V) (e : entry) : bool :=
    meets cmp r (fst e) || touch r (fst e) && veqb (snd e) v.
  Definition hits (r : range K) (e : entry) : bool := meets cmp r (fst e).

  (** [m] is a part of [m0] that still has every entry not satisfying [P] *)
  Definition part (P : entry -> bool) (m0 m : rmap K V) : Prop :=
    WF m /\ (forall k, lk m k = lk m0 k \/ lk m k = None) /\
    (forall e, In e m0 -> P e = false -> In e m).

  Lemma part_refl P m : WF m -> part P m m.
  Proof. intros H. unfold part. splits; auto. Qed.

  Lemma split_In m (e : entry) : WF m -> In e m -> exists A B, m = A ++ e :: B /\
    WF A /\ WF B /\ ltb (st e) (en e) = true /\
    (forall a, In a A -> sep a e) /\ (forall b, In b B -> sep e b) /\
    (forall a b, In a A -> In b B -> sep a b).
  Proof.
    intros HW Hi. apply in_split in Hi as (A & B & ->). exists A, B.
    apply WF_app in HW as (H1 & H2 & H3). apply WF_cons in H2 as (H4 & H5 & H6).
    splits; auto.
    - intros a Ha. apply H3; [exact Ha|left; reflexivity].
    - intros a b Ha Hb. apply H3; [exact Ha|right; exact Hb].
  Qed.

  (** replacing an entry by pieces of it *)
  Lemma part_replace P m0 A (e : entry) B (Ps : rmap K V) :
    part P m0 (A ++ e :: B) -> P e = true -> WF Ps ->
    (forall p, In p Ps -> leb (st e) (st p) = true /\ leb (en p) (en e) = true /\ snd p = snd e) ->
    part P m0 (A ++ Ps ++ B).
  Proof.
    intros (HW & H1 & H2) HP HPs Hin.
    assert (HW0 := HW). apply WF_app in HW as (WA & W2 & W3). apply WF_cons in W2 as (W4 & WB & W5).
    assert (HW' : WF (A ++ Ps ++ B)).
    { apply WF_app. splits; auto.
      - apply WF_app. splits; auto. intros p b Hp Hb. destruct (Hin p Hp) as (I1 & I2 & I3).
        destruct (W5 b Hb) as [S1 S2]. split; [ord|]. intros E. rewrite I3. apply S2. ord.
      - intros a p Ha Hp. apply in_app_or in Hp as [Hp|Hp].
        + destruct (Hin p Hp) as (I1 & I2 & I3).
          destruct (W3 a e Ha (or_introl eq_refl)) as [S1 S2]. split; [ord|].
          intros E. rewrite I3. apply S2. ord.
        + apply W3; [exact Ha|right; exact Hp]. }
    unfold part. splits; auto.
    - intros k. destruct (lk (A ++ Ps ++ B) k) as [v|] eqn:E; [left|right; reflexivity].
      destruct (H1 k) as [Hk|Hk].
      + rewrite <- Hk. symmetry. apply lk_In in E as (r & Hr & Hc).
        apply in_app_or in Hr as [Hr|Hr]; [|apply in_app_or in Hr as [Hr|Hr]].
        * apply (lk_WF_In (veqb := veqb) HO _ r); auto. apply in_or_app. left; exact Hr.
        * destruct (Hin _ Hr) as (I1 & I2 & I3). cbn in I1, I2, I3. subst v.
          apply (lk_WF_In (veqb := veqb) HO _ (fst e)); auto; [apply in_or_app; right; left; destruct e; reflexivity|].
          unfold r_contains in *. ord.
        * apply (lk_WF_In (veqb := veqb) HO _ r); auto. apply in_or_app. right; right; exact Hr.
      + exfalso. rewrite lk_None in Hk. apply lk_In in E as (r & Hr & Hc).
        apply in_app_or in Hr as [Hr|Hr]; [|apply in_app_or in Hr as [Hr|Hr]].
        * rewrite (Hk r v) in Hc; [discriminate|]. apply in_or_app. left; exact Hr.
        * destruct (Hin _ Hr) as (I1 & I2 & I3). cbn in I1, I2, I3.
          assert (Q : r_contains cmp (fst e) k = false).
          { apply (Hk (fst e) (snd e)). apply in_or_app. right; left; destruct e; reflexivity. }
          unfold r_contains in *. ord.
        * rewrite (Hk r v) in Hc; [discriminate|]. apply in_or_app. right; right; exact Hr.
    - intros x Hx HPx. specialize (H2 x Hx HPx). apply in_app_or in H2 as [H2|[H2|H2]].
      + apply in_or_app; left; exact H2.
      + subst x. congruence.
      + apply in_or_app; right; apply in_or_app; right; exact H2.
  Qed.

  Lemma sep_lt (a b : entry) : ltb (st a) (en a) = true -> sep a b -> ltb (st a) (st b) = true.
  Proof. intros H [S1 _]. ord. Qed.

  (** the pieces of [e] left and right of [r] *)
  Definition lpiece (e : entry) (r : range K) : rmap K V :=
    if ltb (st e) (r_start r) then [(mkR (st e) (r_start r), snd e)] else [].
  Definition rpiece (e : entry) (r : range K) : rmap K V :=
    if gtb cmp (en e) (r_end r) then [(mkR (r_end r) (en e), snd e)] else [].

  (** cutting [r] out of [e] by remove, then insert left piece, then right *)
  Lemma good_cut P m0 (s : range K) sv r m :
    part P m0 m -> In (s, sv) m -> P (s, sv) = true -> ltb (r_start r) (r_end r) = true ->
    meets cmp r s = true ->
    exists A B, m = A ++ (s, sv) :: B /\
      good (part P m0) (rmx_adjust_overlapping_ranges_for_remove cmp s sv r) m
        (fun _ m' => part P m0 m' /\ m' = A ++ lpiece (s, sv) r ++ rpiece (s, sv) r ++ B).
  Proof.
    intros HJ Hin HP Hr Hm. pose proof HJ as (HW & _ & _).
    destruct (split_In m (s, sv) HW Hin) as (A & B & -> & WA & WB & Hs & HA & HB & HAB).
    exists A, B. split; [reflexivity|].
    assert (LA : forall a, In a A -> ltb (st a) (r_start s) = true).
    { intros a Ha. apply (sep_lt a (s, sv)); [apply WA; exact Ha|apply HA; exact Ha]. }
    assert (LB : forall b, In b B -> leb (r_end s) (st b) = true).
    { intros b Hb. apply (HB b Hb). }
    cbn in Hs. unfold meets in Hm.
    unfold rmx_adjust_overlapping_ranges_for_remove.
    eapply (good_bind _ _ _ _ (fun _ m' => m' = A ++ B)).
    { assert (E : bt_remove c_start s (A ++ (s, sv) :: B) = A ++ B) by (apply (bt_remove_split' HO); exact LA).
      apply good_modify; rewrite E; [|reflexivity].
      apply (part_replace P m0 A (s, sv) B []); auto; [apply WF_nil|intros p []]. }
    intros _ m' ->. unfold lpiece, rpiece. cbn [fst snd].
    assert (Wl : ltb (r_start s) (r_start r) = true -> WF [(mkR (r_start s) (r_start r), sv)]).
    { intros E. apply WF_cons. splits; [exact E|apply WF_nil|intros b []]. }
    assert (Wr : gtb cmp (r_end s) (r_end r) = true -> WF [(mkR (r_end r) (r_end s), sv)]).
    { intros E. apply WF_cons. splits; [exact E|apply WF_nil|intros b []]. }
    eapply (good_bind _ _ _ _ (fun _ m' => m' = A ++ (if ltb (r_start s) (r_start r)
        then [(mkR (r_start s) (r_start r), sv)] else []) ++ B)).
    { destruct (ltb (r_start s) (r_start r)) eqn:E.
      - assert (E1 : bt_insert c_start (mkR (r_start s) (r_start r)) sv (A ++ B) =
            A ++ [(mkR (r_start s) (r_start r), sv)] ++ B).
        { apply (bt_insert_split HO); cbn; [exact LA|]. intros b Hb. specialize (LB b Hb). ord. }
        apply good_modify; rewrite E1; [|reflexivity].
        apply (part_replace P m0 A (s, sv)); auto.
        intros p [<-|[]]. cbn. splits; auto; ord.
      - apply good_ret. reflexivity. }
    intros _ m' ->. destruct (gtb cmp (r_end s) (r_end r)) eqn:E2; unfold gtb in E2.
    - set (Ls := if ltb (r_start s) (r_start r) then [(mkR (r_start s) (r_start r), sv)] else []).
      assert (E1 : bt_insert c_start (mkR (r_end r) (r_end s)) sv (A ++ Ls ++ B) =
            A ++ Ls ++ [(mkR (r_end r) (r_end s), sv)] ++ B).
      { rewrite !(app_assoc A Ls). apply (bt_insert_split HO); cbn.
        - intros a Ha. apply in_app_or in Ha as [Ha|Ha]; [specialize (LA a Ha); ord|].
          unfold Ls in Ha. destruct (ltb (r_start s) (r_start r)) eqn:E; [|destruct Ha].
          destruct Ha as [<-|[]]. cbn. ord.
        - intros b Hb. specialize (LB b Hb). ord. }
      assert (HJ' : part P m0 (A ++ Ls ++ [(mkR (r_end r) (r_end s), sv)] ++ B)).
      { rewrite (app_assoc Ls). apply (part_replace P m0 A (s, sv)); auto.
        - apply WF_app. splits; auto.
          + unfold Ls. destruct (ltb (r_start s) (r_start r)) eqn:E; auto. apply WF_nil.
          + intros a b Ha [<-|[]]. unfold Ls in Ha.
            destruct (ltb (r_start s) (r_start r)) eqn:E; [|destruct Ha].
            destruct Ha as [<-|[]]. split; cbn; [ord|intros X; exfalso; ord].
        - intros p Hp. apply in_app_or in Hp as [Hp|[<-|[]]]; [|cbn; splits; auto; ord].
          unfold Ls in Hp. destruct (ltb (r_start s) (r_start r)) eqn:E; [|destruct Hp].
          destruct Hp as [<-|[]]. cbn. splits; auto; ord. }
      apply good_modify; rewrite E1; auto.
    - apply good_ret. split; [|reflexivity]. cbn [app].
      apply (part_replace P m0 A (s, sv)); auto.
      + destruct (ltb (r_start s) (r_start r)) eqn:E; auto. apply WF_nil.
      + intros p Hp. destruct (ltb (r_start s) (r_start r)) eqn:E; [|destruct Hp].
        destruct Hp as [<-|[]]. cbn. splits; auto; ord.
  Qed.

  Lemma meets_overlaps (s r : range K) : r_overlaps cmp s r = true -> meets cmp r s = true.
  Proof.
    unfold r_overlaps, meets, kmax, kmin.
    destruct (ltb (r_start r) (r_start s)) eqn:E1, (ltb (r_end r) (r_end s)) eqn:E2;
      intros H; ord.
  Qed.
  Lemma touch_touches (s r : range K) : r_touches cmp s r = true -> touch r s = true.
  Proof.
    unfold r_touches, touch, kmax, kmin.
    destruct (ltb (r_start r) (r_start s)) eqn:E1, (ltb (r_end r) (r_end s)) eqn:E2;
      intros H; ord.
  Qed.

  (** *** [remove] *)
  Lemma good_remove_loop m0 r x fuel : r_start x = r_end r -> ltb (r_start r) (r_end r) = true ->
    forall m, part (hits r) m0 m ->
    good (part (hits r) m0) (rmx_remove_loop cmp fuel r x) m (fun _ m' => part (hits r) m0 m').
  Proof.
    intros Hx Hr. induction fuel as [|n IH]; intros m Hm; cbn [rmx_remove_loop].
    { apply good_nofuel. exact Hm. }
    eapply (good_bind _ _ _ _ (fun a m' => a = m /\ m' = m)); [apply good_get; auto|].
    intros a m' [-> ->].
    eapply (good_bind _ _ _ _ (fun l m' => bt_range c_start (Excluded r) (Excluded x) m = Ret l /\ m' = m)).
    { apply good_lift; [exact Hm|]. intros l Hl. auto. }
    intros l m' [Hl ->]. destruct (fst (it_next l)) as [[s sv]|] eqn:En; [|apply good_ret; exact Hm].
    destruct (range_first _ _ _ _ _ _ Hl En) as (I1 & I2 & I3). cbn in I2, I3. unfold cmp_start in *.
    assert (Hs : ltb (r_start s) (r_end s) = true) by (destruct Hm as (HW & _); apply (proj2 HW _ I1)).
    assert (Hov : meets cmp r s = true).
    { unfold meets. rewrite Hx in I2.
      destruct (cmp (r_start s) (r_end r)) eqn:E1; try discriminate.
      destruct (cmp (r_start s) (r_start r)) eqn:E2; try discriminate. ord. }
    destruct (good_cut (hits r) m0 s sv r m Hm I1 Hov Hr Hov) as (A & B & _ & HG).
    eapply good_bind; [exact HG|]. intros _ m' [Hm' _]. apply IH. exact Hm'.
  Qed.
  Lemma good_remove m r : WF m ->
    good (part (hits r) m) (rmx_remove cmp r) m (fun _ m' => part (hits r) m m').
  Proof.
    intros HW. pose proof (part_refl (hits r) m HW) as Hm. unfold rmx_remove.
    eapply (good_bind _ _ _ _ (fun _ m' => ltb (r_start r) (r_end r) = true /\ m' = m)).
    { unfold cassert, assert_. split; [constructor|]. cbn.
      destruct (ltb (r_start r) (r_end r)); cbn; auto. }
    intros _ m' [Hr ->].
    eapply (good_bind _ _ _ _ (fun a m' => a = m /\ m' = m)); [apply good_get; auto|].
    intros a m' [-> ->].
    eapply (good_bind _ _ _ _ (fun l m' => bt_range c_start Unbounded (Included r) m = Ret l /\ m' = m)).
    { apply good_lift; [exact Hm|]. intros l Hl. auto. }
    intros l m' [Hl ->].
    eapply (good_bind _ _ _ _ (fun _ m' => part (hits r) m m')).
    { destruct (last_opt l) as [[s sv]|] eqn:En; [|apply good_ret; exact Hm].
      destruct (r_overlaps cmp s r) eqn:Eo; [|apply good_ret; exact Hm].
      apply meets_overlaps in Eo. apply last_opt_In in En.
      destruct (range_In _ _ _ _ _ _ Hl En) as [I1 _].
      destruct (good_cut (hits r) m s sv r m Hm I1 Eo Hr Eo) as (A & B & _ & HG).
      eapply good_weaken; [exact HG|]. intros _ m' [H _]. exact H. }
    intros _ m' Hm'.
    eapply (good_bind _ _ _ _ (fun a m'' => a = m' /\ m'' = m')); [apply good_get; auto|].
    intros a m'' [-> ->]. apply good_remove_loop; auto.
  Qed.

  (** *** [insert] *)

  (** [cur] is [r] grown by adopted entries, all of which touched [r] and have its value *)
  Definition grown (r : range K) (v : V) (cur : range K) (m : rmap K V) : Prop :=
    ltb (r_start cur) (r_end cur) = true /\
    (forall e, In e m -> meets cmp cur (fst e) = true -> hit r v e = true) /\
    (forall e, In e m -> touch cur (fst e) = true -> veqb (snd e) v = true -> hit r v e = true).

  Lemma good_adjust m0 r v cur s sv m :
    part (hit r v) m0 m -> grown r v cur m -> In (s, sv) m -> touch cur s = true ->
    good (part (hit r v) m0) (rmx_adjust_touching_ranges_for_insert cmp veqb s sv cur v) m
      (fun cur' m' => part (hit r v) m0 m' /\ grown r v cur' m').
  Proof.
    intros HJ (G1 & G2 & G3) Hin Ht. unfold rmx_adjust_touching_ranges_for_insert.
    destruct (veqb sv v) eqn:Ev.
    - pose proof HJ as (HW & _ & _).
      destruct (split_In m (s, sv) HW Hin) as (A & B & -> & WA & WB & Hs & HA & HB & HAB).
      cbn in Hs.
      assert (E : bt_remove c_start s (A ++ (s, sv) :: B) = A ++ B).
      { apply (bt_remove_split' HO). intros a Ha.
        apply (sep_lt a (s, sv)); [apply WA; exact Ha|apply HA; exact Ha]. }
      assert (HJ' : part (hit r v) m0 (A ++ B)).
      { apply (part_replace (hit r v) m0 A (s, sv) B []);
          [exact HJ|apply (G3 (s, sv)); auto|apply WF_nil|intros p []]. }
      cbv zeta. eapply (good_bind _ _ _ _ (fun _ m' => m' = A ++ B)).
      { apply good_modify; rewrite E; auto. }
      intros _ m' ->. apply good_ret. split; [exact HJ'|].
      assert (Hinc : forall e, In e (A ++ B) -> In e (A ++ (s, sv) :: B)).
      { intros e He. apply in_app_or in He as [He|He]; apply in_or_app; [left|right; right]; exact He. }
      assert (Hsep : forall e, In e (A ++ B) -> ltb (st e) (en e) = true /\
        (leb (en e) (r_start s) = true /\ (eqb (en e) (r_start s) = true -> veqb (snd e) sv = false) \/
         leb (r_end s) (st e) = true /\ (eqb (r_end s) (st e) = true -> veqb sv (snd e) = false))).
      { intros e He. split; [apply (proj2 HW), Hinc, He|].
        apply in_app_or in He as [He|He]; [left; exact (HA e He)|right; exact (HB e He)]. }
      unfold touch in Ht. unfold grown, kmin, kmax. cbn [r_start r_end]. splits.
      + destruct (ltb (r_start s) (r_start cur)) eqn:E1, (ltb (r_end s) (r_end cur)) eqn:E2; ord.
      + intros e He Hm. specialize (G2 e (Hinc e He)). specialize (Hsep e He) as [Hv Hsep].
        apply G2. unfold meets in *. cbn [r_start r_end] in Hm.
        destruct Hsep as [[Q _]|[Q _]];
          destruct (ltb (r_start s) (r_start cur)) eqn:E1, (ltb (r_end s) (r_end cur)) eqn:E2; ord.
      + intros e He Hm Hve. specialize (G3 e (Hinc e He)). specialize (Hsep e He) as [Hv Hsep].
        assert (Hd1 : veqb (snd e) sv = true).
        { apply (veq_trans _ HV) with v; [exact Hve|apply (veq_sym _ HV); exact Ev]. }
        assert (Hd2 : veqb sv (snd e) = true) by (apply (veq_sym _ HV); exact Hd1).
        apply G3; [|exact Hve]. unfold touch in *. cbn [r_start r_end] in Hm.
        destruct Hsep as [[Q1 Q2]|[Q1 Q2]].
        * rewrite Hd1 in Q2. destruct (eqb (en e) (r_start s)) eqn:E3; [discriminate (Q2 eq_refl)|].
          destruct (ltb (r_start s) (r_start cur)) eqn:E1, (ltb (r_end s) (r_end cur)) eqn:E2; ord.
        * rewrite Hd2 in Q2. destruct (eqb (r_end s) (st e)) eqn:E3; [discriminate (Q2 eq_refl)|].
          destruct (ltb (r_start s) (r_start cur)) eqn:E1, (ltb (r_end s) (r_end cur)) eqn:E2; ord.
    - destruct (r_overlaps cmp cur s) eqn:Eo.
      2:{ apply good_ret. split; [exact HJ|]. unfold grown. splits; auto. }
      assert (Hm : meets cmp cur s = true).
      { apply meets_overlaps in Eo. unfold meets in *. ord. }
      assert (HP : hit r v (s, sv) = true) by (apply (G2 (s, sv)); auto).
      destruct (good_cut (hit r v) m0 s sv cur m HJ Hin HP G1 Hm) as (A & B & -> & HG).
      unfold rmx_adjust_overlapping_ranges_for_remove in HG.
      match goal with |- good _ (cbind ?a (fun _ => cbind ?b (fun _ => cbind ?c (fun _ => ?d)))) _ _ =>
        assert (HA : forall s, cbind a (fun _ => cbind b (fun _ => cbind c (fun _ => d))) s =
          cbind (cbind a (fun _ => cbind b (fun _ => c))) (fun _ => d) s) end.
      { intros z. unfold cbind, cmodify, cret. cbn.
        destruct (ltb (r_start s) (r_start cur)), (gtb cmp (r_end s) (r_end cur)); reflexivity. }
      unfold good. rewrite HA. fold (good (part (hit r v) m0) (cbind
        (cmodify (bt_remove c_start s) ;;; (if ltb (r_start s) (r_start cur)
            then cmodify (bt_insert c_start (mkR (r_start s) (r_start cur)) sv) else cret tt) ;;;
         (if gtb cmp (r_end s) (r_end cur)
          then cmodify (bt_insert c_start (mkR (r_end cur) (r_end s)) sv) else cret tt))%C
        (fun _ => cret cur)) (A ++ (s, sv) :: B)
        (fun cur' m' => part (hit r v) m0 m' /\ grown r v cur' m')).
      eapply good_bind; [exact HG|]. intros _ m' [HJ' ->]. apply good_ret. split; [exact HJ'|].
      assert (Hc : forall e, In e (A ++ lpiece (s, sv) cur ++ rpiece (s, sv) cur ++ B) ->
        In e (A ++ (s, sv) :: B) \/ (snd e = sv /\ meets cmp cur (fst e) = false)).
      { intros e He. apply in_app_or in He as [He|He]; [left; apply in_or_app; left; exact He|].
        apply in_app_or in He as [He|He].
        { unfold lpiece in He. cbn in He. destruct (ltb (r_start s) (r_start cur)) eqn:E1; [|destruct He].
          destruct He as [<-|[]]. right. unfold meets. cbn. split; [reflexivity|ord]. }
        apply in_app_or in He as [He|He].
        { unfold rpiece in He. cbn in He. destruct (gtb cmp (r_end s) (r_end cur)) eqn:E1; [|destruct He].
          destruct He as [<-|[]]. right. unfold meets, gtb in *. cbn. split; [reflexivity|ord]. }
        left. apply in_or_app. right; right; exact He. }
      unfold grown. splits; auto.
      + intros e He Hme. destruct (Hc e He) as [Hi|[_ Hi]]; [auto|congruence].
      + intros e He Hte Hve. destruct (Hc e He) as [Hi|[Hi _]]; [auto|congruence].
  Qed.

  Lemma good_insert_loop m0 r v x fuel : forall cur m,
    part (hit r v) m0 m -> grown r v cur m -> leb (r_start x) (r_end cur) = true ->
    good (part (hit r v) m0) (rmx_insert_loop cmp veqb fuel cur v x) m
      (fun _ m' => part (hit r v) m0 m').
  Proof.
    induction fuel as [|n IH]; intros cur m Hm HG Hx; cbn [rmx_insert_loop].
    { apply good_nofuel. exact Hm. }
    eapply (good_bind _ _ _ _ (fun a m' => a = m /\ m' = m)); [apply good_get; auto|].
    intros a m' [-> ->].
    eapply (good_bind _ _ _ _ (fun l m' => bt_range c_start (Included cur) (Included x) m = Ret l /\ m' = m)).
    { apply good_lift; [exact Hm|]. intros l Hl. auto. }
    intros l m' [Hl ->]. destruct (fst (it_next l)) as [[s sv]|] eqn:En; [|apply good_ret; exact Hm].
    destruct (eqb (r_start s) (r_end cur) && negb (veqb sv v)); [apply good_ret; exact Hm|].
    destruct (range_first _ _ _ _ _ _ Hl En) as (I1 & I2 & I3). cbn in I2, I3. unfold cmp_start in *.
    assert (Hs : ltb (r_start s) (r_end s) = true) by (destruct Hm as (HW & _); apply (proj2 HW _ I1)).
    assert (Ht : touch cur s = true).
    { assert (Q1 : leb (r_start s) (r_start x) = true).
      { unfold Order.leb. destruct (cmp (r_start s) (r_start x)); congruence. }
      assert (Q2 : ltb (r_start s) (r_start cur) = false).
      { unfold Order.ltb. destruct (cmp (r_start s) (r_start cur)); congruence. }
      destruct HG as (G1 & _). unfold touch. ord. }
    eapply (good_bind _ _ _ _ (fun cur' m' => (part (hit r v) m0 m' /\ grown r v cur' m') /\
      leb (r_start x) (r_end cur') = true)).
    { pose proof (good_adjust m0 r v cur s sv m Hm HG I1 Ht) as [Q1 Q2]. split; [exact Q1|].
      rewrite e_adjust in *.
      unfold rm_adjust_touching_ranges_for_insert in *.
      destruct (veqb sv v).
      - unfold bind, modify, ret in *. cbv zeta in *. cbn in *. split; [exact Q2|].
        unfold kmax. destruct (ltb (r_end s) (r_end cur)) eqn:E; ord.
      - destruct (r_overlaps cmp cur s); [|split; assumption].
        unfold bind, modify, ret in *. cbn in *.
        destruct (ltb (r_start s) (r_start cur)), (gtb cmp (r_end s) (r_end cur)); cbn in *; split; assumption. }
    intros cur' m' [[H1 H2] H3]. apply IH; assumption.
  Qed.
  Lemma goodL_insert m r v : WF m -> goodL (part (hit r v) m) (rmx_insert cmp veqb r v) m.
  Proof.
    intros HW. pose proof (part_refl (hit r v) m HW) as Hm. unfold rmx_insert.
    eapply (goodL_bind _ _ _ _ (fun _ m' => ltb (r_start r) (r_end r) = true /\ m' = m)).
    { unfold cassert, assert_. split; [constructor|]. cbn.
      destruct (ltb (r_start r) (r_end r)); cbn; auto. }
    intros _ m' [Hr ->].
    eapply (goodL_bind _ _ _ _ (fun a m' => a = m /\ m' = m)); [apply good_get; auto|].
    intros a m' [-> ->].
    eapply (goodL_bind _ _ _ _ (fun l m' => bt_range c_start Unbounded (Included r) m = Ret l /\ m' = m)).
    { apply good_lift; [exact Hm|]. intros l Hl. auto. }
    intros l m' [Hl ->].
    assert (HG0 : grown r v r m).
    { unfold grown, hit. splits; auto; intros e He Hme.
      - rewrite Hme. reflexivity.
      - intros Hve. rewrite Hme, Hve. apply orb_true_r. }
    eapply (goodL_bind _ _ _ _ (fun cur m' => part (hit r v) m m' /\ grown r v cur m')).
    { assert (Hc : forall s sv, In (s, sv) (filter (fun e => r_touches cmp (fst e) r) (firstn 2 (rev l))) ->
        In (s, sv) m /\ touch r s = true).
      { intros s sv Hin. apply filter_In in Hin as [H1 H2]. cbn in H2.
        split; [|apply touch_touches; exact H2].
        assert (H3 : In (s, sv) l).
        { apply in_rev. rewrite <- (firstn_skipn 2 (rev l)). apply in_or_app. left; exact H1. }
        apply (range_In _ _ _ _ _ _ Hl H3). }
      destruct (filter _ _) as [|[s sv] [|[t tv] l']].
      - apply good_ret. auto.
      - destruct (Hc s sv (or_introl eq_refl)). apply good_adjust; auto.
      - destruct (Hc t tv (or_intror (or_introl eq_refl))). apply good_adjust; auto. }
    intros cur m' [Hm' HG'].
    eapply (goodL_bind _ _ _ _ (fun a m'' => a = m' /\ m'' = m')); [apply good_get; auto|].
    intros a m'' [-> ->].
    eapply (goodL_bind _ _ _ _ (fun _ m'' => part (hit r v) m m'')).
    { apply good_insert_loop; auto. cbn. ord. }
    intros new2 m'' _. apply goodL_modify.
  Qed.

  (** *** All calls and histories *)
  Notation xexec1 := (rmx_exec cmp veqb).

  Lemma insert_crash_cases r v m x : WF m -> In x (crash_states (rmx_insert cmp veqb r v) m) ->
    part (hit r v) m x \/ x = snd (rm_insert cmp veqb r v m).
  Proof.
    intros HW [<-|Hx]; [left; apply part_refl; exact HW|].
    destruct (goodL_insert m r v HW) as (T & HT & HF). rewrite Forall_forall in HF.
    pose proof (t_insert cmp veqb r v m) as Hl. rewrite <- e_insert, <- Hl.
    destruct HT as [HT | [y HT]]; rewrite HT in *; [left; auto|].
    apply in_app_or in Hx as [Hx|[<-|[]]]; [left; auto|right]. symmetry. apply last_last.
  Qed.
  Lemma insert_crash_WF r v m x : WF m -> In x (crash_states (rmx_insert cmp veqb r v) m) -> WF x.
  Proof.
    intros HW Hx. destruct (insert_crash_cases r v m x HW Hx) as [(H & _)| ->]; [exact H|].
    apply (exec_ok HO HV (OInsert r v) m HW).
  Qed.
  Lemma remove_crash r m x : WF m -> In x (crash_states (rmx_remove cmp r) m) ->
    part (hits r) m x.
  Proof.
    intros HW [<-|Hx]; [apply part_refl; exact HW|].
    destruct (good_remove m r HW) as [H _]. rewrite Forall_forall in H. apply H, Hx.
  Qed.
  Lemma extend_crash_WF l : forall m x, WF m -> In x (crash_states (rmx_extend cmp veqb l) m) -> WF x.
  Proof.
    unfold rmx_extend. induction l as [|[r v] l IH]; intros m x HW [<-|Hx]; try exact HW; [destruct Hx|].
    cbn [cfor_each fst snd] in Hx. unfold cbind in Hx.
    pose proof (fun y Hy => insert_crash_WF r v m y HW (or_intror Hy)) as H1.
    pose proof (e_insert cmp veqb r v m) as He.
    destruct (rmx_insert cmp veqb r v m) as [t [[u|p|] m1]]; cbn in *; auto.
    assert (HW1 : WF m1).
    { replace m1 with (snd (rm_insert cmp veqb r v m)) by (rewrite <- He; reflexivity).
      apply (exec_ok HO HV (OInsert r v) m HW). }
    specialize (IH m1 x HW1). unfold crash_states in IH.
    destruct (cfor_each _ l m1) as [t' y]. cbn in *. apply in_app_or in Hx as [Hx|Hx]; auto.
  Qed.
  Lemma exec_crash_WF o m x : WF m -> In x (crash_states (xexec1 o) m) -> WF x.
  Proof.
    intros HW. destruct o as [r v|r| |l]; cbn [rmx_exec].
    - apply insert_crash_WF; exact HW.
    - intros Hx. apply (remove_crash r m x HW Hx).
    - intros [<-|[<-|[]]]; [exact HW|apply WF_nil].
    - apply extend_crash_WF; exact HW.
  Qed.
  Lemma xexec_WF m y : WF m -> WF (xexec xexec1 m y).
  Proof.
    intros HW. assert (H : forall o, WF (snd (snd (xexec1 o m)))).
    { intros o. rewrite e_exec. apply (exec_ok HO HV o m HW). }
    destruct y as [o|o n]; cbn [xexec]; [apply H|].
    destruct (nth_in_or_default n (crash_states (xexec1 o) m) (snd (snd (xexec1 o m)))) as [Hi | ->];
      [|apply H]. apply (exec_crash_WF o m _ HW Hi).
  Qed.
  Lemma xrun_WF xs : WF (rmx_run cmp veqb xs).
  Proof.
    unfold rmx_run. assert (H : forall m, WF m -> WF (fold_left (xexec xexec1) xs m)).
    { induction xs as [|y xs IH]; intros m HW; cbn; [exact HW|]. apply IH, xexec_WF, HW. }
    apply H, WF_nil.
  Qed.
  Lemma WF_reachable m : WF m -> exists ops, m = rm_run cmp veqb ops.
  Proof.
    intros HW. exists (map (fun e => OInsert (fst e) (snd e)) m). symmetry.
    apply (insert_all_app HO m [] HW).
  Qed.
  Lemma xrun_reachable xs : exists ops, rmx_run cmp veqb xs = rm_run cmp veqb ops.
  Proof. apply WF_reachable, xrun_WF. Qed.

  (** histories without interruptions are the ordinary ones *)
  Lemma xrun_done ops : rmx_run cmp veqb (map XDone ops) = rm_run cmp veqb ops.
  Proof.
    unfold rmx_run, rm_run, run_ops, rm_new.
    assert (H : forall m, fold_left (xexec xexec1) (map XDone ops) m =
      fold_left (fun s o => snd (rm_exec cmp veqb o s)) ops m); [|apply H].
    induction ops as [|o ops IH]; intros m; cbn; [reflexivity|]. rewrite e_exec. apply IH.
  Qed.

  Lemma xrun_valid xs :
    ascending cmp (rm_iter (rmx_run cmp veqb xs)) /\
    (forall r v, In (r, v) (rm_iter (rmx_run cmp veqb xs)) -> valid_range cmp r = true) /\
    coalesced cmp veqb (rm_iter (rmx_run cmp veqb xs)).
  Proof.
    destruct (xrun_reachable xs) as [ops ->]. destruct (iter_valid_ascending HO HV ops).
    splits; auto. exact (WF_coalesced HO _ (run_WF HO HV ops)).
  Qed.

  Notation run := (rm_run cmp veqb).
  Lemma insert_crash ops r v x : In x (crash_states (rmx_insert cmp veqb r v) (run ops)) ->
    (exists ops', x = run ops') /\
    (x = run (ops ++ [OInsert r v]) \/
     (forall k, rm_get cmp x k = rm_get cmp (run ops) k \/ rm_get cmp x k = Ret None)) /\
    (forall e, In e (run ops) ->
       leb (en e) (r_start r) = true /\ (eqb (en e) (r_start r) = true -> veqb (snd e) v = false) \/
       leb (r_end r) (st e) = true /\ (eqb (r_end r) (st e) = true -> veqb (snd e) v = false) ->
       In e x).
  Proof.
    intros Hx. pose proof (run_WF HO HV ops) as HW. pose proof (insert_crash_WF r v _ x HW Hx) as HWx.
    split; [apply WF_reachable; exact HWx|].
    assert (H : x = run (ops ++ [OInsert r v]) \/ part (hit r v) (run ops) x).
    { destruct (insert_crash_cases r v (run ops) x HW Hx) as [H| ->]; [right; exact H|left].
      rewrite run_snoc. reflexivity. }
    destruct H as [H|(_ & H1 & H2)].
    - split; [left; exact H|]. intros e He Hd. subst x.
      destruct (ltb (r_start r) (r_end r)) eqn:Ev.
      + apply (insert_frame HO HV ops r v e Ev He). destruct Hd as [Hd|[D1 D2]]; [left; exact Hd|right].
        split; [exact D1|]. intros E. specialize (D2 E).
        destruct (veqb v (snd e)) eqn:Ee; [|reflexivity]. apply (veq_sym _ HV) in Ee. congruence.
      + rewrite run_snoc. cbn [rm_exec]. unfold rm_insert, bind, assert_. rewrite Ev. exact He.
    - split; [right; intros k|].
      + rewrite (get_ok (veqb := veqb) HO _ k HW), (get_ok (veqb := veqb) HO _ k HWx). destruct (H1 k) as [-> | ->]; auto.
      + intros e He Hd. apply H2; [exact He|]. unfold hit.
        assert (He' : ltb (st e) (en e) = true) by (apply (proj2 HW), He).
        assert (E1 : meets cmp r (fst e) = false) by (unfold meets; destruct Hd as [[Hd _]|[Hd _]]; ord).
        rewrite E1. destruct (touch r (fst e)) eqn:E2; [|reflexivity]. cbn. unfold touch in E2.
        destruct Hd as [[Hd1 Hd2]|[Hd1 Hd2]]; apply Hd2; ord.
  Qed.
  Lemma remove_crash' ops r x : In x (crash_states (rmx_remove cmp r) (run ops)) ->
    (exists ops', x = run ops') /\
    (forall k, rm_get cmp x k = rm_get cmp (run ops) k \/ rm_get cmp x k = Ret None) /\
    (forall e, In e (run ops) ->
        leb (en e) (r_start r) = true \/ leb (r_end r) (st e) = true -> In e x).
  Proof.
    intros Hx. pose proof (run_WF HO HV ops) as HW.
    destruct (remove_crash r _ x HW Hx) as (HWx & H1 & H2).
    splits; [apply WF_reachable; exact HWx| |].
    - intros k. rewrite (get_ok (veqb := veqb) HO _ k HW), (get_ok (veqb := veqb) HO _ k HWx). destruct (H1 k) as [-> | ->]; auto.
    - intros e He Hd. apply H2; [exact He|]. unfold hits, meets. destruct Hd; ord.
  Qed.
End Half.
