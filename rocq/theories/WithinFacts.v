(** Updates under step functions that do not follow the step laws: exactly
    which ones can make a call run forever. *)
From Coq Require Import List Bool Lia Sorted.
From Verif Require Import Order Outcome BTree Ranges History Spec SpecStep MapModel IMapModel WithinModel ListLemmas Cost.
Import ListNotations.

Section Within.
  Context {K V : Type} {cmp : K -> K -> comparison} {veqb : V -> V -> bool} {st : stepfns K}.
  Context (HO : TotalOrd cmp).
  Notation c_start := (cmpi_start cmp).
  Notation within := (im_exec_within cmp veqb st).

  (** ** More rounds change nothing once a call came back *)
  Definition grows {S A} (c c' : M S A) : Prop := forall s, fst (c s) <> OutOfFuel -> c' s = c s.
  Lemma gr_refl {S A} (c : M S A) : grows c c.
  Proof. intros s _. reflexivity. Qed.
  Lemma gr_bind {S A B} (c c' : M S A) (f f' : A -> M S B) :
    grows c c' -> (forall a, grows (f a) (f' a)) -> grows (bind c f) (bind c' f').
  Proof.
    intros Hc Hf s H. unfold bind in *. specialize (Hc s). destruct (c s) as [[a|p|] s1]; cbn in *.
    - rewrite Hc by congruence. apply Hf, H.
    - rewrite Hc by congruence. reflexivity.
    - congruence.
  Qed.
  Lemma gr_insert_loop v sl : forall n n' r, n <= n' ->
    grows (im_insert_loop cmp veqb st n r v sl) (im_insert_loop cmp veqb st n' r v sl).
  Proof.
    induction n as [|n IH]; intros n' r Hn; [intros s H; exfalso; apply H; reflexivity|].
    destruct n' as [|n']; [lia|]. cbn [im_insert_loop].
    apply gr_bind; [apply gr_refl|intros m]. apply gr_bind; [apply gr_refl|intros l].
    destruct (fst (it_next l)) as [[s sv]|]; [|apply gr_refl].
    apply gr_bind; [apply gr_refl|intros []]; [apply gr_refl|].
    apply gr_bind; [apply gr_refl|intros r']. apply IH. lia.
  Qed.
  Lemma gr_remove_loop r e : forall n n', n <= n' ->
    grows (im_remove_loop cmp (V := V) st n r e) (im_remove_loop cmp st n' r e).
  Proof.
    induction n as [|n IH]; intros n' Hn; [intros s H; exfalso; apply H; reflexivity|].
    destruct n' as [|n']; [lia|]. cbn [im_remove_loop].
    apply gr_bind; [apply gr_refl|intros m]. apply gr_bind; [apply gr_refl|intros l].
    destruct (fst (it_next l)) as [[s sv]|]; [|apply gr_refl].
    apply gr_bind; [apply gr_refl|intros _]. apply IH. lia.
  Qed.
  Lemma gr_insert n n' r v : n <= n' ->
    grows (im_insert_within cmp veqb st n r v) (im_insert_within cmp veqb st n' r v).
  Proof.
    intros Hn. unfold im_insert_within. repeat (apply gr_bind; [apply gr_refl|intros ?]).
    apply gr_bind; [apply gr_insert_loop, Hn|intros; apply gr_refl].
  Qed.
  Lemma gr_remove n n' r : n <= n' ->
    grows (im_remove_within cmp (V := V) st n r) (im_remove_within cmp st n' r).
  Proof.
    intros Hn. unfold im_remove_within. repeat (apply gr_bind; [apply gr_refl|intros ?]).
    apply gr_remove_loop, Hn.
  Qed.
  Lemma within_more n n' o : n <= n' -> grows (within n o) (within n' o).
  Proof.
    intros Hn. destruct o as [r v|r| |l]; cbn.
    - apply gr_insert, Hn.
    - apply gr_remove, Hn.
    - apply gr_refl.
    - induction l as [|e l IH]; cbn; [apply gr_refl|]. apply gr_bind; [apply gr_insert, Hn|intros _; exact IH].
  Qed.

  (** the number of rounds of IMapModel.v, when it is enough *)
  Definition settles {S A} (c : M S A) (w : nat -> M S A) : Prop :=
    forall s, fst (c s) <> OutOfFuel -> exists N, forall n, N <= n -> w n s = c s.
  Lemma se_const {S A} (c : M S A) : settles c (fun _ => c).
  Proof. intros s _. exists 0. reflexivity. Qed.
  Lemma se_bind {S A B} (c : M S A) w (f : A -> M S B) g :
    settles c w -> (forall a, settles (f a) (fun n => g n a)) -> settles (bind c f) (fun n => bind (w n) (g n)).
  Proof.
    intros Hc Hf s H. unfold bind in *. specialize (Hc s). destruct (c s) as [[a|p|] s1]; cbn in *.
    - destruct Hc as [N1 H1]; [congruence|]. destruct (Hf a s1 H) as [N2 H2]. exists (Nat.max N1 N2).
      intros n Hn. rewrite H1 by lia. apply H2. lia.
    - destruct Hc as [N1 H1]; [congruence|]. exists N1. intros n Hn. rewrite H1 by lia. reflexivity.
    - congruence.
  Qed.
  Lemma se_insert r v : settles (im_insert cmp veqb st r v) (fun n => im_insert_within cmp veqb st n r v).
  Proof.
    unfold im_insert, im_insert_within.
    apply se_bind with (w := fun _ => _); [apply se_const|intros _].
    apply se_bind with (w := fun _ => _); [apply se_const|intros m].
    apply se_bind with (w := fun _ => _); [apply se_const|intros before].
    apply se_bind with (w := fun _ => _); [apply se_const|intros cands].
    apply se_bind with (w := fun _ => _); [apply se_const|intros new1].
    intros s H. unfold bind at 1 in H. unfold bind at 1. cbn [get] in *.
    revert s H. assert (E : forall s : imap K V, settles
      (bind (im_insert_loop cmp veqb st (length s + 2) new1 v (incl (ri_end new1) (ri_end new1)))
        (fun new2 => modify (bt_insert c_start new2 v)))
      (fun n => bind (im_insert_loop cmp veqb st n new1 v (incl (ri_end new1) (ri_end new1)))
        (fun new2 => modify (bt_insert c_start new2 v)))).
    { intros s. apply se_bind with (g := fun _ new2 => modify (bt_insert c_start new2 v)).
      - intros x Hx. exists (length s + 2). intros n Hn. apply gr_insert_loop; assumption.
      - intros; apply se_const. }
    intros s H. exact (E s s H).
  Qed.
  Lemma se_remove r : settles (im_remove cmp (V := V) st r) (fun n => im_remove_within cmp st n r).
  Proof.
    unfold im_remove, im_remove_within.
    apply se_bind with (w := fun _ => _); [apply se_const|intros _].
    apply se_bind with (w := fun _ => _); [apply se_const|intros m].
    apply se_bind with (w := fun _ => _); [apply se_const|intros before].
    apply se_bind with (w := fun _ => _); [apply se_const|intros _].
    intros s H. unfold bind at 1 in H. unfold bind at 1. cbn [get] in *.
    exists (length s + 1). intros n Hn. apply gr_remove_loop; assumption.
  Qed.
  Lemma within_settles o : settles (im_exec cmp veqb st o) (fun n => within n o).
  Proof.
    destruct o as [r v|r| |l]; cbn.
    - apply se_insert.
    - apply se_remove.
    - apply se_const.
    - unfold im_extend. induction l as [|e l IH]; cbn; [apply se_const|].
      apply se_bind with (w := fun n => _) (g := fun n _ => _); [apply se_insert|intros _; exact IH].
  Qed.

  (** ** Maps with ascending starts *)
  Definition SS (m : imap K V) : Prop :=
    StronglySorted (fun a b => ltb cmp (ri_start (fst a)) (ri_start (fst b)) = true) m.
  Definition fwd (r : rangei K) : Prop := leb cmp (ri_start r) (ri_end r) = true.
  Definition FW (m : imap K V) : Prop := Forall (fun e => fwd (fst e)) m.
  Definition cnt (q : K -> bool) (m : imap K V) : nat := length (filter (fun e => q (ri_start (fst e))) m).

  Lemma ins_Forall (P : K -> Prop) k v (m : imap K V) : P (ri_start k) ->
    Forall (fun e => P (ri_start (fst e))) m -> Forall (fun e => P (ri_start (fst e))) (bt_insert c_start k v m).
  Proof.
    intros Hk. induction 1 as [|[k' v'] m H1 H2 IH]; cbn; [auto|]. destruct (c_start k k'); auto.
  Qed.
  Lemma ins_SS k v m : SS m -> SS (bt_insert c_start k v m).
  Proof.
    induction 1 as [|[k' v'] m H1 IH H2]; cbn; [repeat constructor|].
    destruct (c_start k k') eqn:E; unfold cmpi_start in E.
    - constructor; [exact H1|exact H2].
    - constructor; [constructor; assumption|]. constructor; [cbn; ord|].
      revert H2. apply Forall_impl. intros e He. cbn in *. ord.
    - constructor; [exact IH|]. apply (ins_Forall (fun x => ltb cmp (ri_start k') x = true)); [cbn; ord|exact H2].
  Qed.
  Lemma ins_FW k v m : fwd k -> FW m -> FW (bt_insert c_start k v m).
  Proof.
    intros Hk. unfold FW. induction 1 as [|[k' v'] m H1 H2 IH]; cbn; [auto|].
    destruct (c_start k k'); auto.
  Qed.
  Lemma ins_cnt q k v m : q (ri_start k) = false -> cnt q (bt_insert c_start k v m) = cnt q m.
  Proof.
    intros Hk. unfold cnt. induction m as [|[k' v'] m IH]; cbn; [rewrite Hk; reflexivity|].
    destruct (c_start k k'); cbn; [destruct (q (ri_start k')); reflexivity|rewrite Hk; reflexivity|].
    destruct (q (ri_start k')); cbn; rewrite IH; reflexivity.
  Qed.
  Lemma ins_len k v (m : imap K V) : length (bt_insert c_start k v m) <= S (length m).
  Proof. pose proof (bt_insert_length c_start k v m). lia. Qed.
  Lemma rem_Forall P k (m : imap K V) : Forall P m -> Forall P (bt_remove c_start k m).
  Proof.
    induction 1 as [|[k' v'] m H1 H2 IH]; cbn; [auto|]. destruct (c_start k k'); auto.
  Qed.
  Lemma rem_SS k m : SS m -> SS (bt_remove c_start k m).
  Proof.
    induction 1 as [|[k' v'] m H1 IH H2]; cbn; [constructor|].
    destruct (c_start k k'); [exact H1|constructor; assumption|].
    constructor; [exact IH|apply rem_Forall, H2].
  Qed.
  Lemma rem_cnt q k v m : SS m -> In (k, v) m ->
    cnt q m = (if q (ri_start k) then 1 else 0) + cnt q (bt_remove c_start k m).
  Proof.
    induction 1 as [|[k' v'] m H1 IH H2]; intros Hin; [destruct Hin|]. cbn [bt_remove].
    destruct Hin as [E|Hin].
    - injection E as -> ->. unfold cmpi_start. rewrite (ord_refl _ HO). unfold cnt. cbn.
      destruct (q (ri_start k)); reflexivity.
    - specialize (IH Hin). rewrite Forall_forall in H2. specialize (H2 _ Hin). cbn in H2.
      destruct (c_start k k') eqn:E; unfold cmpi_start in E; [exfalso; ord|exfalso; ord|].
      unfold cnt in *. cbn. destruct (q (ri_start k')); cbn; lia.
  Qed.
  Lemma rem_len k v m : SS m -> In (k, v) m -> length m = S (length (bt_remove c_start k m)).
  Proof.
    intros H1 H2. pose proof (rem_cnt (fun _ => true) k v m H1 H2) as H. unfold cnt in H.
    assert (E : forall l : imap K V, filter (fun _ => true) l = l).
    { induction l as [|x l IH]; cbn; [|rewrite IH]; reflexivity. }
    rewrite !E in H. exact H.
  Qed.
  Lemma cnt_le q m : cnt q m <= length m.
  Proof. unfold cnt. induction m as [|e m IH]; cbn; [lia|]. destruct (q _); cbn; lia. Qed.

  Lemma first_in (p q : rangei K * V -> bool) m e :
    fst (it_next (take_while p (drop_while q m))) = Some e -> In e m /\ q e = false /\ p e = true.
  Proof.
    intros H. destruct (drop_while q m) as [|x l] eqn:E; cbn in H; [discriminate|].
    destruct (p x) eqn:Ep; cbn in H; [|discriminate]. injection H as ->.
    assert (Hi : In e (drop_while q m)) by (rewrite E; left; reflexivity).
    split; [apply (drop_while_sub _ _ _ Hi)|]. split; [|exact Ep].
    clear Hi. induction m as [|y m IH]; cbn in E; [discriminate|]. destruct (q y) eqn:Eq; [auto|].
    injection E as -> _. exact Eq.
  Qed.
  Lemma last_in {A} (l : list A) e : last_opt l = Some e -> In e l.
  Proof.
    unfold last_opt, it_next_back. intros H. apply in_rev. destruct (rev l); cbn in H; [discriminate|].
    injection H as ->. left. reflexivity.
  Qed.
  Lemma filter_o_in {A} (f : A -> outcome bool) : forall l l', filter_o f l = Ret l' -> forall x, In x l' -> In x l.
  Proof.
    induction l as [|a l IH]; intros l' H x Hx; cbn in H; [injection H as <-; destruct Hx|].
    destruct (f a) as [b|p|]; cbn in H; try discriminate.
    destruct (filter_o f l) as [l1|p|] eqn:E; cbn in H; try discriminate. injection H as <-.
    destruct b; [destruct Hx as [<-|Hx]; [left; reflexivity|]|]; right; eapply IH; eauto.
  Qed.
  Lemma firstn_in {A} n : forall (l : list A) x, In x (firstn n l) -> In x l.
  Proof.
    induction n as [|n IH]; intros [|a l] x H; cbn in H; try destruct H; [left; assumption|right; auto].
  Qed.
  Lemma bt_range_in lo hi (m l : imap K V) : bt_range c_start lo hi m = Ret l -> forall x, In x l -> In x m.
  Proof.
    unfold bt_range. destruct (bad_bounds _ _ _); [discriminate|]. intros H x Hx. injection H as <-.
    apply (drop_while_sub _ _ _ (take_while_sub _ _ _ Hx)).
  Qed.

  (** ** What a piece of code does with its state *)
  Definition tri (F : Prop) (I : imap K V -> Prop) {A} (c : M (imap K V) A) (s : imap K V)
      (Q : A -> imap K V -> Prop) : Prop :=
    match c s with
    | (Ret a, s') => Q a s'
    | (Panicked _, s') => I s'
    | (OutOfFuel, _) => F
    end.
  Lemma tri_bind F I {A B} (c : M (imap K V) A) (f : A -> M (imap K V) B) s Q R :
    tri F I c s Q -> (forall a s', Q a s' -> tri F I (f a) s' R) -> tri F I (bind c f) s R.
  Proof. unfold tri, bind. intros H1 H2. destruct (c s) as [[a|p|] s1]; [exact (H2 a s1 H1)|exact H1|exact H1]. Qed.
  Lemma tri_post F (I : imap K V -> Prop) {A} (c : M (imap K V) A) s (Q R : A -> imap K V -> Prop) :
    tri F I c s Q -> (forall a s', Q a s' -> R a s') -> tri F I c s R.
  Proof. unfold tri. intros H1 H2. destruct (c s) as [[a|p|] s1]; auto. Qed.
  Lemma tri_fuel (F F' : Prop) (I : imap K V -> Prop) {A} (c : M (imap K V) A) s (Q : A -> imap K V -> Prop) :
    (F -> F') -> tri F I c s Q -> tri F' I c s Q.
  Proof. unfold tri. intros H1 H2. destruct (c s) as [[a|p|] s1]; auto. Qed.
  Lemma tri_step F (I : imap K V -> Prop) {B} (o : option K) (f : K -> M (imap K V) B) s R :
    I s -> (forall x, o = Some x -> tri F I (f x) s R) -> tri F I (bind (lift (step_o o)) f) s R.
  Proof. unfold tri, bind, lift. intros H1 H2. destruct o as [x|]; cbn; [apply H2; reflexivity|exact H1]. Qed.

  (** what is kept by the pieces written back: [G] holds of every stored range *)
  Section Inv.
    Context (G : rangei K -> Prop).
    Definition INV (m : imap K V) : Prop := SS m /\ Forall (fun e => G (fst e)) m.
    Lemma inv_ins k v m : G k -> INV m -> INV (bt_insert c_start k v m).
    Proof.
      intros Hk [H1 H2]. split; [apply ins_SS, H1|]. clear H1. induction H2 as [|[k' v'] m H1 H2 IH]; cbn; [auto|].
      destruct (c_start k k'); auto.
    Qed.
    Lemma inv_rem k m : INV m -> INV (bt_remove c_start k m).
    Proof. intros [H1 H2]. split; [apply rem_SS, H1|apply rem_Forall, H2]. Qed.

    (** the pieces left of and right of [r] *)
    Context (Hleft : forall a x p, G a -> ltb cmp (ri_start a) x = true -> sub_one st x = Some p -> G (incl (ri_start a) p)).
    Context (Hright : forall a x s, G a -> ltb cmp x (ri_end a) = true -> add_one st x = Some s -> G (incl s (ri_end a))).

    Lemma tri_pieces F {A} k v r (a : A) (m : imap K V) : INV m -> In (k, v) m ->
      tri F INV
        (modify (bt_remove c_start k) ;;;
         (if ltb cmp (ri_start k) (ri_start r)
          then p <- lift (step_o (sub_one st (ri_start r))) ;;
               modify (bt_insert c_start (incl (ri_start k) p) v)
          else ret tt) ;;;
         (if gtb cmp (ri_end k) (ri_end r)
          then s <- lift (step_o (add_one st (ri_end r))) ;;
               modify (bt_insert c_start (incl s (ri_end k)) v)
          else ret tt) ;;;
         ret a)%M m
        (fun a' m' => a' = a /\ INV m' /\ length m' <= S (length m) /\
          (ltb cmp (ri_start k) (ri_start r) = false -> length m' <= length m /\
             forall q, q (ri_start k) = true ->
               (ltb cmp (ri_end r) (ri_end k) = true -> forall s, add_one st (ri_end r) = Some s -> q s = false) ->
               S (cnt q m') = cnt q m)).
    Proof.
      intros HI Hin.
      pose proof (rem_len _ _ _ (proj1 HI) Hin) as L.
      assert (Gk : G k). { destruct HI as [_ H]. rewrite Forall_forall in H. exact (H _ Hin). }
      apply (tri_bind F INV _ _ _ (fun _ m' => m' = bt_remove c_start k m)); [reflexivity|intros _ m1 ->].
      apply (tri_bind F INV _ _ _ (fun _ m' => INV m' /\ length m' <= length m /\
        (ltb cmp (ri_start k) (ri_start r) = false -> m' = bt_remove c_start k m))).
      { destruct (ltb cmp (ri_start k) (ri_start r)) eqn:E.
        - apply tri_step; [apply inv_rem, HI|]. intros p Hp. unfold tri, modify. splits.
          + apply inv_ins; [eapply Hleft; eauto|apply inv_rem, HI].
          + pose proof (ins_len (incl (ri_start k) p) v (bt_remove c_start k m)). lia.
          + discriminate.
        - unfold tri. cbn. splits; [apply inv_rem, HI|lia|reflexivity]. }
      intros _ m2 (I2 & L2 & E2).
      apply (tri_bind F INV _ _ _ (fun _ m' => INV m' /\ length m' <= S (length m2) /\
        forall q, (ltb cmp (ri_end r) (ri_end k) = true -> forall s, add_one st (ri_end r) = Some s -> q s = false) ->
          cnt q m' = cnt q m2)).
      { unfold gtb. destruct (ltb cmp (ri_end r) (ri_end k)) eqn:E.
        - apply tri_step; [exact I2|]. intros s Hs. unfold tri, modify. splits.
          + apply inv_ins; [eapply Hright; eauto|exact I2].
          + apply ins_len.
          + intros q Hq. apply ins_cnt. cbn. apply Hq; auto.
        - unfold tri. cbn. splits; [exact I2|lia|reflexivity]. }
      intros _ m3 (I3 & L3 & C3). unfold tri. cbn. splits; [reflexivity|exact I3|lia|].
      intros E. rewrite (E2 E) in *. split; [lia|]. intros q Hq1 Hq2.
      pose proof (rem_cnt q _ _ _ (proj1 HI) Hin) as C. rewrite Hq1 in C. rewrite (C3 q Hq2). lia.
    Qed.

    (** merging a stored range into the new one *)
    Context (Hmerge : forall a b, G a -> G b -> G (incl (kmin cmp (ri_start a) (ri_start b)) (kmax cmp (ri_end a) (ri_end b)))).

    Lemma tri_adjust F k sv r v (m : imap K V) : INV m -> In (k, sv) m -> G r ->
      tri F INV (im_adjust_touching_ranges_for_insert cmp veqb st k sv r v) m
        (fun r' m' => INV m' /\ G r' /\ length m' <= S (length m)).
    Proof.
      intros HI Hin Hr. assert (Gk : G k). { destruct HI as [_ H]. rewrite Forall_forall in H. exact (H _ Hin). }
      pose proof (rem_len _ _ _ (proj1 HI) Hin) as L.
      unfold im_adjust_touching_ranges_for_insert. destruct (veqb sv v).
      - unfold tri. cbn. splits; [apply inv_rem, HI|apply Hmerge; assumption|lia].
      - destruct (ri_overlaps cmp r k).
        + eapply tri_post; [apply (tri_pieces F k sv r r m HI Hin)|].
          intros r' m' (-> & ? & ? & _). auto.
        + unfold tri. cbn. auto.
    Qed.

    (** the calls, given that the loops stop *)
    Context (Hgiven : forall r, leb cmp (ri_start r) (ri_end r) = true -> G r).
    Context (Hloop : forall v sl n r m, INV m -> G r -> leb cmp (ri_start sl) (ri_end r) = true ->
      tri (n <= 2 * length m) INV (im_insert_loop cmp veqb st n r v sl) m
        (fun r' m' => INV m' /\ G r' /\ length m' <= length m)).
    Context (Hback : forall r k s, G k -> ltb cmp (ri_start r) (ri_start k) = true -> leb cmp (ri_start k) (ri_end r) = true ->
      ltb cmp (ri_end r) (ri_end k) = true -> add_one st (ri_end r) = Some s ->
      ltb cmp (ri_start r) s && leb cmp s (ri_end r) = false).

    Lemma tri_lift F {A B} (o : outcome A) (f : A -> M (imap K V) B) s R : INV s -> o <> OutOfFuel ->
      (forall x, o = Ret x -> tri F INV (f x) s R) -> tri F INV (bind (lift o) f) s R.
    Proof. unfold tri, bind, lift. intros H1 H2 H3. destruct o; [apply H3; reflexivity|exact H1|congruence]. Qed.
    Lemma tri_assert F {B} b (f : unit -> M (imap K V) B) s R : INV s ->
      (b = true -> tri F INV (f tt) s R) -> tri F INV (bind (assert_ b) f) s R.
    Proof. unfold tri, bind, assert_. intros H1 H2. destruct b; cbn; [apply H2; reflexivity|exact H1]. Qed.
    Lemma tri_get F {B} (f : imap K V -> M (imap K V) B) s R : tri F INV (f s) s R -> tri F INV (bind get f) s R.
    Proof. exact (fun H => H). Qed.
    Lemma range_fuel lo hi (m : imap K V) : bt_range c_start lo hi m <> OutOfFuel.
    Proof. unfold bt_range. destruct (bad_bounds _ _ _); discriminate. Qed.
    Lemma touches_fuel a b : ri_touches cmp st a b <> OutOfFuel.
    Proof. unfold ri_touches. cbv zeta. destruct (ltb cmp _ _); [|discriminate]. destruct (add_one st _); discriminate. Qed.
    Lemma filter_fuel r (l : list (rangei K * V)) : filter_o (fun e => ri_touches cmp st (fst e) r) l <> OutOfFuel.
    Proof.
      induction l as [|e l IH]; cbn; [discriminate|].
      pose proof (touches_fuel (fst e) r). destruct (ri_touches cmp st (fst e) r); cbn; try congruence.
      destruct (filter_o _ l); cbn; congruence.
    Qed.

    Lemma tri_insert n r v (m : imap K V) : INV m ->
      tri (n <= 2 * S (length m)) INV (im_insert_within cmp veqb st n r v) m
        (fun _ m' => INV m' /\ length m' <= 2 + length m).
    Proof.
      intros HI. unfold im_insert_within. apply tri_assert; [exact HI|intros Hr]. apply Hgiven in Hr.
      apply tri_get. apply tri_lift; [exact HI|apply range_fuel|intros before Hb].
      apply tri_lift; [exact HI|apply filter_fuel|intros cands Hc].
      assert (Hin : forall e, In e cands -> In e m).
      { intros e He. apply (bt_range_in _ _ _ _ Hb). apply in_rev. apply (firstn_in 2). exact (filter_o_in _ _ _ Hc _ He). }
      apply (tri_bind _ INV _ _ _ (fun r' m' => INV m' /\ G r' /\ length m' <= S (length m))).
      { destruct cands as [|[s sv] [|[s2 sv2] cands]].
        - unfold tri. cbn. auto.
        - apply tri_adjust; auto. apply Hin. left. reflexivity.
        - apply tri_adjust; auto. apply Hin. right. left. reflexivity. }
      intros r1 m1 (I1 & G1 & L1). eapply tri_bind.
      - eapply tri_fuel; [|apply Hloop; [exact I1|exact G1|cbn; ord]]. lia.
      - intros r2 m2 (I2 & G2 & L2). unfold tri, modify. split; [apply inv_ins; assumption|].
        pose proof (ins_len r2 v m2). lia.
    Qed.

    Lemma tri_adjust_remove F k v r (m : imap K V) : INV m -> In (k, v) m ->
      tri F INV (im_adjust_overlapping_ranges_for_remove cmp st k v r) m
        (fun _ m' => INV m' /\ length m' <= S (length m) /\
          (ltb cmp (ri_start k) (ri_start r) = false -> length m' <= length m /\
             forall q, q (ri_start k) = true ->
               (ltb cmp (ri_end r) (ri_end k) = true -> forall s, add_one st (ri_end r) = Some s -> q s = false) ->
               S (cnt q m') = cnt q m)).
    Proof.
      intros HI Hin. pose proof (tri_pieces F k v r tt m HI Hin) as H. unfold tri in *.
      unfold im_adjust_overlapping_ranges_for_remove, bind, modify, lift, ret in *.
      destruct (ltb cmp (ri_start k) (ri_start r)), (gtb cmp (ri_end k) (ri_end r));
        try (destruct (sub_one st (ri_start r))); try (destruct (add_one st (ri_end r))); cbn in *; tauto.
    Qed.
    Lemma tri_remove_loop r e n : forall m, INV m -> ri_start e = ri_end r ->
      tri (n <= cnt (fun x => ltb cmp (ri_start r) x && leb cmp x (ri_end r)) m) INV
        (im_remove_loop cmp st n r e) m (fun _ m' => INV m').
    Proof.
      induction n as [|n IH]; intros m HI He; cbn [im_remove_loop]; [unfold tri; cbn; lia|].
      apply tri_get. apply tri_lift; [exact HI|apply range_fuel|intros l Hl].
      unfold bt_range in Hl. destruct (bad_bounds _ _ _); [discriminate|]. injection Hl as <-.
      destruct (fst (it_next _)) as [[k v]|] eqn:E; [|unfold tri; cbn; exact HI].
      apply first_in in E as (Hin & B & A). cbn in B, A. unfold cmpi_start in B, A. rewrite He in A.
      assert (Gk : G k). { destruct HI as [_ H]. rewrite Forall_forall in H. exact (H _ Hin). }
      assert (K1 : ltb cmp (ri_start r) (ri_start k) = true) by (destruct (cmp (ri_start k) (ri_start r)) eqn:C; try discriminate; ord).
      assert (K2 : leb cmp (ri_start k) (ri_end r) = true) by (destruct (cmp (ri_start k) (ri_end r)) eqn:C; try discriminate; ord).
      eapply tri_bind; [apply tri_adjust_remove; [exact HI|exact Hin]|].
      intros _ m1 (I1 & _ & L1). destruct L1 as [_ C1]; [ord|].
      eapply tri_fuel; [|apply (IH m1 I1 He)].
      rewrite <- (C1 (fun x => ltb cmp (ri_start r) x && leb cmp x (ri_end r))); [lia|rewrite K1, K2; reflexivity|].
      intros K3 s Hs. eapply Hback; eauto.
    Qed.
    Lemma tri_remove n r (m : imap K V) : INV m ->
      tri (n <= 2 * S (length m)) INV (im_remove_within cmp st n r) m (fun _ m' => INV m').
    Proof.
      intros HI. unfold im_remove_within. apply tri_assert; [exact HI|intros Hr].
      apply tri_get. apply tri_lift; [exact HI|apply range_fuel|intros before Hb].
      apply (tri_bind _ INV _ _ _ (fun _ m' => INV m' /\ length m' <= S (length m))).
      { destruct (last_opt before) as [[s sv]|] eqn:E; [|unfold tri; cbn; auto].
        destruct (ri_overlaps cmp s r); [|unfold tri; cbn; auto].
        eapply tri_post; [apply tri_adjust_remove; [exact HI|]|].
        - apply (bt_range_in _ _ _ _ Hb), last_in, E.
        - intros a m' H. split; apply H. }
      intros _ m1 (I1 & L1). eapply tri_fuel; [|apply tri_remove_loop; [exact I1|reflexivity]].
      pose proof (cnt_le (fun x => ltb cmp (ri_start r) x && leb cmp x (ri_end r)) m1). lia.
    Qed.

    Definition rounds (o : op (rangei K) V) (m : imap K V) : nat :=
      match o with
      | OExtend l => 2 * (length m + 2 * length l)
      | _ => 2 * S (length m)
      end.
    Lemma tri_exec n o (m : imap K V) : INV m -> tri (n <= rounds o m) INV (within n o) m (fun _ m' => INV m').
    Proof.
      intros HI. destruct o as [r v|r| |l]; cbn [im_exec_within rounds].
      - eapply tri_post; [apply tri_insert, HI|]. intros a m' H. apply H.
      - apply tri_remove, HI.
      - unfold tri. cbn. split; constructor.
      - revert m HI. induction l as [|e l IH]; intros m HI; [unfold tri; cbn; exact HI|].
        cbn [for_each]. eapply tri_bind.
        + eapply tri_fuel; [|apply tri_insert, HI]. cbn. lia.
        + intros _ m1 (I1 & L1). eapply tri_fuel; [|apply IH, I1]. cbn. lia.
    Qed.
    Lemma inv_reached m : reached within [] m -> INV m.
    Proof.
      induction 1 as [|n o m H IH Hn]; [split; constructor|].
      pose proof (tri_exec n o m IH) as T. unfold tri in T.
      destruct (within n o m) as [[a|p|] m'] eqn:E; cbn in *; auto. congruence.
    Qed.
    Lemma inv_stops m o n : reached within [] m -> rounds o m < n -> fst (within n o m) <> OutOfFuel.
    Proof.
      intros Hm Hn E. pose proof (tri_exec n o m (inv_reached _ Hm)) as T. unfold tri in T.
      destruct (within n o m) as [[a|p|] m']; cbn in *; try discriminate. lia.
    Qed.
  End Inv.

  Ltac kord := unfold kmin, kmax;
    repeat match goal with |- context [if ltb cmp ?a ?b then _ else _] => destruct (ltb cmp a b) eqn:? end; ord.

  (** ** Honest step functions *)
  Section Honest.
    Context (HH : honest cmp st).
    Lemma h_left a x p : fwd a -> ltb cmp (ri_start a) x = true -> sub_one st x = Some p -> fwd (incl (ri_start a) p).
    Proof. intros _ H1 H2. unfold fwd. cbn. exact (proj2 (HH _ _ H1) _ H2). Qed.
    Lemma h_right a x s : fwd a -> ltb cmp x (ri_end a) = true -> add_one st x = Some s -> fwd (incl s (ri_end a)).
    Proof. intros _ H1 H2. unfold fwd. cbn. exact (proj2 (proj1 (HH _ _ H1) _ H2)). Qed.
    Lemma h_merge a b : fwd a -> fwd b ->
      fwd (incl (kmin cmp (ri_start a) (ri_start b)) (kmax cmp (ri_end a) (ri_end b))).
    Proof. unfold fwd. cbn. intros H1 H2. kord. Qed.
    Lemma h_back r k s : fwd k -> ltb cmp (ri_start r) (ri_start k) = true -> leb cmp (ri_start k) (ri_end r) = true ->
      ltb cmp (ri_end r) (ri_end k) = true -> add_one st (ri_end r) = Some s ->
      ltb cmp (ri_start r) s && leb cmp s (ri_end r) = false.
    Proof. intros _ H1 H2 H3 H4. destruct (proj1 (HH _ _ H3) _ H4) as [H5 _]. apply andb_false_iff. right. ord. Qed.
    Lemma h_loop1 v sl n : forall r m, INV fwd m -> fwd r -> leb cmp (ri_start sl) (ri_end r) = true ->
      tri (n <= length m + cnt (fun x => leb cmp x (ri_start sl)) m) (INV fwd) (im_insert_loop cmp veqb st n r v sl) m
        (fun r' m' => INV fwd m' /\ fwd r' /\ length m' <= length m).
    Proof.
      induction n as [|n IH]; intros r m HI Hr Hsl; cbn [im_insert_loop]; [unfold tri; cbn; lia|].
      apply tri_get. apply tri_lift; [exact HI|apply range_fuel|intros l Hl].
      unfold bt_range in Hl. destruct (bad_bounds _ _ _); [discriminate|]. injection Hl as <-.
      destruct (fst (it_next _)) as [[k sv]|] eqn:E; [|unfold tri; cbn; auto].
      apply first_in in E as (Hin & B & _). cbn in B. unfold cmpi_start in B.
      assert (Gk : fwd k). { destruct HI as [_ H]. rewrite Forall_forall in H. exact (H _ Hin). }
      assert (K1 : leb cmp (ri_start r) (ri_start k) = true) by (destruct (cmp (ri_start k) (ri_start r)) eqn:C; try discriminate; ord).
      pose proof (rem_len _ _ _ (proj1 HI) Hin) as L.
      pose proof (rem_cnt (fun x => leb cmp x (ri_start sl)) _ _ _ (proj1 HI) Hin) as Cn.
      apply tri_lift; [exact HI|destruct (gtb cmp _ _); [destruct (add_one st _)|]; discriminate|].
      intros brk Hb. destruct brk; [unfold tri; cbn; auto|].
      unfold im_adjust_touching_ranges_for_insert. destruct (veqb sv v) eqn:Ev.
      - eapply (tri_bind _ _ _ _ _ (fun r' m' => r' = _ /\ m' = _)); [unfold tri; cbn; split; reflexivity|].
        intros r' m' [-> ->]. eapply tri_post; [eapply tri_fuel; [|apply IH]|].
        + destruct (leb cmp (ri_start k) (ri_start sl)) eqn:X; lia.
        + apply inv_rem, HI.
        + apply h_merge; assumption.
        + cbn. kord.
        + intros r' m' (I' & G' & L'). splits; auto. lia.
      - destruct (gtb cmp (ri_start k) (ri_start sl)) eqn:K2.
        { exfalso. unfold gtb in K2. destruct (add_one st (ri_start sl)) as [s|] eqn:Es; cbn in Hb; [|discriminate].
          injection Hb as Hb. destruct (proj1 (HH _ _ K2) _ Es) as [K3 K4].
          destruct (gtb cmp (ri_start k) s) eqn:X; cbn in Hb; [discriminate|]. rewrite andb_true_r in Hb.
          unfold gtb in X. ord. }
        unfold fwd in Gk. replace (ri_overlaps cmp r k) with true by (symmetry; unfold ri_overlaps; unfold gtb in K2; kord).
        eapply tri_bind; [apply (tri_pieces fwd h_left h_right _ k sv r r m HI Hin)|].
        intros r' m' (-> & I' & _ & C'). destruct C' as [L' C']; [ord|].
        specialize (C' (fun x => leb cmp x (ri_start sl))).
        eapply tri_post; [eapply tri_fuel; [|apply IH; auto]|].
        + rewrite <- C'; [lia|unfold gtb in K2; ord|]. intros K3 s Hs.
          destruct (proj1 (HH _ _ K3) _ Hs) as [K4 _]. ord.
        + intros r2 m2 (I2 & G2 & L2). splits; auto. lia.
    Qed.
    Lemma h_loop v sl n r m : INV fwd m -> fwd r -> leb cmp (ri_start sl) (ri_end r) = true ->
      tri (n <= 2 * length m) (INV fwd) (im_insert_loop cmp veqb st n r v sl) m
        (fun r' m' => INV fwd m' /\ fwd r' /\ length m' <= length m).
    Proof.
      intros H1 H2 H3. eapply tri_fuel; [|apply h_loop1; assumption].
      pose proof (cnt_le (fun x => leb cmp x (ri_start sl)) m). lia.
    Qed.
    Lemma honest_stops m o n : reached within [] m -> rounds o m < n -> fst (within n o m) <> OutOfFuel.
    Proof.
      exact (inv_stops fwd h_left h_right h_merge (fun r H => H) h_loop h_back m o n).
    Qed.
    Lemma honest_kept m : reached within [] m -> INV fwd m.
    Proof. exact (inv_reached fwd h_left h_right h_merge (fun r H => H) h_loop h_back m). Qed.
  End Honest.

  (** ** All values equal: what a set's updates need *)
  Section Sets.
    Context (Hv : forall a b, veqb a b = true) (HB : never_back cmp st).
    Let any (_ : rangei K) : Prop := True.
    Lemma s_loop v sl n : forall r m, INV any m -> any r -> leb cmp (ri_start sl) (ri_end r) = true ->
      tri (n <= 2 * length m) (INV any) (im_insert_loop cmp veqb st n r v sl) m
        (fun r' m' => INV any m' /\ any r' /\ length m' <= length m).
    Proof.
      induction n as [|n IH]; intros r m HI Hr Hsl; cbn [im_insert_loop]; [unfold tri; cbn; lia|].
      apply tri_get. apply tri_lift; [exact HI|apply range_fuel|intros l Hl].
      unfold bt_range in Hl. destruct (bad_bounds _ _ _); [discriminate|]. injection Hl as <-.
      destruct (fst (it_next _)) as [[k sv]|] eqn:E; [|unfold tri; cbn; auto].
      apply first_in in E as (Hin & _ & _).
      pose proof (rem_len _ _ _ (proj1 HI) Hin) as L.
      apply tri_lift; [exact HI|destruct (gtb cmp _ _); [destruct (add_one st _)|]; discriminate|].
      intros brk Hb. destruct brk; [unfold tri; cbn; auto|].
      unfold im_adjust_touching_ranges_for_insert. rewrite Hv.
      eapply (tri_bind _ _ _ _ _ (fun r' m' => r' = _ /\ m' = _)); [unfold tri; cbn; split; reflexivity|].
      intros r' m' [-> ->]. eapply tri_post; [eapply tri_fuel; [|apply IH]|].
      + lia.
      + apply inv_rem, HI.
      + exact I.
      + cbn. kord.
      + intros r' m' (I' & G' & L'). splits; auto. lia.
    Qed.
    Lemma s_back r k s : any k -> ltb cmp (ri_start r) (ri_start k) = true -> leb cmp (ri_start k) (ri_end r) = true ->
      ltb cmp (ri_end r) (ri_end k) = true -> add_one st (ri_end r) = Some s ->
      ltb cmp (ri_start r) s && leb cmp s (ri_end r) = false.
    Proof.
      intros _ H1 H2 H3 H4. destruct (ltb cmp (ri_start r) s) eqn:E1; [|reflexivity].
      destruct (leb cmp s (ri_end r)) eqn:E2; [|reflexivity]. exfalso. exact (HB _ _ _ _ E1 E2 H3 H4).
    Qed.
    Lemma sets_stop m o n : reached within [] m -> rounds o m < n -> fst (within n o m) <> OutOfFuel.
    Proof.
      refine (inv_stops any _ _ _ _ s_loop s_back m o n); intros; exact I.
    Qed.
  End Sets.

  (** ** Hangs *)
  Lemma once_insert n r v : leb cmp (ri_start r) (ri_end r) = true ->
    within (S n) (OInsert r v) [] = (Ret tt, [(r, v)]).
  Proof. intros H. cbn [im_exec_within]. unfold im_insert_within, bind. rewrite H. reflexivity. Qed.
  Lemma reach_one r v : leb cmp (ri_start r) (ri_end r) = true -> reached within [] [(r, v)].
  Proof.
    intros H. pose proof (once_insert 0 r v H) as E.
    change [(r, v)] with (snd (@Ret unit tt, [(r, v)])). rewrite <- E. apply reached_call; [constructor|].
    rewrite E. discriminate.
  Qed.

  (** a loop that finds the same entry and leaves the same map *)
  Lemma loop_forever v sl r m k sv :
    fst (it_next (take_while (fun _ => true) (drop_while (fun e => below c_start (Included r) (fst e)) m))) = Some (k, sv) ->
    (if gtb cmp (ri_start k) (ri_start sl)
     then omap (fun s => gtb cmp (ri_start k) s || (eqb cmp (ri_start k) s && negb (veqb sv v))) (step_o (add_one st (ri_start sl)))
     else Ret false) = Ret false ->
    im_adjust_touching_ranges_for_insert cmp veqb st k sv r v m = (Ret r, m) ->
    forall n, fst (im_insert_loop cmp veqb st n r v sl m) = OutOfFuel.
  Proof.
    intros H1 H2 H3. induction n as [|n IH]; [reflexivity|]. cbn [im_insert_loop].
    unfold bind at 1. cbn [get]. unfold bind at 1, lift at 1. unfold bt_range. cbn [bad_bounds].
    cbn [above negb]. rewrite H1. unfold bind at 1, lift at 1. rewrite H2. unfold bind at 1. rewrite H3. exact IH.
  Qed.
  Lemma hang_over v w x y s : veqb w v = false -> ltb cmp x y = true -> add_one st x = Some s -> ltb cmp y s = true ->
    hangs within (OInsert (incl x x) v) [(incl y y, w)].
  Proof.
    intros Hw H1 H2 H3 n. cbn [im_exec_within]. unfold im_insert_within.
    assert (C : cmp y x = Gt) by ord. assert (R : leb cmp x x = true) by ord.
    unfold bind at 1. cbn [ri_start ri_end incl assert_]. rewrite R. cbn [assert_ ret].
    unfold bind at 1. cbn [get]. unfold bind at 1, lift at 1. unfold bt_range. cbn [bad_bounds].
    cbn. unfold cmpi_start. cbn. rewrite C. cbn. unfold bind.
    rewrite (surjective_pairing (im_insert_loop _ _ _ _ _ _ _ _)).
    rewrite (loop_forever v (incl x x) (incl x x) [(incl y y, w)] (incl y y) w); [reflexivity| | |].
    - cbn. unfold cmpi_start. cbn. rewrite C. reflexivity.
    - cbn. replace (gtb cmp y x) with true by (unfold gtb; ord). rewrite H2. cbn.
      replace (gtb cmp y s) with false by (unfold gtb; ord). replace (eqb cmp y s) with false by ord. reflexivity.
    - unfold im_adjust_touching_ranges_for_insert. rewrite Hw.
      replace (ri_overlaps cmp (incl x x) (incl y y)) with false; [reflexivity|].
      symmetry. unfold ri_overlaps. cbn. kord.
  Qed.
  Lemma hang_stuck v w x y s : veqb w v = false -> ltb cmp x y = true -> add_one st x = Some s -> leb cmp s x = true ->
    hangs within (OInsert (incl s x) v) [(incl s y, w)].
  Proof.
    intros Hw H1 H2 H3 n. cbn [im_exec_within]. unfold im_insert_within.
    assert (C : cmp s s = Eq) by ord.
    assert (A : im_adjust_touching_ranges_for_insert cmp veqb st (incl s y) w (incl s x) v [(incl s y, w)] = (Ret (incl s x), [(incl s y, w)])).
    { unfold im_adjust_touching_ranges_for_insert. rewrite Hw.
      replace (ri_overlaps cmp (incl s x) (incl s y)) with true by (symmetry; unfold ri_overlaps; cbn; kord).
      cbn. unfold bind, modify, cmpi_start. cbn. unfold cmpi_start. cbn. rewrite C.
      replace (ltb cmp s s) with false by ord. replace (gtb cmp y x) with true by (unfold gtb; ord).
      cbn. rewrite H2. cbn. reflexivity. }
    unfold bind at 1. cbn [ri_start ri_end incl]. rewrite H3. cbn [assert_ ret].
    unfold bind at 1. cbn [get]. unfold bind at 1, lift at 1. unfold bt_range. cbn [bad_bounds].
    cbn. unfold cmpi_start. cbn. rewrite C. cbn. unfold bind at 1, lift.
    replace (ri_touches cmp st (incl s y) (incl s x)) with (Ret true).
    2:{ unfold ri_touches. cbn. unfold kmin, kmax. replace (ltb cmp x y) with true by ord.
        replace (ltb cmp s s) with false by ord. replace (ltb cmp x s) with false by ord. cbn. f_equal. ord. }
    cbn. unfold bind. rewrite A.
    rewrite (surjective_pairing (im_insert_loop _ _ _ _ _ _ _ _)).
    rewrite (loop_forever v (incl x x) (incl s x) [(incl s y, w)] (incl s y) w); [reflexivity| | |exact A].
    - cbn. unfold cmpi_start. cbn. rewrite C. reflexivity.
    - cbn. replace (gtb cmp s x) with false by (unfold gtb; ord). reflexivity.
  Qed.
  Lemma hang_skip v w a x p : veqb w v = false -> ltb cmp a x = true -> sub_one st x = Some p -> ltb cmp p a = true ->
    hangs within (OInsert (incl p a) v) [(incl a p, w); (incl x x, v)].
  Proof.
    intros Hw H1 H2 H3 n. cbn [im_exec_within]. unfold im_insert_within.
    assert (C : cmp a p = Gt) by ord. assert (R : leb cmp p a = true) by ord.
    unfold bind at 1. cbn [ri_start ri_end incl]. rewrite R. cbn [assert_ ret].
    unfold bind at 1. cbn [get]. unfold bind at 1, lift at 1. unfold bt_range. cbn [bad_bounds].
    cbn. unfold cmpi_start. cbn. rewrite C. cbn. unfold bind.
    rewrite (surjective_pairing (im_insert_loop _ _ _ _ _ _ _ _)).
    rewrite (loop_forever v (incl a a) (incl p a) [(incl a p, w); (incl x x, v)] (incl a p) w); [reflexivity| | |].
    - cbn. unfold cmpi_start. cbn. rewrite C. reflexivity.
    - cbn. replace (gtb cmp a a) with false by (unfold gtb; ord). reflexivity.
    - unfold im_adjust_touching_ranges_for_insert. rewrite Hw.
      replace (ri_overlaps cmp (incl p a) (incl a p)) with false; [reflexivity|].
      symmetry. unfold ri_overlaps. cbn. kord.
  Qed.
  Lemma reach_skip v w a x p : veqb w v = false -> ltb cmp a x = true -> sub_one st x = Some p ->
    reached within [] [(incl a p, w); (incl x x, v)].
  Proof.
    intros Hw H1 H2.
    assert (E : within 1 (OInsert (incl x x) v) [(incl a x, w)] = (Ret tt, [(incl a p, w); (incl x x, v)])).
    { assert (C : cmp a x = Lt) by ord. assert (C' : cmp x a = Gt) by ord. assert (C2 : cmp a a = Eq) by ord.
      assert (R : leb cmp x x = true) by ord.
      assert (A : im_adjust_touching_ranges_for_insert cmp veqb st (incl a x) w (incl x x) v [(incl a x, w)] = (Ret (incl x x), [(incl a p, w)])).
      { unfold im_adjust_touching_ranges_for_insert. rewrite Hw.
        replace (ri_overlaps cmp (incl x x) (incl a x)) with true by (symmetry; unfold ri_overlaps; cbn; kord).
        unfold bind, modify. cbn. unfold cmpi_start. cbn. rewrite C2, H1, H2. cbn.
        replace (gtb cmp x x) with false by (unfold gtb; ord). reflexivity. }
      cbn [im_exec_within]. unfold im_insert_within.
      unfold bind at 1. cbn [ri_start ri_end incl]. rewrite R. cbn [assert_ ret].
      unfold bind at 1. cbn [get]. unfold bind at 1, lift at 1. unfold bt_range. cbn [bad_bounds].
      cbn. unfold cmpi_start. cbn. rewrite C. cbn. unfold bind at 1, lift.
      replace (ri_touches cmp st (incl a x) (incl x x)) with (Ret true).
      2:{ unfold ri_touches. cbn. unfold kmin, kmax. replace (ltb cmp x x) with false by ord.
          replace (ltb cmp x a) with false by ord. replace (ltb cmp x x) with false by ord. cbn. f_equal. ord. }
      cbn. unfold bind. rewrite A.
      cbn [im_insert_loop]. unfold bind, lift, get, modify, ret, bt_range. cbn. unfold cmpi_start. cbn. rewrite C. cbn.
      rewrite C'. reflexivity. }
    change [(incl a p, w); (incl x x, v)] with (snd (@Ret unit tt, [(incl a p, w); (incl x x, v)])).
    rewrite <- E. apply reached_call; [|rewrite E; discriminate]. apply reach_one. cbn. ord.
  Qed.
  Lemma hang_remove v a s x y : ltb cmp a s = true -> leb cmp s x = true -> ltb cmp x y = true -> add_one st x = Some s ->
    hangs within (ORemove (incl a x)) [(incl s y, v)].
  Proof.
    intros H1 H2 H3 H4 n. cbn [im_exec_within]. unfold im_remove_within.
    assert (C : cmp s a = Gt) by ord. assert (C2 : cmp s s = Eq) by ord. assert (R : leb cmp a x = true) by ord.
    assert (C3 : cmp a x = Lt) by ord. assert (C4 : (match cmp s x with Gt => true | _ => false end) = false)
      by (destruct (cmp s x) eqn:E; try reflexivity; ord).
    unfold bind at 1. cbn [ri_start ri_end incl]. rewrite R. cbn [assert_ ret].
    unfold bind at 1. cbn [get]. unfold bind at 1, lift at 1. unfold bt_range. cbn [bad_bounds].
    cbn. unfold cmpi_start. cbn. rewrite C. cbn.
    induction n as [|n IH]; [reflexivity|]. cbn [im_remove_loop].
    unfold bind at 1. cbn [get]. unfold bind at 1, lift at 1. unfold bt_range. cbn. unfold cmpi_start. cbn.
    rewrite C3, C. cbn. fold (cmpi_start cmp). replace (match cmp s x with Gt => true | _ => false end) with false by (symmetry; exact C4). cbn.
    unfold im_adjust_overlapping_ranges_for_remove, bind at 1, modify at 1. cbn. unfold cmpi_start. cbn.
    rewrite C2. replace (ltb cmp s a) with false by ord. replace (gtb cmp y x) with true by (unfold gtb; ord).
    unfold bind at 1. cbn. rewrite H4. cbn. exact IH.
  Qed.

  (** ** Exactly *)
  Lemma stops_never (HS : forall m o n, reached within [] m -> rounds o m < n -> fst (within n o m) <> OutOfFuel) :
    never_hangs within [].
  Proof. intros m o Hm H. exact (HS m o _ Hm (le_n _) (H _)). Qed.
  Lemma hang_exact v w : veqb w v = false -> (never_hangs within [] <-> honest cmp st).
  Proof.
    intros Hw. split.
    - intros H x y Hxy. split.
      + intros s Hs. split.
        * destruct (ltb cmp x s) eqn:E; [reflexivity|exfalso].
          apply (H [(incl s y, w)] (OInsert (incl s x) v)); [apply reach_one; cbn; ord|].
          apply hang_stuck; auto. ord.
        * destruct (leb cmp s y) eqn:E; [reflexivity|exfalso].
          apply (H [(incl y y, w)] (OInsert (incl x x) v)); [apply reach_one; cbn; ord|].
          apply (hang_over v w x y s); auto. ord.
      + intros p Hp. destruct (leb cmp x p) eqn:E; [reflexivity|exfalso].
        apply (H [(incl x p, w); (incl y y, v)] (OInsert (incl p x) v)); [apply reach_skip; auto|].
        apply hang_skip; auto. ord.
    - intros HH. apply stops_never. exact (honest_stops HH).
  Qed.
  Lemma set_exact (v : V) : (forall a b, veqb a b = true) -> (never_hangs within [] <-> never_back cmp st).
  Proof.
    intros Hv. split.
    - intros H a s x y H1 H2 H3 H4.
      apply (H [(incl s y, v)] (ORemove (incl a x))); [apply reach_one; cbn; ord|]. apply hang_remove; auto.
    - intros HB. apply stops_never. exact (sets_stop Hv HB).
  Qed.
  Lemma laws_honest : StepLaws cmp st -> honest cmp st.
  Proof.
    clear HO. intros HS x y H. split.
    - intros s E. destruct (step_succ _ _ HS x y H) as (s' & E' & H1). congruence.
    - intros p E. destruct (step_pred _ _ HS y x H) as (p' & E' & _ & H1). congruence.
  Qed.
  Lemma honest_never_back : honest cmp st -> never_back cmp st.
  Proof. intros H a s x y H1 H2 H3 H4. destruct (proj1 (H x y H3) s H4) as [H5 _]. ord. Qed.
  Lemma insert_returns (Hv : forall a b, veqb a b = true) (m : imap K V) n r v :
    SS m -> 2 * S (length m) < n -> fst (im_insert_within cmp veqb st n r v m) <> OutOfFuel.
  Proof.
    intros HI Hn E.
    assert (T : tri (n <= 2 * S (length m)) (INV (fun _ => True)) (im_insert_within cmp veqb st n r v) m
      (fun _ m' => INV (fun _ => True) m' /\ length m' <= 2 + length m)).
    { apply tri_insert; try (intros; exact I); [exact (s_loop Hv)|]. split; [exact HI|]. apply Forall_forall. auto. }
    unfold tri in T. destruct (im_insert_within cmp veqb st n r v m) as [[a|p|] m']; cbn in *; try discriminate. lia.
  Qed.
End Within.

Lemma set_insert_returns {K} {cmp : K -> K -> comparison} {st : stepfns K} (HO : TotalOrd cmp) (s : imap K unit) n r :
  StronglySorted (fun a b => ltb cmp (ri_start (fst a)) (ri_start (fst b)) = true) s ->
  2 * S (length s) < n -> fst (im_insert_within cmp (fun _ _ => true) st n r tt s) <> OutOfFuel.
Proof. exact (insert_returns HO (fun _ _ => eq_refl) s n r tt). Qed.
