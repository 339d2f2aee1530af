(** The maps with explicit clones simulate the maps without: if clones are
    indistinguishable from their originals, so are the maps. *)
From Coq Require Import List Bool Lia.
From Verif Require Import Order Outcome BTree Ranges History Spec MapModel IMapModel CloneModel
  ListLemmas.
Import ListNotations.

(** ** Relations on outcomes, options and lists *)
Inductive orel {A B} (R : A -> B -> Prop) : outcome A -> outcome B -> Prop :=
| orel_ret a b : R a b -> orel R (Ret a) (Ret b)
| orel_panic p : orel R (Panicked p) (Panicked p)
| orel_fuel : orel R OutOfFuel OutOfFuel.

Section Lists.
  Context {A B : Type} {R : A -> B -> Prop}.
  Lemma f2_rev l l' : Forall2 R l l' -> Forall2 R (rev l) (rev l').
  Proof.
    induction 1 as [|a b l l' H1 _ IH]; cbn; [constructor|].
    apply Forall2_app; [exact IH|]. constructor; [exact H1|constructor].
  Qed.
  Lemma f2_firstn n : forall l l', Forall2 R l l' -> Forall2 R (firstn n l) (firstn n l').
  Proof.
    induction n as [|n IH]; intros l l' H; cbn; [constructor|].
    destruct H as [|a b l l' H1 H2]; constructor; [exact H1|]. apply IH, H2.
  Qed.
  Lemma f2_length l l' : Forall2 R l l' -> length l = length l'.
  Proof. induction 1 as [|a b l l' _ _ IH]; cbn; [reflexivity|]. rewrite IH. reflexivity. Qed.
  Lemma f2_take p p' : (forall a b, R a b -> p' b = p a) -> forall l l', Forall2 R l l' ->
    Forall2 R (take_while p l) (take_while p' l').
  Proof.
    intros Hp l l' H. induction H as [|a b l l' H1 _ IH]; cbn; [constructor|].
    rewrite (Hp a b H1). destruct (p a); constructor; assumption.
  Qed.
  Lemma f2_drop p p' : (forall a b, R a b -> p' b = p a) -> forall l l', Forall2 R l l' ->
    Forall2 R (drop_while p l) (drop_while p' l').
  Proof.
    intros Hp l l' H. induction H as [|a b l l' H1 H2 IH]; cbn; [constructor|].
    rewrite (Hp a b H1). destruct (p a); [exact IH|]. constructor; assumption.
  Qed.
  Lemma f2_filter p p' : (forall a b, R a b -> p' b = p a) -> forall l l', Forall2 R l l' ->
    Forall2 R (filter p l) (filter p' l').
  Proof.
    intros Hp l l' H. induction H as [|a b l l' H1 H2 IH]; cbn; [constructor|].
    rewrite (Hp a b H1). destruct (p a); [|exact IH]. constructor; assumption.
  Qed.
  Lemma f2_next l l' : Forall2 R l l' ->
    optrel R (fst (it_next l)) (fst (it_next l')) /\ Forall2 R (snd (it_next l)) (snd (it_next l')).
  Proof. intros [|a b t t' H1 H2]; cbn; split; auto. Qed.
  Lemma f2_last l l' : Forall2 R l l' -> optrel R (last_opt l) (last_opt l').
  Proof.
    intros H. unfold last_opt, it_next_back. destruct (f2_rev _ _ H); cbn; auto.
  Qed.
End Lists.

(** ** Simulation *)
Section Sim.
  Context {S S' : Type} (RS : S -> S' -> Prop).

  Definition csim {A B} (R : A -> B -> Prop) (c : M S A) (c' : M (counted S') B) : Prop :=
    forall s n s', RS s s' ->
      orel R (fst (c s)) (fst (c' (n, s'))) /\ RS (snd (c s)) (snd (snd (c' (n, s')))).

  Lemma csim_ret {A B} (R : A -> B -> Prop) a b : R a b -> csim R (ret a) (ret b).
  Proof. intros H s n s' Hs. split; [constructor; exact H|exact Hs]. Qed.
  Lemma csim_bind {A B C D} (R : A -> B -> Prop) (Q : C -> D -> Prop) c c' h h' :
    csim R c c' -> (forall a b, R a b -> csim Q (h a) (h' b)) -> csim Q (bind c h) (bind c' h').
  Proof.
    intros H1 H2 s n s' Hs. specialize (H1 s n s' Hs). unfold bind.
    destruct (c s) as [x s1]; destruct (c' (n, s')) as [y [n1 s1']]; cbn in H1.
    destruct H1 as [Ho Hs1]. destruct Ho as [a b Hab|p|]; cbn.
    - apply (H2 a b Hab s1 n1 s1' Hs1).
    - split; [constructor|exact Hs1].
    - split; [constructor|exact Hs1].
  Qed.
  (** a clone on the right, nothing on the left *)
  Lemma csim_clone {A B X} (R : A -> B -> Prop) (cl : nat -> X -> X) (k : X) c h' :
    (forall n, csim R c (h' (cl n k))) ->
    csim R c (bind (fun s => (Ret (cl (fst s) k), (Datatypes.S (fst s), snd s))) h').
  Proof.
    intros H s n s' Hs. unfold bind. cbn. apply (H n s (Datatypes.S n) s' Hs).
  Qed.
  Lemma csim_get : csim RS get cget.
  Proof. intros s n s' Hs. split; [constructor|]; exact Hs. Qed.
  Lemma csim_modify f f' : (forall s s', RS s s' -> RS (f s) (f' s')) ->
    csim (fun _ _ => True) (modify f) (cmodify f').
  Proof. intros H s n s' Hs. split; [constructor; exact I|]. cbn. apply H, Hs. Qed.
  Lemma csim_lift {A B} (R : A -> B -> Prop) o o' : orel R o o' -> csim R (lift o) (lift o').
  Proof. intros H s n s' Hs. split; [exact H|exact Hs]. Qed.
  Lemma csim_if {A B} (R : A -> B -> Prop) (b b' : bool) c d c' d' :
    b' = b -> (b = true -> csim R c c') -> (b = false -> csim R d d') ->
    csim R (if b then c else d) (if b' then c' else d').
  Proof. intros -> H1 H2. destruct b; auto. Qed.
  Lemma csim_nofuel {A B} (R : A -> B -> Prop) : csim R nofuel nofuel.
  Proof. intros s n s' Hs. split; [constructor|exact Hs]. Qed.
  Lemma csim_assert b b' : b' = b -> csim (fun _ _ => True) (assert_ b) (assert_ b').
  Proof. intros -> s n s' Hs. destruct b; split; cbn; try exact Hs; constructor; exact I. Qed.
  Lemma csim_for_each {A B} (R : A -> B -> Prop) h h' l l' :
    (forall a b, R a b -> csim (fun _ _ => True) (h a) (h' b)) -> Forall2 R l l' ->
    csim (fun _ _ => True) (for_each h l) (for_each h' l').
  Proof.
    intros Hh H. induction H as [|a b l l' H1 _ IH]; cbn; [apply csim_ret; exact I|].
    eapply csim_bind; [apply Hh, H1|]. intros _ _ _. exact IH.
  Qed.
  Lemma csim_run {O O'} (RO : O -> O' -> Prop) (ex : O -> M S unit) (ex' : O' -> M (counted S') unit) :
    (forall o o', RO o o' -> csim (fun _ _ => True) (ex o) (ex' o')) ->
    forall ops ops', Forall2 RO ops ops' -> forall s n s', RS s s' ->
    RS (run_ops ex ops s) (snd (run_ops ex' ops' (n, s'))).
  Proof.
    intros He ops ops' H. induction H as [|o o' ops ops' H1 _ IH]; intros s n s' Hs; cbn; [exact Hs|].
    destruct (He o o' H1 s n s' Hs) as [_ H2]. destruct (ex' o' (n, s')) as [x [n1 s1]].
    apply IH, H2.
  Qed.
End Sim.

Lemma orel_bind {A B C D} (R : A -> B -> Prop) (Q : C -> D -> Prop) o o' f f' :
  orel R o o' -> (forall a b, R a b -> orel Q (f a) (f' b)) -> orel Q (obind o f) (obind o' f').
Proof. intros [a b H|p|] Hf; cbn; [apply Hf, H|constructor|constructor]. Qed.
Lemma orel_impl {A B} (R Q : A -> B -> Prop) o o' : orel R o o' -> (forall a b, R a b -> Q a b) -> orel Q o o'.
Proof. intros [a b H|p|] HQ; constructor; auto. Qed.

(** ** Keys and values *)
Section Keys.
  Context {K V : Type} {cmp : K -> K -> comparison} {veqb : V -> V -> bool}.
  Context {kcl : nat -> K -> K} {vcl : nat -> V -> V}.
  Context {RK : K -> K -> Prop} {RV : V -> V -> Prop}.
  Context (HK : forall a b a' b', RK a a' -> RK b b' -> cmp a' b' = cmp a b).
  Context (HV : forall v w v' w', RV v v' -> RV w w' -> veqb v' w' = veqb v w).
  Context (CK : forall n a a', RK a a' -> RK a (kcl n a')).
  Context (CV : forall n v v', RV v v' -> RV v (vcl n v')).

  Lemma c_ltb a b a' b' : RK a a' -> RK b b' -> ltb cmp a' b' = ltb cmp a b.
  Proof. intros H1 H2. unfold ltb. rewrite (HK _ _ _ _ H1 H2). reflexivity. Qed.
  Lemma c_leb a b a' b' : RK a a' -> RK b b' -> leb cmp a' b' = leb cmp a b.
  Proof. intros H1 H2. unfold leb. rewrite (HK _ _ _ _ H1 H2). reflexivity. Qed.
  Lemma c_gtb a b a' b' : RK a a' -> RK b b' -> gtb cmp a' b' = gtb cmp a b.
  Proof. intros H1 H2. unfold gtb. apply c_ltb; assumption. Qed.
  Lemma c_eqb a b a' b' : RK a a' -> RK b b' -> eqb cmp a' b' = eqb cmp a b.
  Proof. intros H1 H2. unfold eqb. rewrite (HK _ _ _ _ H1 H2). reflexivity. Qed.
  Lemma c_kmin a b a' b' : RK a a' -> RK b b' -> RK (kmin cmp a b) (kmin cmp a' b').
  Proof. intros H1 H2. unfold kmin. rewrite (c_ltb b a b' a') by assumption. destruct (ltb cmp b a); assumption. Qed.
  Lemma c_kmax a b a' b' : RK a a' -> RK b b' -> RK (kmax cmp a b) (kmax cmp a' b').
  Proof. intros H1 H2. unfold kmax. rewrite (c_ltb b a b' a') by assumption. destruct (ltb cmp b a); assumption. Qed.

  (** *** Half-open *)
  Definition Rr (r r' : range K) : Prop := RK (r_start r) (r_start r') /\ RK (r_end r) (r_end r').
  Definition Re (e e' : range K * V) : Prop := Rr (fst e) (fst e') /\ RV (snd e) (snd e').
  Notation Rm := (Forall2 Re).
  Definition Rop (o o' : op (range K) V) : Prop :=
    match o, o' with
    | OInsert r v, OInsert r' v' => Rr r r' /\ RV v v'
    | ORemove r, ORemove r' => Rr r r'
    | OClear, OClear => True
    | OExtend l, OExtend l' => Forall2 Re l l'
    | _, _ => False
    end.
  Notation T := (fun _ _ => True).

  Lemma c_overlaps a b a' b' : Rr a a' -> Rr b b' -> r_overlaps cmp a' b' = r_overlaps cmp a b.
  Proof. intros [? ?] [? ?]. unfold r_overlaps. apply c_ltb; [apply c_kmax|apply c_kmin]; assumption. Qed.
  Lemma c_touches a b a' b' : Rr a a' -> Rr b b' -> r_touches cmp a' b' = r_touches cmp a b.
  Proof. intros [? ?] [? ?]. unfold r_touches. apply c_leb; [apply c_kmax|apply c_kmin]; assumption. Qed.
  Lemma c_contains r k r' k' : Rr r r' -> RK k k' -> r_contains cmp r' k' = r_contains cmp r k.
  Proof. intros [? ?] ?. unfold r_contains. f_equal; [apply c_leb|apply c_ltb]; assumption. Qed.
  Lemma c_start a b a' b' : Rr a a' -> Rr b b' -> cmp_start cmp a' b' = cmp_start cmp a b.
  Proof. intros [? ?] [? ?]. apply HK; assumption. Qed.
  Lemma c_end a b a' b' : Rr a a' -> Rr b b' -> cmp_end cmp a' b' = cmp_end cmp a b.
  Proof. intros [? ?] [? ?]. apply HK; assumption. Qed.

  (** [BTreeMap], for any key type, relation and orderings that agree *)
  Section BT.
    Context {Q : Type} {RQ : Q -> Q -> Prop} {c : Q -> Q -> comparison}.
    Context (Hc : forall a b a' b', RQ a a' -> RQ b b' -> c a' b' = c a b).
    Notation RE := (fun e e' : Q * V => RQ (fst e) (fst e') /\ RV (snd e) (snd e')).
    Definition Rb (b b' : bound Q) : Prop :=
      match b, b' with
      | Unbounded, Unbounded => True
      | Included q, Included q' | Excluded q, Excluded q' => RQ q q'
      | _, _ => False
      end.
    Lemma c_bt_insert k v k' v' m m' : RQ k k' -> RV v v' -> Forall2 RE m m' ->
      Forall2 RE (bt_insert c k v m) (bt_insert c k' v' m').
    Proof.
      intros Hk Hv H. induction H as [|[k0 v0] [k1 v1] m m' H1 H2 IH]; cbn.
      - repeat constructor; assumption.
      - destruct H1 as [H1 H1']. cbn in H1, H1'. rewrite (Hc _ _ _ _ Hk H1).
        destruct (c k k0); try assumption; repeat (constructor; try assumption).
    Qed.
    Lemma c_bt_remove k k' m m' : RQ k k' -> Forall2 RE m m' ->
      Forall2 RE (bt_remove c k m) (bt_remove c k' m').
    Proof.
      intros Hk H. induction H as [|[k0 v0] [k1 v1] m m' H1 H2 IH]; cbn; [constructor|].
      destruct H1 as [H1 H1']. cbn in H1, H1'. rewrite (Hc _ _ _ _ Hk H1).
      destruct (c k k0); try assumption; repeat (constructor; try assumption).
    Qed.
    Lemma c_bt_range lo hi lo' hi' m m' : Rb lo lo' -> Rb hi hi' -> Forall2 RE m m' ->
      orel (Forall2 RE) (bt_range c lo hi m) (bt_range c lo' hi' m').
    Proof.
      intros Hlo Hhi H. unfold bt_range.
      assert (E : bad_bounds c lo' hi' = bad_bounds c lo hi).
      { destruct lo, lo'; try contradiction Hlo; destruct hi, hi'; try contradiction Hhi; cbn;
          try reflexivity; cbn in Hlo, Hhi; rewrite (Hc _ _ _ _ Hlo Hhi); reflexivity. }
      rewrite E. destruct (bad_bounds c lo hi); constructor.
      eapply f2_take; [|eapply f2_drop; [|exact H]].
      - intros a b [Ha _]. f_equal. destruct hi, hi'; try contradiction Hhi; cbn; [reflexivity| |];
          cbn in Hhi; rewrite (Hc _ _ _ _ Ha Hhi); reflexivity.
      - intros a b [Ha _]. destruct lo, lo'; try contradiction Hlo; cbn; [reflexivity| |];
          cbn in Hlo; rewrite (Hc _ _ _ _ Ha Hlo); reflexivity.
    Qed.
  End BT.

  Notation rsim := (csim (Forall2 Re)).
  Lemma rsim_kclone {A B} (R : A -> B -> Prop) k k' c h' : RK k k' ->
    (forall k'', RK k k'' -> rsim R c (h' k'')) -> rsim R c (bind (kclone kcl k') h').
  Proof. intros H1 H2. apply csim_clone. intros n. apply H2, CK, H1. Qed.
  Lemma rsim_vclone {A B} (R : A -> B -> Prop) v v' c h' : RV v v' ->
    (forall v'', RV v v'' -> rsim R c (h' v'')) -> rsim R c (bind (vclone vcl v') h').
  Proof. intros H1 H2. apply csim_clone. intros n. apply H2, CV, H1. Qed.
  Lemma bind_assoc {S A B C} (c : M S A) (f : A -> M S B) (g : B -> M S C) s :
    bind (bind c f) g s = bind c (fun a => bind (f a) g) s.
  Proof. unfold bind. destruct (c s) as [[a|p|] s1]; reflexivity. Qed.
  Lemma csim_assoc {S S' A B C D} (RS : S -> S' -> Prop) (R : A -> B -> Prop) c
      (x : M (counted S') C) (f : C -> M (counted S') D) g :
    csim RS R c (bind x (fun a => bind (f a) g)) -> csim RS R c (bind (bind x f) g).
  Proof. intros H s n s' Hs. rewrite bind_assoc. apply H, Hs. Qed.
  Lemma rsim_rclone {A B} (R : A -> B -> Prop) r r' c h' : Rr r r' ->
    (forall r'', Rr r r'' -> rsim R c (h' r'')) -> rsim R c (bind (r_clone kcl r') h').
  Proof.
    intros [H1 H2] H. unfold r_clone. apply csim_assoc. apply (rsim_kclone R _ _ _ _ H1).
    intros s Hs. apply csim_assoc. apply (rsim_kclone R _ _ _ _ H2). intros e He.
    intros m n m' Hm. unfold bind at 1. cbn. apply H; [|exact Hm]. split; assumption.
  Qed.

  Lemma rsim_insert k v k' v' : Rr k k' -> RV v v' ->
    rsim T (modify (bt_insert (cmp_start cmp) k v)) (cmodify (bt_insert (cmp_start cmp) k' v')).
  Proof. intros Hk Hv. apply csim_modify. intros m m' Hm. apply (c_bt_insert c_start); assumption. Qed.
  Lemma rsim_remove k k' : Rr k k' ->
    rsim T (modify (bt_remove (cmp_start cmp) k)) (cmodify (bt_remove (cmp_start cmp) k')).
  Proof. intros Hk. apply csim_modify. intros m m' Hm. apply (c_bt_remove c_start); assumption. Qed.
  Lemma csim_ret_bind {S S' A B C} (RS : S -> S' -> Prop) (R : A -> B -> Prop) c (a : C) h' :
    csim RS R c (h' a) -> csim RS R c (bind (ret a) h').
  Proof. intros H. exact H. Qed.

  Lemma c_adjust_insert s sv r v s' sv' r' v' : Rr s s' -> RV sv sv' -> Rr r r' -> RV v v' ->
    rsim Rr (rm_adjust_touching_ranges_for_insert cmp veqb s sv r v)
            (rmc_adjust_touching_ranges_for_insert kcl vcl cmp veqb s' sv' r' v').
  Proof.
    intros Hs Hsv Hr Hv. pose proof Hs as [Hs1 Hs2]. pose proof Hr as [Hr1 Hr2].
    unfold rm_adjust_touching_ranges_for_insert, rmc_adjust_touching_ranges_for_insert.
    apply csim_if; [apply HV; assumption| |]; intros _.
    - eapply rsim_kclone; [apply c_kmin; [exact Hr1|exact Hs1]|]. intros a Ha.
      eapply rsim_kclone; [apply c_kmax; [exact Hr2|exact Hs2]|]. intros b Hb.
      eapply csim_bind; [apply rsim_remove, Hs|]. intros _ _ _. apply csim_ret. split; assumption.
    - apply csim_if; [apply c_overlaps; assumption| |]; intros _; [|apply csim_ret, Hr].
      eapply csim_bind; [apply rsim_remove, Hs|]. intros _ _ _.
      eapply (csim_bind _ T).
      { apply csim_if; [apply c_ltb; assumption| |]; intros _; [|apply csim_ret; exact I].
        eapply rsim_kclone; [exact Hr1|]. intros k Hk.
        eapply rsim_vclone; [exact Hsv|]. intros w Hw. apply rsim_insert; [split|]; assumption. }
      intros _ _ _. eapply (csim_bind _ T).
      { apply csim_if; [apply c_gtb; assumption| |]; intros _; [|apply csim_ret; exact I].
        eapply rsim_kclone; [exact Hr2|]. intros k Hk. apply rsim_insert; [split|]; assumption. }
      intros _ _ _. apply csim_ret, Hr.
  Qed.
  Lemma c_insert_loop fuel : forall r v e r' v' e', Rr r r' -> RV v v' -> Rr e e' ->
    rsim Rr (rm_insert_loop cmp veqb fuel r v e) (rmc_insert_loop kcl vcl cmp veqb fuel r' v' e').
  Proof.
    induction fuel as [|fuel IH]; intros r v e r' v' e' Hr Hv He; [apply csim_nofuel|].
    cbn [rm_insert_loop rmc_insert_loop].
    eapply csim_bind; [apply csim_get|]. intros m m' Hm.
    eapply csim_bind; [apply csim_lift; eapply (c_bt_range c_start); [exact Hr|exact He|exact Hm]|].
    intros l l' Hl. destruct (f2_next _ _ Hl) as [Hn _].
    destruct (fst (it_next l)) as [[s sv]|], (fst (it_next l')) as [[s' sv']|]; try contradiction Hn;
      [|apply csim_ret, Hr].
    destruct Hn as [Hs Hsv]. cbn in Hs, Hsv.
    apply csim_if.
    { f_equal; [apply c_eqb; [apply Hs|apply Hr]|]. f_equal. apply HV; assumption. }
    { intros _. apply csim_ret, Hr. }
    intros _. eapply rsim_rclone; [exact Hs|]. intros s'' Hs'.
    eapply rsim_vclone; [exact Hsv|]. intros sv'' Hsv'.
    eapply csim_bind; [apply c_adjust_insert; assumption|]. intros r1 r1' Hr1. apply IH; assumption.
  Qed.
  Lemma c_insert r v r' v' : Rr r r' -> RV v v' ->
    rsim T (rm_insert cmp veqb r v) (rmc_insert kcl vcl cmp veqb r' v').
  Proof.
    intros Hr Hv. unfold rm_insert, rmc_insert.
    eapply csim_bind; [apply csim_assert, c_ltb; apply Hr|]. intros _ _ _.
    eapply csim_bind; [apply csim_get|]. intros m m' Hm.
    eapply csim_bind; [apply csim_lift; eapply (c_bt_range c_start); [exact I|exact Hr|exact Hm]|].
    intros l l' Hl. eapply (csim_bind _ Rr).
    { assert (Hf : Forall2 Re (filter (fun e => r_touches cmp (fst e) r) (firstn 2 (rev l)))
                     (filter (fun e => r_touches cmp (fst e) r') (firstn 2 (rev l')))).
      { eapply f2_filter; [|apply f2_firstn, f2_rev, Hl]. intros a b [Ha _]. apply c_touches; assumption. }
      assert (Ha : forall s sv s' sv', Rr s s' -> RV sv sv' ->
        rsim Rr (rm_adjust_touching_ranges_for_insert cmp veqb s sv r v)
          (s2 <- r_clone kcl s' ;; sv2 <- vclone vcl sv' ;;
           rmc_adjust_touching_ranges_for_insert kcl vcl cmp veqb s2 sv2 r' v')%M).
      { intros s sv s' sv' Hs Hsv. eapply rsim_rclone; [exact Hs|]. intros s2 Hs2.
        eapply rsim_vclone; [exact Hsv|]. intros sv2 Hsv2. apply c_adjust_insert; assumption. }
      destruct Hf as [|[s sv] [s' sv'] t t' [H1 H2] Ht]; [apply csim_ret, Hr|].
      destruct Ht as [|[s0 sv0] [s0' sv0'] t t' [H3 H4] Ht]; apply Ha; assumption. }
    intros r1 r1' Hr1.
    eapply rsim_kclone; [apply Hr1|]. intros k1 Hk1.
    eapply rsim_kclone; [apply Hr1|]. intros k2 Hk2.
    eapply csim_bind; [apply csim_get|]. intros m1 m1' Hm1. rewrite (f2_length _ _ Hm1).
    eapply csim_bind; [apply c_insert_loop; [exact Hr1|exact Hv|split; assumption]|].
    intros r2 r2' Hr2. apply rsim_insert; assumption.
  Qed.
  Lemma c_adjust_remove s sv r s' sv' r' : Rr s s' -> RV sv sv' -> Rr r r' ->
    rsim T (rm_adjust_overlapping_ranges_for_remove cmp s sv r)
           (rmc_adjust_overlapping_ranges_for_remove kcl vcl cmp s' sv' r').
  Proof.
    intros Hs Hsv Hr. pose proof Hs as [Hs1 Hs2]. pose proof Hr as [Hr1 Hr2].
    unfold rm_adjust_overlapping_ranges_for_remove, rmc_adjust_overlapping_ranges_for_remove.
    eapply csim_bind; [apply rsim_remove, Hs|]. intros _ _ _.
    eapply (csim_bind _ T).
    { apply csim_if; [apply c_ltb; assumption| |]; intros _; [|apply csim_ret; exact I].
      eapply rsim_kclone; [exact Hr1|]. intros k Hk.
      eapply rsim_vclone; [exact Hsv|]. intros w Hw. apply rsim_insert; [split|]; assumption. }
    intros _ _ _. apply csim_if; [apply c_gtb; assumption| |]; intros _; [|apply csim_ret; exact I].
    eapply rsim_kclone; [exact Hr2|]. intros k Hk. apply rsim_insert; [split|]; assumption.
  Qed.
  Lemma c_remove_loop fuel : forall r e r' e', Rr r r' -> Rr e e' ->
    rsim T (rm_remove_loop cmp (V:=V) fuel r e) (rmc_remove_loop kcl vcl cmp fuel r' e').
  Proof.
    induction fuel as [|fuel IH]; intros r e r' e' Hr He; [apply csim_nofuel|].
    cbn [rm_remove_loop rmc_remove_loop].
    eapply csim_bind; [apply csim_get|]. intros m m' Hm.
    eapply csim_bind; [apply csim_lift; eapply (c_bt_range c_start); [exact Hr|exact He|exact Hm]|].
    intros l l' Hl. destruct (f2_next _ _ Hl) as [Hn _].
    destruct (fst (it_next l)) as [[s sv]|], (fst (it_next l')) as [[s' sv']|]; try contradiction Hn;
      [|apply csim_ret; exact I].
    destruct Hn as [Hs Hsv]. cbn in Hs, Hsv.
    eapply rsim_rclone; [exact Hs|]. intros s'' Hs'.
    eapply rsim_vclone; [exact Hsv|]. intros sv'' Hsv'.
    eapply csim_bind; [apply c_adjust_remove; assumption|]. intros _ _ _. apply IH; assumption.
  Qed.
  Lemma c_remove r r' : Rr r r' -> rsim T (rm_remove cmp (V:=V) r) (rmc_remove kcl vcl cmp r').
  Proof.
    intros Hr. unfold rm_remove, rmc_remove.
    eapply csim_bind; [apply csim_assert, c_ltb; apply Hr|]. intros _ _ _.
    eapply csim_bind; [apply csim_get|]. intros m m' Hm.
    eapply csim_bind; [apply csim_lift; eapply (c_bt_range c_start); [exact I|exact Hr|exact Hm]|].
    intros l l' Hl. eapply (csim_bind _ T).
    { pose proof (f2_last _ _ Hl) as Hn.
      destruct (last_opt l) as [[s sv]|], (last_opt l') as [[s' sv']|]; try contradiction Hn;
        [|apply csim_ret; exact I].
      destruct Hn as [Hs Hsv]. cbn in Hs, Hsv.
      apply csim_if; [apply c_overlaps; assumption| |]; intros _; [|apply csim_ret; exact I].
      eapply rsim_rclone; [exact Hs|]. intros s'' Hs'.
      eapply rsim_vclone; [exact Hsv|]. intros sv'' Hsv'. apply c_adjust_remove; assumption. }
    intros _ _ _.
    eapply rsim_kclone; [apply Hr|]. intros k1 Hk1.
    eapply rsim_kclone; [apply Hr|]. intros k2 Hk2.
    eapply csim_bind; [apply csim_get|]. intros m1 m1' Hm1. rewrite (f2_length _ _ Hm1).
    apply c_remove_loop; [exact Hr|split; assumption].
  Qed.
  Lemma c_exec o o' : Rop o o' -> rsim T (rm_exec cmp veqb o) (rmc_exec kcl vcl cmp veqb o').
  Proof.
    destruct o as [r v|r| |l], o' as [r' v'|r'| |l']; intros H; try contradiction H; cbn.
    - apply c_insert; apply H.
    - apply c_remove, H.
    - apply csim_modify. intros m m' _. constructor.
    - eapply csim_for_each; [|exact H]. intros [r v] [r' v'] [Hr Hv]. apply c_insert; assumption.
  Qed.
  Lemma c_run ops ops' : Forall2 Rop ops ops' ->
    Forall2 Re (rm_run cmp veqb ops) (snd (rmc_run kcl vcl cmp veqb ops')).
  Proof. intros H. apply (csim_run _ Rop _ _ c_exec _ _ H). constructor. Qed.

  (** Queries *)
  Lemma c_get_key_value (m : rmap K V) n (m' : rmap K V) k k' : Forall2 Re m m' -> RK k k' ->
    orel (optrel Re) (rm_get_key_value cmp m k) (fst (rmc_get_key_value kcl cmp k' (n, m')))
    /\ snd (snd (rmc_get_key_value kcl cmp k' (n, m'))) = m'.
  Proof.
    intros Hm Hk. unfold rmc_get_key_value, rm_get_key_value, bind, kclone, cget, lift, ret. cbn [fst snd].
    assert (H : orel (Forall2 Re) (bt_range (cmp_start cmp) Unbounded (Included (mkR k k)) m)
      (bt_range (cmp_start cmp) Unbounded (Included (mkR (kcl n k') (kcl (S n) k'))) m')).
    { apply (c_bt_range c_start); [exact I| |exact Hm]. split; apply CK, Hk. }
    destruct H as [l l' Hl|p|]; cbn; (split; [|reflexivity]); [|constructor|constructor].
    constructor. pose proof (f2_last _ _ Hl) as Hn.
    destruct (last_opt l) as [[s sv]|], (last_opt l') as [[s' sv']|]; try contradiction Hn; [|exact I].
    destruct Hn as [Hs Hsv]. cbn in *. rewrite (c_contains s k s' k') by assumption.
    destruct (r_contains cmp s k); [|exact I]. split; assumption.
  Qed.
  Lemma c_overlapping (m : rmap K V) n (m' : rmap K V) q q' : Forall2 Re m m' -> Rr q q' ->
    orel (fun o o' => ov_query o = q /\ ov_query o' = q' /\ Forall2 Re (ov_iter o) (ov_iter o'))
      (rm_overlapping cmp m q) (fst (rmc_overlapping kcl cmp q' (n, m')))
    /\ snd (snd (rmc_overlapping kcl cmp q' (n, m'))) = m'.
  Proof.
    intros Hm [Hq1 Hq2]. unfold rmc_overlapping, rm_overlapping, bind, kclone, cget, lift, ret. cbn [fst snd].
    assert (H : orel (Forall2 Re)
      (bt_range (cmp_end cmp) (Excluded (mkR (r_start q) (r_start q))) Unbounded m)
      (bt_range (cmp_end cmp) (Excluded (mkR (kcl n (r_start q')) (kcl (S n) (r_start q')))) Unbounded m')).
    { apply (c_bt_range c_end); [|exact I|exact Hm]. split; apply CK, Hq1. }
    destruct H as [l l' Hl|p|]; cbn; (split; [|reflexivity]); [|constructor|constructor].
    constructor. cbn. auto.
  Qed.
  Lemma c_ov_next o o' : Rr (ov_query o) (ov_query o') -> Forall2 Re (ov_iter o) (ov_iter o') ->
    optrel Re (fst (ov_next cmp o)) (fst (ov_next cmp o'))
    /\ ov_query (snd (ov_next cmp o)) = ov_query o /\ ov_query (snd (ov_next cmp o')) = ov_query o'
    /\ Forall2 Re (ov_iter (snd (ov_next cmp o))) (ov_iter (snd (ov_next cmp o'))).
  Proof.
    intros Hq Hl. unfold ov_next. destruct Hl as [|e e' l l' He Hl]; cbn; [repeat split; constructor|].
    rewrite (c_ltb _ _ _ _ (proj1 (proj1 He)) (proj2 Hq)).
    destruct (ltb _ _ _); cbn; repeat split; try apply He; assumption.
  Qed.
  Lemma c_ov_back_loop q q' : Rr q q' -> forall l l', Forall2 Re l l' ->
    optrel Re (fst (ov_back_loop cmp q l)) (fst (ov_back_loop cmp q' l'))
    /\ Forall2 Re (snd (ov_back_loop cmp q l)) (snd (ov_back_loop cmp q' l')).
  Proof.
    intros Hq l l' H. induction H as [|e e' l l' He Hl IH]; cbn; [repeat split; constructor|].
    rewrite (c_ltb _ _ _ _ (proj1 (proj1 He)) (proj2 Hq)).
    destruct (ltb _ _ _); cbn; [|exact IH]. split; assumption.
  Qed.
  Lemma c_ov_next_back o o' : Rr (ov_query o) (ov_query o') -> Forall2 Re (ov_iter o) (ov_iter o') ->
    optrel Re (fst (ov_next_back cmp o)) (fst (ov_next_back cmp o'))
    /\ ov_query (snd (ov_next_back cmp o)) = ov_query o /\ ov_query (snd (ov_next_back cmp o')) = ov_query o'
    /\ Forall2 Re (ov_iter (snd (ov_next_back cmp o))) (ov_iter (snd (ov_next_back cmp o'))).
  Proof.
    intros Hq Hl. unfold ov_next_back.
    destruct (c_ov_back_loop _ _ Hq _ _ (f2_rev _ _ Hl)) as [H1 H2].
    destruct (ov_back_loop cmp (ov_query o) (rev (ov_iter o))) as [x t].
    destruct (ov_back_loop cmp (ov_query o') (rev (ov_iter o'))) as [x' t']. cbn in *.
    repeat split; [exact H1|]. apply f2_rev, H2.
  Qed.
  Lemma c_ov_sched sched : forall o o', Rr (ov_query o) (ov_query o') -> Forall2 Re (ov_iter o) (ov_iter o') ->
    Forall2 (fun a b => optrel Re (fst a) (fst b))
      (sched_trace (both (ov_next cmp) (ov_next_back cmp)) (fun _ => tt) sched o)
      (sched_trace (both (ov_next cmp) (ov_next_back cmp)) (fun _ => tt) sched o').
  Proof.
    induction sched as [|d sched IH]; intros o o' Hq Hl; cbn; [constructor|].
    destruct d; cbn.
    - destruct (c_ov_next o o' Hq Hl) as (H1 & H2 & H3 & H4).
      destruct (ov_next cmp o) as [x t], (ov_next cmp o') as [x' t']. cbn in *.
      constructor; [exact H1|]. apply IH; [rewrite H2, H3; exact Hq|exact H4].
    - destruct (c_ov_next_back o o' Hq Hl) as (H1 & H2 & H3 & H4).
      destruct (ov_next_back cmp o) as [x t], (ov_next_back cmp o') as [x' t']. cbn in *.
      constructor; [exact H1|]. apply IH; [rewrite H2, H3; exact Hq|exact H4].
  Qed.

  Definition Rg (g g' : gaps K V) : Prop :=
    RK (gp_candidate_start g) (gp_candidate_start g') /\ RK (gp_query_end g) (gp_query_end g')
    /\ Forall2 Re (gp_iter g) (gp_iter g').
  Lemma c_gaps (m : rmap K V) n (m' : rmap K V) q q' : Forall2 Re m m' -> Rr q q' ->
    orel Rg (rm_gaps cmp m q) (fst (rmc_gaps kcl cmp q' (n, m'))).
  Proof.
    intros Hm Hq. destruct (c_overlapping m n m' q q' Hm Hq) as [H _].
    unfold rm_gaps, rmc_gaps, bind, omap.
    destruct (rmc_overlapping kcl cmp q' (n, m')) as [x s]. cbn [fst] in H.
    destruct H as [o o' (_ & _ & H)|p|]; cbn; constructor. destruct Hq as [Hq1 Hq2].
    repeat split; assumption.
  Qed.
  Lemma c_gp_loop {S} qend qend' : RK qend qend' -> forall l l', Forall2 Re l l' ->
    forall cand cand' n (s : S), RK cand cand' ->
    exists n' x', gpc_loop kcl cmp cand' qend' l' (n, s) = (Ret x', (n', s))
      /\ optrel Rr (fst (fst (gp_loop cmp cand qend l))) (fst (fst x'))
      /\ RK (snd (fst (gp_loop cmp cand qend l))) (snd (fst x'))
      /\ Forall2 Re (snd (gp_loop cmp cand qend l)) (snd x').
  Proof.
    intros Hq l l' H. induction H as [|[o v] [o' v'] l l' [[Ho1 Ho2] Hv] Hl IH]; intros cand cand' n s Hc; cbn.
    - exists n, (None, cand', []). repeat split; [exact Hc|constructor].
    - cbn in Ho1, Ho2. rewrite (c_leb _ _ _ _ Hq Ho1).
      rewrite (c_ltb _ _ _ _ Hc Ho1).
      destruct (leb cmp qend (r_start o)).
      { exists n, (None, cand', l'). repeat split; [exact Hc|exact Hl]. }
      destruct (ltb cmp cand (r_start o)).
      { eexists _, _. split; [reflexivity|]. cbn [fst snd].
        split; [split; apply CK; assumption|]. split; assumption. }
      apply IH, Ho2.
  Qed.
  Lemma c_gp_next g n g' : Rg g g' ->
    exists n' y g1', gpc_next kcl cmp (n, g') = (Ret y, (n', g1'))
      /\ optrel Rr (fst (gp_next cmp g)) y /\ Rg (snd (gp_next cmp g)) g1'.
  Proof.
    intros (Hc & Hq & Hl). unfold gpc_next, gp_next, bind. cbn [cget fst snd].
    destruct (c_gp_loop (S:=gaps K V) _ _ Hq _ _ Hl _ _ n g' Hc) as (n1 & x' & E & H1 & H2 & H3).
    rewrite E. destruct (gp_loop _ _ _ _) as [[[r|] c] l]; destruct x' as [[[r'|] c'] l']; cbn in H1, H2, H3;
      try contradiction H1.
    - eexists _, _, _. split; [reflexivity|]. split; [exact H1|]. repeat split; assumption.
    - rewrite (c_ltb _ _ _ _ H2 Hq). destruct (ltb cmp c (gp_query_end g)); cbn.
      + eexists _, _, _. split; [reflexivity|]. split; [split; apply CK; assumption|]. repeat split; assumption.
      + eexists _, _, _. split; [reflexivity|]. split; [exact I|]. repeat split; assumption.
  Qed.
  Lemma c_gp_nexts k : forall g n g', Rg g g' ->
    Forall2 (fun x y => exists z, y = Ret z /\ optrel Rr x z)
      (nexts (gp_next cmp) k g) (nexts_m (gpc_next kcl cmp) k (n, g')).
  Proof.
    induction k as [|k IH]; intros g n g' H; [constructor|]. cbn [nexts nexts_m].
    destruct (c_gp_next g n g' H) as (n1 & y & g1 & E & H1 & H2). rewrite E.
    destruct (gp_next cmp g) as [x g2]. cbn in *. constructor; [exists y; auto|]. apply IH, H2.
  Qed.
  Lemma c_clone (m : rmap K V) n (m' : rmap K V) : Forall2 Re m m' ->
    exists n' m2, rmc_clone kcl vcl (n, m') = (Ret m2, (n', m')) /\ Forall2 Re m m2.
  Proof.
    intros H. unfold rmc_clone, bind. cbn [cget fst snd].
    assert (G : forall l l' n (s : rmap K V), Forall2 Re l l' ->
      exists n' m2, clone_entries vcl (r_clone kcl) l' (n, s) = (Ret m2, (n', s)) /\ Forall2 Re l m2).
    { intros l l' n0 s Hl. revert n0. induction Hl as [|[r v] [r' v'] l l' [[H1 H2] H3] Hl IH]; intros n0.
      - exists n0, []. repeat split; constructor.
      - destruct (IH (S (S (S n0)))) as (n1 & m2 & E & H4). cbn [clone_entries].
        unfold bind, r_clone, kclone, vclone, bind, ret in E |- *. cbn in E |- *. rewrite E.
        eexists _, _. split; [reflexivity|]. constructor; [|exact H4]. repeat split; cbn; auto. }
    apply G, H.
  Qed.

  (** *** Inclusive *)
  Context {st : stepfns K}.
  (** The step functions are related where they have a neighbour to return. *)
  Context (HA : forall x x' y, RK x x' -> ltb cmp x y = true ->
                  orel RK (step_o (add_one st x)) (step_o (add_one st x'))).
  Context (HS : forall x x' y, RK x x' -> ltb cmp y x = true ->
                  orel RK (step_o (sub_one st x)) (step_o (sub_one st x'))).

  Definition Rri (r r' : rangei K) : Prop :=
    RK (ri_start r) (ri_start r') /\ RK (ri_end r) (ri_end r') /\ ri_exhausted r' = ri_exhausted r.
  Definition Rei (e e' : rangei K * V) : Prop := Rri (fst e) (fst e') /\ RV (snd e) (snd e').
  Notation Rim := (Forall2 Rei).
  Definition Riop (o o' : op (rangei K) V) : Prop :=
    match o, o' with
    | OInsert r v, OInsert r' v' => Rri r r' /\ RV v v'
    | ORemove r, ORemove r' => Rri r r'
    | OClear, OClear => True
    | OExtend l, OExtend l' => Forall2 Rei l l'
    | _, _ => False
    end.

  Lemma ci_overlaps a b a' b' : Rri a a' -> Rri b b' -> ri_overlaps cmp a' b' = ri_overlaps cmp a b.
  Proof. intros (? & ? & _) (? & ? & _). unfold ri_overlaps. apply c_leb; [apply c_kmax|apply c_kmin]; assumption. Qed.
  Lemma ci_contains r k r' k' : Rri r r' -> RK k k' -> ri_contains cmp r' k' = ri_contains cmp r k.
  Proof.
    intros (? & ? & E) ?. unfold ri_contains. rewrite E. f_equal; [apply c_leb; assumption|].
    destruct (ri_exhausted r); [apply c_ltb|apply c_leb]; assumption.
  Qed.
  Lemma ci_start a b a' b' : Rri a a' -> Rri b b' -> cmpi_start cmp a' b' = cmpi_start cmp a b.
  Proof. intros (? & ? & _) (? & ? & _). apply HK; assumption. Qed.
  Lemma ci_end a b a' b' : Rri a a' -> Rri b b' -> cmpi_end cmp a' b' = cmpi_end cmp a b.
  Proof. intros (? & ? & _) (? & ? & _). apply HK; assumption. Qed.
  Lemma ci_incl a b a' b' : RK a a' -> RK b b' -> Rri (incl a b) (incl a' b').
  Proof. intros. repeat split; assumption. Qed.

  Notation isim := (csim (Forall2 Rei)).
  Lemma csim_kclone {S S' A B} (RS : S -> S' -> Prop) (R : A -> B -> Prop) k k' c h' : RK k k' ->
    (forall k'', RK k k'' -> csim RS R c (h' k'')) -> csim RS R c (bind (kclone kcl k') h').
  Proof. intros H1 H2. apply csim_clone. intros n. apply H2, CK, H1. Qed.
  Lemma isim_vclone {A B} (R : A -> B -> Prop) v v' c h' : RV v v' ->
    (forall v'', RV v v'' -> isim R c (h' v'')) -> isim R c (bind (vclone vcl v') h').
  Proof. intros H1 H2. apply csim_clone. intros n. apply H2, CV, H1. Qed.
  Lemma isim_rclone {A B} (R : A -> B -> Prop) r r' c h' : Rri r r' ->
    (forall r'', Rri r r'' -> isim R c (h' r'')) -> isim R c (bind (ri_clone kcl r') h').
  Proof.
    intros (H1 & H2 & H3) H. unfold ri_clone. apply csim_assoc. eapply csim_kclone; [exact H1|].
    intros s Hs. apply csim_assoc. eapply csim_kclone; [exact H2|]. intros e He.
    intros m n m' Hm. unfold bind at 1. cbn. apply H; [|exact Hm]. repeat split; assumption.
  Qed.
  Lemma isim_insert k v k' v' : Rri k k' -> RV v v' ->
    isim T (modify (bt_insert (cmpi_start cmp) k v)) (cmodify (bt_insert (cmpi_start cmp) k' v')).
  Proof. intros Hk Hv. apply csim_modify. intros m m' Hm. apply (c_bt_insert ci_start); assumption. Qed.
  Lemma isim_remove k k' : Rri k k' ->
    isim T (modify (bt_remove (cmpi_start cmp) k)) (cmodify (bt_remove (cmpi_start cmp) k')).
  Proof. intros Hk. apply csim_modify. intros m m' Hm. apply (c_bt_remove ci_start); assumption. Qed.

  Lemma ci_pieces s sv r s' sv' r' : Rri s s' -> RV sv sv' -> Rri r r' ->
    isim T
      ((if ltb cmp (ri_start s) (ri_start r)
        then p <- lift (step_o (sub_one st (ri_start r))) ;;
             modify (bt_insert (cmpi_start cmp) (incl (ri_start s) p) sv)
        else ret tt) ;;;
       (if gtb cmp (ri_end s) (ri_end r)
        then e <- lift (step_o (add_one st (ri_end r))) ;;
             modify (bt_insert (cmpi_start cmp) (incl e (ri_end s)) sv)
        else ret tt))%M
      ((if ltb cmp (ri_start s') (ri_start r')
        then k <- kclone kcl (ri_start s') ;;
             p <- lift (step_o (sub_one st (ri_start r'))) ;;
             v <- vclone vcl sv' ;;
             cmodify (bt_insert (cmpi_start cmp) (incl k p) v)
        else ret tt) ;;;
       (if gtb cmp (ri_end s') (ri_end r')
        then k <- lift (step_o (add_one st (ri_end r'))) ;;
             e <- kclone kcl (ri_end s') ;;
             cmodify (bt_insert (cmpi_start cmp) (incl k e) sv')
        else ret tt))%M.
  Proof.
    intros (Hs1 & Hs2 & _) Hsv (Hr1 & Hr2 & _). eapply (csim_bind _ T).
    { apply csim_if; [apply c_ltb; assumption| |]; intros Hlt; [|apply csim_ret; exact I].
      eapply csim_kclone; [exact Hs1|]. intros k Hk.
      eapply csim_bind; [apply csim_lift; eapply HS; [exact Hr1|exact Hlt]|]. intros p p' Hp.
      eapply isim_vclone; [exact Hsv|]. intros w Hw. apply isim_insert; [apply ci_incl|]; assumption. }
    intros _ _ _. apply csim_if; [apply c_gtb; assumption| |]; intros Hlt; [|apply csim_ret; exact I].
    eapply csim_bind; [apply csim_lift; eapply HA; [exact Hr2|exact Hlt]|]. intros p p' Hp.
    eapply csim_kclone; [exact Hs2|]. intros k Hk. apply isim_insert; [apply ci_incl|]; assumption.
  Qed.
  Lemma csim_regroup {S S' A B} (RS : S -> S' -> Prop) (R : A -> B -> Prop) (x y : M S unit) z
      (x' y' : M (counted S') unit) z' :
    csim RS R (bind (bind x (fun _ => y)) (fun _ => z)) (bind (bind x' (fun _ => y')) (fun _ => z')) ->
    csim RS R (bind x (fun _ => bind y (fun _ => z))) (bind x' (fun _ => bind y' (fun _ => z'))).
  Proof.
    intros H s n s' Hs. specialize (H s n s' Hs). rewrite !bind_assoc in H. exact H.
  Qed.
  Lemma ci_adjust_insert s sv r v s' sv' r' v' : Rri s s' -> RV sv sv' -> Rri r r' -> RV v v' ->
    isim Rri (im_adjust_touching_ranges_for_insert cmp veqb st s sv r v)
             (imc_adjust_touching_ranges_for_insert kcl vcl cmp veqb st s' sv' r' v').
  Proof.
    intros Hs Hsv Hr Hv. pose proof Hs as (Hs1 & Hs2 & _). pose proof Hr as (Hr1 & Hr2 & _).
    unfold im_adjust_touching_ranges_for_insert, imc_adjust_touching_ranges_for_insert.
    apply csim_if; [apply HV; assumption| |]; intros _.
    - eapply csim_kclone; [apply c_kmin; [exact Hr1|exact Hs1]|]. intros a Ha.
      eapply csim_kclone; [apply c_kmax; [exact Hr2|exact Hs2]|]. intros b Hb.
      eapply csim_bind; [apply isim_remove, Hs|]. intros _ _ _. apply csim_ret. apply ci_incl; assumption.
    - apply csim_if; [apply ci_overlaps; assumption| |]; intros _; [|apply csim_ret, Hr].
      eapply csim_bind; [apply isim_remove, Hs|]. intros _ _ _.
      apply csim_regroup. eapply csim_bind; [apply ci_pieces; assumption|].
      intros _ _ _. apply csim_ret, Hr.
  Qed.
  Lemma ci_insert_loop fuel : forall r v e r' v' e', Rri r r' -> RV v v' -> RK (ri_start e) (ri_start e') ->
    isim Rri (im_insert_loop cmp veqb st fuel r v e) (imc_insert_loop kcl vcl cmp veqb st fuel r' v' e').
  Proof.
    induction fuel as [|fuel IH]; intros r v e r' v' e' Hr Hv He; [apply csim_nofuel|].
    cbn [im_insert_loop imc_insert_loop].
    eapply csim_bind; [apply csim_get|]. intros m m' Hm.
    eapply csim_bind; [apply csim_lift; eapply (c_bt_range ci_start); [exact Hr|exact I|exact Hm]|].
    intros l l' Hl. destruct (f2_next _ _ Hl) as [Hn _].
    destruct (fst (it_next l)) as [[s sv]|], (fst (it_next l')) as [[s' sv']|]; try contradiction Hn;
      [|apply csim_ret, Hr].
    destruct Hn as [Hs Hsv]. cbn in Hs, Hsv. pose proof Hs as (Hs1 & Hs2 & _).
    eapply (csim_bind _ (fun b b' : bool => b' = b)).
    { apply csim_lift. rewrite (c_gtb _ _ _ _ Hs1 He).
      destruct (gtb cmp (ri_start s) (ri_start e)) eqn:Hg; [|constructor; reflexivity].
      unfold omap. eapply orel_bind; [eapply HA; [exact He|exact Hg]|]. intros a b Hab. constructor.
      rewrite (c_gtb _ _ _ _ Hs1 Hab), (c_eqb _ _ _ _ Hs1 Hab), (HV _ _ _ _ Hsv Hv). reflexivity. }
    intros b b' ->. apply csim_if; [reflexivity| |]; intros _; [apply csim_ret, Hr|].
    eapply isim_rclone; [exact Hs|]. intros s'' Hs'.
    eapply isim_vclone; [exact Hsv|]. intros sv'' Hsv'.
    eapply csim_bind; [apply ci_adjust_insert; assumption|]. intros r1 r1' Hr1. apply IH; assumption.
  Qed.
  Lemma ci_touches a b a' b' : Rri a a' -> Rri b b' ->
    isim (fun x y => y = x) (lift (ri_touches cmp st a b)) (ric_touches kcl cmp st a' b').
  Proof.
    intros (Ha1 & Ha2 & _) (Hb1 & Hb2 & _). unfold ri_touches, ric_touches.
    pose proof (c_kmax _ _ _ _ Ha1 Hb1) as Hx. pose proof (c_kmin _ _ _ _ Ha2 Hb2) as Hy.
    set (x := kmax cmp (ri_start a) (ri_start b)) in *. set (y := kmin cmp (ri_end a) (ri_end b)) in *.
    set (x' := kmax cmp (ri_start a') (ri_start b')) in *. set (y' := kmin cmp (ri_end a') (ri_end b')) in *.
    clearbody x y x' y'. cbv zeta. rewrite (c_ltb _ _ _ _ Hy Hx). intros s n s' Hss.
    destruct (ltb cmp y x) eqn:E; unfold bind, lift, kclone; cbn.
    - pose proof (HA _ _ _ Hy E) as H. destruct H as [z z' Hz|p|]; cbn; (split; [|exact Hss]); constructor.
      apply c_leb; assumption.
    - split; [|exact Hss]. constructor. apply c_leb; [exact Hx|apply CK, Hy].
  Qed.
  Lemma ci_filter r r' l l' : Rri r r' -> Forall2 Rei l l' ->
    isim (Forall2 Rei) (lift (filter_o (fun e => ri_touches cmp st (fst e) r) l))
      (filter_m (fun e => ric_touches kcl cmp st (fst e) r') l').
  Proof.
    intros Hr H. induction H as [|e e' l l' He Hl IH]; cbn; [apply csim_ret; constructor|].
    intros s n s' Hs. destruct (ci_touches _ _ _ _ (proj1 He) Hr s n s' Hs) as [Ho Hs1].
    unfold bind, lift in *. cbn [fst snd] in *.
    destruct (ric_touches kcl cmp st (fst e') r' (n, s')) as [y [n1 s1]]. cbn [fst snd] in *.
    destruct Ho as [x y ->|p|]; cbn [fst snd obind]; [|split; [constructor|exact Hs1]|split; [constructor|exact Hs1]].
    destruct (IH s n1 s1 Hs1) as [Ho2 Hs2]. cbn [fst snd] in *.
    destruct (filter_m (fun e0 => ric_touches kcl cmp st (fst e0) r') l' (n1, s1)) as [y2 [n2 s2]]. cbn [fst snd] in *.
    destruct Ho2 as [t t' Ht|p|]; cbn [fst snd obind ret]; [|split; [constructor|exact Hs2]|split; [constructor|exact Hs2]].
    split; [|exact Hs2]. constructor. destruct x; [constructor|]; assumption.
  Qed.
  Lemma ci_insert r v r' v' : Rri r r' -> RV v v' ->
    isim T (im_insert cmp veqb st r v) (imc_insert kcl vcl cmp veqb st r' v').
  Proof.
    intros Hr Hv. unfold im_insert, imc_insert.
    eapply csim_bind; [apply csim_assert, c_leb; apply Hr|]. intros _ _ _.
    eapply csim_bind; [apply csim_get|]. intros m m' Hm.
    eapply csim_bind; [apply csim_lift; eapply (c_bt_range ci_start); [exact I|exact Hr|exact Hm]|].
    intros l l' Hl.
    eapply csim_bind; [apply ci_filter; [exact Hr|apply f2_firstn, f2_rev, Hl]|]. intros cs cs' Hf.
    eapply (csim_bind _ Rri).
    { assert (Ha : forall s sv s' sv', Rri s s' -> RV sv sv' ->
        isim Rri (im_adjust_touching_ranges_for_insert cmp veqb st s sv r v)
          (s2 <- ri_clone kcl s' ;; sv2 <- vclone vcl sv' ;;
           imc_adjust_touching_ranges_for_insert kcl vcl cmp veqb st s2 sv2 r' v')%M).
      { intros s sv s' sv' Hs Hsv. eapply isim_rclone; [exact Hs|]. intros s2 Hs2.
        eapply isim_vclone; [exact Hsv|]. intros sv2 Hsv2. apply ci_adjust_insert; assumption. }
      destruct Hf as [|[s sv] [s' sv'] t t' [H1 H2] Ht]; [apply csim_ret, Hr|].
      destruct Ht as [|[s0 sv0] [s0' sv0'] t t' [H3 H4] Ht]; apply Ha; assumption. }
    intros r1 r1' Hr1.
    eapply csim_kclone; [apply Hr1|]. intros k1 Hk1.
    eapply csim_kclone; [exact Hk1|]. intros k2 Hk2.
    eapply csim_bind; [apply csim_get|]. intros m1 m1' Hm1. rewrite (f2_length _ _ Hm1).
    eapply csim_bind; [apply ci_insert_loop; [exact Hr1|exact Hv|exact Hk2]|].
    intros r2 r2' Hr2. apply isim_insert; assumption.
  Qed.
  Lemma ci_adjust_remove s sv r s' sv' r' : Rri s s' -> RV sv sv' -> Rri r r' ->
    isim T (im_adjust_overlapping_ranges_for_remove cmp st s sv r)
           (imc_adjust_overlapping_ranges_for_remove kcl vcl cmp st s' sv' r').
  Proof.
    intros Hs Hsv Hr.
    unfold im_adjust_overlapping_ranges_for_remove, imc_adjust_overlapping_ranges_for_remove.
    eapply csim_bind; [apply isim_remove, Hs|]. intros _ _ _. apply ci_pieces; assumption.
  Qed.
  Lemma ci_remove_loop fuel : forall r e r' e', Rri r r' -> Rri e e' ->
    isim T (im_remove_loop cmp (V:=V) st fuel r e) (imc_remove_loop kcl vcl cmp st fuel r' e').
  Proof.
    induction fuel as [|fuel IH]; intros r e r' e' Hr He; [apply csim_nofuel|].
    cbn [im_remove_loop imc_remove_loop].
    eapply csim_bind; [apply csim_get|]. intros m m' Hm.
    eapply csim_bind; [apply csim_lift; eapply (c_bt_range ci_start); [exact Hr|exact He|exact Hm]|].
    intros l l' Hl. destruct (f2_next _ _ Hl) as [Hn _].
    destruct (fst (it_next l)) as [[s sv]|], (fst (it_next l')) as [[s' sv']|]; try contradiction Hn;
      [|apply csim_ret; exact I].
    destruct Hn as [Hs Hsv]. cbn in Hs, Hsv.
    eapply isim_rclone; [exact Hs|]. intros s'' Hs'.
    eapply isim_vclone; [exact Hsv|]. intros sv'' Hsv'.
    eapply csim_bind; [apply ci_adjust_remove; assumption|]. intros _ _ _. apply IH; assumption.
  Qed.
  Lemma ci_remove r r' : Rri r r' -> isim T (im_remove cmp (V:=V) st r) (imc_remove kcl vcl cmp st r').
  Proof.
    intros Hr. unfold im_remove, imc_remove.
    eapply csim_bind; [apply csim_assert, c_leb; apply Hr|]. intros _ _ _.
    eapply csim_bind; [apply csim_get|]. intros m m' Hm.
    eapply csim_bind; [apply csim_lift; eapply (c_bt_range ci_start); [exact I|exact Hr|exact Hm]|].
    intros l l' Hl. eapply (csim_bind _ T).
    { pose proof (f2_last _ _ Hl) as Hn.
      destruct (last_opt l) as [[s sv]|], (last_opt l') as [[s' sv']|]; try contradiction Hn;
        [|apply csim_ret; exact I].
      destruct Hn as [Hs Hsv]. cbn in Hs, Hsv.
      apply csim_if; [apply ci_overlaps; assumption| |]; intros _; [|apply csim_ret; exact I].
      eapply isim_rclone; [exact Hs|]. intros s'' Hs'.
      eapply isim_vclone; [exact Hsv|]. intros sv'' Hsv'. apply ci_adjust_remove; assumption. }
    intros _ _ _.
    eapply csim_kclone; [apply Hr|]. intros k1 Hk1.
    eapply csim_kclone; [apply Hr|]. intros k2 Hk2.
    eapply csim_bind; [apply csim_get|]. intros m1 m1' Hm1. rewrite (f2_length _ _ Hm1).
    apply ci_remove_loop; [exact Hr|apply ci_incl; assumption].
  Qed.
  Lemma ci_exec o o' : Riop o o' -> isim T (im_exec cmp veqb st o) (imc_exec kcl vcl cmp veqb st o').
  Proof.
    destruct o as [r v|r| |l], o' as [r' v'|r'| |l']; intros H; try contradiction H; cbn.
    - apply ci_insert; apply H.
    - apply ci_remove, H.
    - apply csim_modify. intros m m' _. constructor.
    - eapply csim_for_each; [|exact H]. intros [r v] [r' v'] [Hr Hv]. apply ci_insert; assumption.
  Qed.
  Lemma ci_run ops ops' : Forall2 Riop ops ops' ->
    Forall2 Rei (im_run cmp veqb st ops) (snd (imc_run kcl vcl cmp veqb st ops')).
  Proof. intros H. apply (csim_run _ Riop _ _ ci_exec _ _ H). constructor. Qed.

  Lemma ci_get_key_value (m : imap K V) n (m' : imap K V) k k' : Forall2 Rei m m' -> RK k k' ->
    orel (optrel Rei) (im_get_key_value cmp m k) (fst (imc_get_key_value kcl cmp k' (n, m')))
    /\ snd (snd (imc_get_key_value kcl cmp k' (n, m'))) = m'.
  Proof.
    intros Hm Hk. unfold imc_get_key_value, im_get_key_value, bind, kclone, cget, lift, ret. cbn [fst snd].
    assert (H : orel (Forall2 Rei) (bt_range (cmpi_start cmp) Unbounded (Included (incl k k)) m)
      (bt_range (cmpi_start cmp) Unbounded (Included (incl (kcl n k') (kcl (S n) k'))) m')).
    { apply (c_bt_range ci_start); [exact I| |exact Hm]. apply ci_incl; apply CK, Hk. }
    destruct H as [l l' Hl|p|]; cbn; (split; [|reflexivity]); [|constructor|constructor].
    constructor. pose proof (f2_last _ _ Hl) as Hn.
    destruct (last_opt l) as [[s sv]|], (last_opt l') as [[s' sv']|]; try contradiction Hn; [|exact I].
    destruct Hn as [Hs Hsv]. cbn in *. rewrite (ci_contains s k s' k') by assumption.
    destruct (ri_contains cmp s k); [|exact I]. split; assumption.
  Qed.
  Lemma ci_overlapping (m : imap K V) n (m' : imap K V) q q' : Forall2 Rei m m' -> Rri q q' ->
    orel (fun o o' => ovi_query o = q /\ ovi_query o' = q' /\ Forall2 Rei (ovi_iter o) (ovi_iter o'))
      (im_overlapping cmp m q) (fst (imc_overlapping kcl cmp q' (n, m')))
    /\ snd (snd (imc_overlapping kcl cmp q' (n, m'))) = m'.
  Proof.
    intros Hm (Hq1 & Hq2 & _). unfold imc_overlapping, im_overlapping, bind, kclone, cget, lift, ret. cbn [fst snd].
    assert (H : orel (Forall2 Rei)
      (bt_range (cmpi_end cmp) (Included (incl (ri_start q) (ri_start q))) Unbounded m)
      (bt_range (cmpi_end cmp) (Included (incl (kcl n (ri_start q')) (kcl (S n) (ri_start q')))) Unbounded m')).
    { apply (c_bt_range ci_end); [|exact I|exact Hm]. apply ci_incl; apply CK, Hq1. }
    destruct H as [l l' Hl|p|]; cbn; (split; [|reflexivity]); [|constructor|constructor].
    constructor. cbn. auto.
  Qed.
  Lemma ci_ov_next o o' : Rri (ovi_query o) (ovi_query o') -> Forall2 Rei (ovi_iter o) (ovi_iter o') ->
    optrel Rei (fst (ovi_next cmp o)) (fst (ovi_next cmp o'))
    /\ ovi_query (snd (ovi_next cmp o)) = ovi_query o /\ ovi_query (snd (ovi_next cmp o')) = ovi_query o'
    /\ Forall2 Rei (ovi_iter (snd (ovi_next cmp o))) (ovi_iter (snd (ovi_next cmp o'))).
  Proof.
    intros Hq Hl. unfold ovi_next. destruct Hl as [|e e' l l' He Hl]; cbn; [repeat split; constructor|].
    rewrite (c_leb _ _ _ _ (proj1 (proj1 He)) (proj1 (proj2 Hq))).
    destruct (leb _ _ _); cbn; repeat split; try apply He; assumption.
  Qed.
  Lemma ci_ov_back_loop q q' : Rri q q' -> forall l l', Forall2 Rei l l' ->
    optrel Rei (fst (ovi_back_loop cmp q l)) (fst (ovi_back_loop cmp q' l'))
    /\ Forall2 Rei (snd (ovi_back_loop cmp q l)) (snd (ovi_back_loop cmp q' l')).
  Proof.
    intros Hq l l' H. induction H as [|e e' l l' He Hl IH]; cbn; [repeat split; constructor|].
    rewrite (c_leb _ _ _ _ (proj1 (proj1 He)) (proj1 (proj2 Hq))).
    destruct (leb _ _ _); cbn; [|exact IH]. split; assumption.
  Qed.
  Lemma ci_ov_next_back o o' : Rri (ovi_query o) (ovi_query o') -> Forall2 Rei (ovi_iter o) (ovi_iter o') ->
    optrel Rei (fst (ovi_next_back cmp o)) (fst (ovi_next_back cmp o'))
    /\ ovi_query (snd (ovi_next_back cmp o)) = ovi_query o /\ ovi_query (snd (ovi_next_back cmp o')) = ovi_query o'
    /\ Forall2 Rei (ovi_iter (snd (ovi_next_back cmp o))) (ovi_iter (snd (ovi_next_back cmp o'))).
  Proof.
    intros Hq Hl. unfold ovi_next_back.
    destruct (ci_ov_back_loop _ _ Hq _ _ (f2_rev _ _ Hl)) as [H1 H2].
    destruct (ovi_back_loop cmp (ovi_query o) (rev (ovi_iter o))) as [x t].
    destruct (ovi_back_loop cmp (ovi_query o') (rev (ovi_iter o'))) as [x' t']. cbn in *.
    repeat split; [exact H1|]. apply f2_rev, H2.
  Qed.
  Lemma ci_ov_sched sched : forall o o', Rri (ovi_query o) (ovi_query o') -> Forall2 Rei (ovi_iter o) (ovi_iter o') ->
    Forall2 (fun a b => optrel Rei (fst a) (fst b))
      (sched_trace (both (ovi_next cmp) (ovi_next_back cmp)) (fun _ => tt) sched o)
      (sched_trace (both (ovi_next cmp) (ovi_next_back cmp)) (fun _ => tt) sched o').
  Proof.
    induction sched as [|d sched IH]; intros o o' Hq Hl; cbn; [constructor|].
    destruct d; cbn.
    - destruct (ci_ov_next o o' Hq Hl) as (H1 & H2 & H3 & H4).
      destruct (ovi_next cmp o) as [x t], (ovi_next cmp o') as [x' t']. cbn in *.
      constructor; [exact H1|]. apply IH; [rewrite H2, H3; exact Hq|exact H4].
    - destruct (ci_ov_next_back o o' Hq Hl) as (H1 & H2 & H3 & H4).
      destruct (ovi_next_back cmp o) as [x t], (ovi_next_back cmp o') as [x' t']. cbn in *.
      constructor; [exact H1|]. apply IH; [rewrite H2, H3; exact Hq|exact H4].
  Qed.
  Lemma ci_clone (m : imap K V) n (m' : imap K V) : Forall2 Rei m m' ->
    exists n' m2, imc_clone kcl vcl (n, m') = (Ret m2, (n', m')) /\ Forall2 Rei m m2.
  Proof.
    intros H. unfold imc_clone, bind. cbn [cget fst snd].
    assert (G : forall l l' n (s : imap K V), Forall2 Rei l l' ->
      exists n' m2, clone_entries vcl (ri_clone kcl) l' (n, s) = (Ret m2, (n', s)) /\ Forall2 Rei l m2).
    { intros l l' n0 s Hl. revert n0. induction Hl as [|[r v] [r' v'] l l' [(H1 & H2 & H3) H4] Hl IH]; intros n0.
      - exists n0, []. repeat split; constructor.
      - destruct (IH (S (S (S n0)))) as (n1 & m2 & E & H5). cbn [clone_entries].
        unfold bind, ri_clone, kclone, vclone, bind, ret in E |- *. cbn in E |- *. rewrite E.
        eexists _, _. split; [reflexivity|]. constructor; [|exact H5]. repeat split; cbn; auto. }
    apply G, H.
  Qed.

  Context (TO : TotalOrd cmp).
  (** Gaps: the entries left are ascending, and beyond the candidate if that
      needs a step. *)
  Fixpoint asc (l : list (rangei K * V)) : Prop :=
    match l with
    | [] => True
    | (o, _) :: l' => leb cmp (ri_start o) (ri_end o) = true /\
                      Forall (fun e => ltb cmp (ri_end o) (ri_start (fst e)) = true) l' /\ asc l'
    end.
  Definition gok (g : gapsi K V) : Prop :=
    asc (gpi_iter g)
    /\ (gpi_needs_plus_one g = true ->
        Forall (fun e => ltb cmp (gpi_candidate_start g) (ri_start (fst e)) = true) (gpi_iter g)).
  Definition Rgi (g g' : gapsi K V) : Prop :=
    gpi_needs_plus_one g' = gpi_needs_plus_one g
    /\ RK (gpi_candidate_start g) (gpi_candidate_start g') /\ RK (gpi_query_end g) (gpi_query_end g')
    /\ Forall2 Rei (gpi_iter g) (gpi_iter g').
  Lemma ci_gp_loop qend qend' : RK qend qend' -> forall l l', Forall2 Rei l l' -> asc l ->
    forall needs cand cand' n it', RK cand cand' ->
    (needs = true -> Forall (fun e => ltb cmp cand (ri_start (fst e)) = true) l) ->
    exists y n' g1' o needs1 cand1 l1,
      gpi_loop cmp st needs cand qend l = (o, needs1, cand1, l1)
      /\ gpic_loop kcl cmp st l' (n, mkGapsI needs cand' qend' it') = (y, (n', g1'))
      /\ orel (optrel Rri) o y /\ Rgi (mkGapsI needs1 cand1 qend l1) g1'
      /\ gok (mkGapsI needs1 cand1 qend l1)
      /\ (o = Ret None -> Forall (fun e => ltb cmp qend (ri_start (fst e)) = true) l1).
  Proof.
    intros Hq l l' H.
    induction H as [|[o v] [o' v'] l l' [(Ho1 & Ho2 & _) Hv] Hl IH]; intros Hasc needs cand cand' n it' Hc Hn.
    - cbn. eexists _, _, _, _, _, _, _. split; [reflexivity|]. split; [reflexivity|].
      split; [constructor; exact I|]. split; [repeat split; try assumption; constructor|].
      split; [split; [exact I|]; intros _; constructor|]. intros _. constructor.
    - cbn [fst snd] in Ho1, Ho2. destruct Hasc as (Hval & Hasc1 & Hasc2).
      cbn [gpi_loop gpic_loop]. unfold bind at 1. cbn [cget fst snd].
      cbv zeta. cbn [gpi_query_end gpi_needs_plus_one gpi_candidate_start].
      rewrite (c_ltb _ _ _ _ Hq Ho1). destruct (ltb cmp qend (ri_start o)) eqn:Eq.
      { eexists _, _, _, _, _, _, _. split; [reflexivity|]. split; [reflexivity|].
        split; [constructor; exact I|]. split; [repeat split; assumption|].
        split; [split; [exact Hasc2|]|].
        - intros E. specialize (Hn E). inversion Hn; assumption.
        - intros _. eapply Forall_impl; [|exact Hasc1]. cbn. intros e He. ord. }
      unfold bind at 1. cbn [cmodify fst snd].
      assert (Hg : gok (mkGapsI true (ri_end o) qend l)) by (split; [exact Hasc2|intros _; exact Hasc1]).
      assert (HR : Rgi (mkGapsI true (ri_end o) qend l) (mkGapsI true (ri_end o') qend' l'))
        by (repeat split; assumption).
      assert (Hcur : exists n1 x', (if needs then lift (step_o (add_one st cand')) else kclone kcl cand')
                  (n, mkGapsI true (ri_end o') qend' l') = (x', (n1, mkGapsI true (ri_end o') qend' l'))
                /\ orel RK (if needs then step_o (add_one st cand) else Ret cand) x').
      { destruct needs.
        - specialize (Hn eq_refl). inversion Hn as [|? ? Hlt _]; subst.
          eexists _, _. split; [reflexivity|]. eapply HA; [exact Hc|exact Hlt].
        - eexists _, _. split; [reflexivity|]. constructor. apply CK, Hc. }
      destruct Hcur as (n1 & x' & E & Hx). unfold bind at 1. rewrite E.
      destruct Hx as [cur cur' Hcur|p|].
      2, 3: eexists _, _, _, _, _, _, _; split; [reflexivity|]; split; [reflexivity|];
        split; [constructor|]; split; [exact HR|]; split; [exact Hg|]; intros Habs; discriminate Habs.
      rewrite (c_ltb _ _ _ _ Hcur Ho1). destruct (ltb cmp cur (ri_start o)) eqn:El.
      + unfold bind, lift. pose proof (HS _ _ _ Ho1 El) as Hp. unfold omap.
        destruct Hp as [p p' Hp|p|]; eexists _, _, _, _, _, _, _; (split; [reflexivity|]); (split; [reflexivity|]);
          (split; [constructor|]).
        { split; [|split]; [exact Hcur|exact Hp|reflexivity]. }
        all: split; [exact HR|]; split; [exact Hg|]; intros Habs; discriminate Habs.
      + apply (IH Hasc2 true (ri_end o) (ri_end o') n1 l' Ho2). intros _. exact Hasc1.
  Qed.
  Lemma ci_gp_next g n g' : Rgi g g' -> gok g ->
    exists n' y g1', gpic_next kcl cmp st (n, g') = (y, (n', g1'))
      /\ orel (optrel Rri) (fst (gpi_next cmp st g)) y
      /\ Rgi (snd (gpi_next cmp st g)) g1' /\ gok (snd (gpi_next cmp st g)).
  Proof.
    destruct g as [needs cand qend l], g' as [needs' cand' qend' l'].
    intros (En & Hc & Hq & Hl) [Ha Hn]. cbn in En, Hc, Hq, Hl, Ha, Hn. subst needs'.
    destruct (ci_gp_loop _ _ Hq _ _ Hl Ha needs cand cand' n l' Hc Hn)
      as (y & n1 & g1 & o & needs1 & cand1 & l1 & E1 & E2 & Ho & HR & Hg & HN).
    unfold gpic_next, gpi_next, bind. cbn [cget fst snd gpi_query_end gpi_needs_plus_one gpi_candidate_start gpi_iter].
    rewrite E1, E2. destruct Ho as [x y Hxy|p|].
    2, 3: eexists _, _, _; split; [reflexivity|]; split; [constructor|]; split; assumption.
    destruct x as [gap|], y as [gap'|]; try contradiction Hxy.
    { eexists _, _, _. split; [reflexivity|]. split; [constructor; exact Hxy|]. split; assumption. }
    specialize (HN eq_refl). destruct g1 as [needs2 cand2 qend2 l2].
    destruct HR as (En & Hc1 & Hq1 & Hl1). cbn in En, Hc1, Hq1, Hl1. subst needs2.
    cbn [cmodify fst snd gpi_query_end gpi_needs_plus_one gpi_candidate_start gpi_iter]. cbv zeta.
    assert (HR : Rgi (mkGapsI true qend qend l1) (mkGapsI true qend2 qend2 l2)) by (repeat split; assumption).
    assert (HG : gok (mkGapsI true qend qend l1)).
    { split; [exact (proj1 Hg)|]. intros _. exact HN. }
    destruct needs1.
    - rewrite (c_ltb _ _ _ _ Hc1 Hq1). destruct (ltb cmp cand1 qend) eqn:El.
      + pose proof (HA _ _ _ Hc1 El) as Hs. unfold lift, omap.
        destruct Hs as [s s' Hs|p|]; eexists _, _, _; (split; [reflexivity|]); (split; [constructor|split; assumption]).
        split; [|split]; [exact Hs|apply CK, Hq1|reflexivity].
      + eexists _, _, _. split; [reflexivity|]. split; [constructor; exact I|]. split; assumption.
    - rewrite (c_leb _ _ _ _ Hc1 Hq1). destruct (leb cmp cand1 qend) eqn:El.
      + eexists _, _, _. split; [reflexivity|]. split; [|split; assumption]. constructor.
        split; [|split]; [apply CK, Hc1|apply CK, Hq1|reflexivity].
      + eexists _, _, _. split; [reflexivity|]. split; [constructor; exact I|]. split; assumption.
  Qed.
  Lemma ci_gp_nexts k : forall g n g', Rgi g g' -> gok g ->
    Forall2 (orel (optrel Rri)) (nexts_m (gpi_next cmp st) k g) (nexts_m (gpic_next kcl cmp st) k (n, g')).
  Proof.
    induction k as [|k IH]; intros g n g' H Hg; [constructor|]. cbn [nexts_m].
    destruct (ci_gp_next g n g' H Hg) as (n1 & y & g1 & E & H1 & H2 & H3). rewrite E.
    destruct (gpi_next cmp st g) as [x g2]. cbn in *. constructor; [exact H1|]. apply IH; assumption.
  Qed.
  Lemma ci_gaps (m : imap K V) n (m' : imap K V) q q' : Forall2 Rei m m' -> Rri q q' -> asc m ->
    exists g g', im_gaps cmp m q = Ret g /\ fst (imc_gaps kcl cmp q' (n, m')) = Ret g'
                 /\ Rgi g g' /\ gok g.
  Proof.
    intros Hm Hq Ha. destruct (ci_overlapping m n m' q q' Hm Hq) as [H _].
    unfold im_gaps, imc_gaps, bind, omap.
    assert (E : im_overlapping cmp m q =
      Ret (mkOverlappingI q (take_while (fun e => negb (above (cmpi_end cmp) Unbounded (fst e)))
         (drop_while (fun e => below (cmpi_end cmp) (Included (incl (ri_start q) (ri_start q))) (fst e)) m)))) by reflexivity.
    rewrite E in H |- *. destruct (imc_overlapping kcl cmp q' (n, m')) as [x s]. cbn [fst] in H.
    inversion H as [o o' (_ & _ & H1) Eo Ex| |]; subst. cbn [obind fst].
    eexists _, _. split; [reflexivity|]. split; [reflexivity|]. destruct Hq as (Hq1 & Hq2 & _). split.
    - repeat split; assumption.
    - split; [|intros Habs; discriminate Habs]. cbn [gpi_iter ovi_iter].
      clear -Ha. induction m as [|[r v] m IH]; [exact I|]. destruct Ha as (H1 & H2 & H3).
      cbn [drop_while fst]. destruct (below _ _ r); [exact (IH H3)|].
      assert (T : forall l : list (rangei K * V), take_while (fun e => negb (above (cmpi_end cmp) Unbounded (fst e))) l = l).
      { induction l as [|e l IHl]; cbn; [reflexivity|]. f_equal. exact IHl. }
      rewrite T. split; [exact H1|]. split; assumption.
  Qed.

End Keys.
