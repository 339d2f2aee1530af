(** The sets with explicit clones simulate the sets without. *)
From Coq Require Import List Bool Lia.
From Verif Require Import Order Outcome BTree Ranges History Spec MapModel IMapModel OpsModel SetModel
  ISetModel CloneModel CloneSetModel ListLemmas CloneFacts.
Import ListNotations.

(** ** Simulation of computations on halves of the state *)
Definition on_fst0 {S T A} (c : M S A) : M (S * T) A :=
  fun s => let (o, x) := c (fst s) in (o, (x, snd s)).
Definition on_snd0 {S T A} (c : M T A) : M (S * T) A :=
  fun s => let (o, x) := c (snd s) in (o, (fst s, x)).
Lemma csim_on_fst {S S' T T' A B} (RS : S -> S' -> Prop) (RT : T -> T' -> Prop) (R : A -> B -> Prop) c c' :
  csim RS R c c' ->
  csim (fun s s' => RS (fst s) (fst s') /\ RT (snd s) (snd s')) R (on_fst0 c) (on_fst c').
Proof.
  intros H [s t] n [s' t'] [H1 H2]. cbn [fst snd] in *. specialize (H s n s' H1).
  unfold on_fst0, on_fst. cbn [fst snd]. destruct (c s) as [o x], (c' (n, s')) as [o' [n' x']].
  cbn in *. tauto.
Qed.
Lemma csim_on_snd {S S' T T' A B} (RS : S -> S' -> Prop) (RT : T -> T' -> Prop) (R : A -> B -> Prop) c c' :
  csim RT R c c' ->
  csim (fun s s' => RS (fst s) (fst s') /\ RT (snd s) (snd s')) R (on_snd0 c) (on_snd c').
Proof.
  intros H [s t] n [s' t'] [H1 H2]. cbn [fst snd] in *. specialize (H t n t' H2).
  unfold on_snd0, on_snd. cbn [fst snd]. destruct (c t) as [o x], (c' (n, t')) as [o' [n' x']].
  cbn in *. tauto.
Qed.

Section Ops.
  Context {R I : Type} {inext : I -> option R * I} {ilen : I -> nat}.
  Context {RR : R -> R -> Prop} {RI : I -> I -> Prop}.
  Context (Hnext : forall i i', RI i i' ->
    optrel RR (fst (inext i)) (fst (inext i')) /\ RI (snd (inext i)) (snd (inext i'))).
  Context (Hlen : forall i i', RI i i' -> ilen i' = ilen i).
  Context {order_start order_end : R -> R -> comparison}.
  Context (Hos : forall a b a' b', RR a a' -> RR b b' -> order_start a' b' = order_start a b).
  Context (Hoe : forall a b a' b', RR a a' -> RR b b' -> order_end a' b' = order_end a b).

  Definition Rpk (p p' : peekable I R) : Prop :=
    RI (pk_iter p) (pk_iter p') /\ optrel (optrel RR) (pk_peeked p) (pk_peeked p').
  Definition Rpair (u u' : pair_iter R I) : Prop :=
    Rpk (op_left u) (op_left u') /\ Rpk (op_right u) (op_right u').
  Notation psim := (csim Rpair).

  Lemma c_pk_peek p p' : Rpk p p' ->
    optrel RR (fst (pk_peek inext p)) (fst (pk_peek inext p')) /\
    Rpk (snd (pk_peek inext p)) (snd (pk_peek inext p')).
  Proof.
    destruct p as [i q], p' as [i' q']. intros [H1 H2]. unfold pk_peek. cbn [pk_iter pk_peeked] in *.
    destruct q as [o|], q' as [o'|]; try contradiction H2.
    - split; [exact H2|split; assumption].
    - destruct (Hnext i i' H1) as [H3 H4]. destruct (inext i), (inext i'). cbn in *.
      split; [assumption|split; assumption].
  Qed.
  Lemma c_pk_next p p' : Rpk p p' ->
    optrel RR (fst (pk_next inext p)) (fst (pk_next inext p')) /\
    Rpk (snd (pk_next inext p)) (snd (pk_next inext p')).
  Proof.
    destruct p as [i q], p' as [i' q']. intros [H1 H2]. unfold pk_next. cbn [pk_iter pk_peeked] in *.
    destruct q as [o|], q' as [o'|]; try contradiction H2.
    - split; [exact H2|split; [assumption|exact Logic.I]].
    - destruct (Hnext i i' H1) as [H3 H4]. destruct (inext i), (inext i'). cbn in *.
      split; [assumption|split; [assumption|exact Logic.I]].
  Qed.
  Lemma c_pk_len p p' : Rpk p p' -> pk_len ilen p' = pk_len ilen p.
  Proof.
    intros [H1 H2]. unfold pk_len. rewrite (Hlen _ _ H1).
    destruct (pk_peeked p) as [[|]|], (pk_peeked p') as [[|]|]; try contradiction H2; reflexivity.
  Qed.
  Lemma c_peek_left : psim (optrel RR) (peek_left inext) (nocl (peek_left inext)).
  Proof.
    intros [l r] n [l' r'] [H1 H2]. cbn [op_left op_right] in *. unfold nocl, peek_left. cbn [fst snd op_left op_right].
    destruct (c_pk_peek _ _ H1) as [H3 H4]. destruct (pk_peek inext l), (pk_peek inext l'). cbn in *.
    split; [constructor; exact H3|split; assumption].
  Qed.
  Lemma c_peek_right : psim (optrel RR) (peek_right inext) (nocl (peek_right inext)).
  Proof.
    intros [l r] n [l' r'] [H1 H2]. cbn [op_left op_right] in *. unfold nocl, peek_right. cbn [fst snd op_left op_right].
    destruct (c_pk_peek _ _ H2) as [H3 H4]. destruct (pk_peek inext r), (pk_peek inext r'). cbn in *.
    split; [constructor; exact H3|split; assumption].
  Qed.
  Lemma c_next_left : psim (optrel RR) (next_left inext) (nocl (next_left inext)).
  Proof.
    intros [l r] n [l' r'] [H1 H2]. cbn [op_left op_right] in *. unfold nocl, next_left. cbn [fst snd op_left op_right].
    destruct (c_pk_next _ _ H1) as [H3 H4]. destruct (pk_next inext l), (pk_next inext l'). cbn in *.
    split; [constructor; exact H3|split; assumption].
  Qed.
  Lemma c_next_right : psim (optrel RR) (next_right inext) (nocl (next_right inext)).
  Proof.
    intros [l r] n [l' r'] [H1 H2]. cbn [op_left op_right] in *. unfold nocl, next_right. cbn [fst snd op_left op_right].
    destruct (c_pk_next _ _ H2) as [H3 H4]. destruct (pk_next inext r), (pk_next inext r'). cbn in *.
    split; [constructor; exact H3|split; assumption].
  Qed.

  Notation CP := (M (counted (pair_iter R I))).
  Context {rclone : R -> CP R} {merge : R -> R -> bool * R} {mergec : R -> R -> CP (bool * R)}
          {intersect : R -> R -> option R} {intersectc : R -> R -> CP (option R)}.
  Notation RX := (fun x y : bool * R => fst y = fst x /\ RR (snd x) (snd y)).
  Context (Hclone : forall a a', RR a a' -> psim RR (ret a) (rclone a')).
  Context (Hmerge : forall a b a' b', RR a a' -> RR b b' -> psim RX (ret (merge a b)) (mergec a' b')).
  Context (Hinter : forall a b a' b', RR a a' -> RR b b' ->
    psim (optrel RR) (ret (intersect a b)) (intersectc a' b')).

  (** [ret a >>= h] on the left *)
  Lemma csim_ret_l {A B C D} (Q : A -> B -> Prop) (Q' : C -> D -> Prop) a c' (h : A -> M (pair_iter R I) C) h' :
    psim Q (ret a) c' -> (forall b, Q a b -> psim Q' (h a) (h' b)) -> psim Q' (h a) (bind c' h').
  Proof.
    intros H1 H2 s n s' Hs. specialize (H1 s n s' Hs). unfold bind.
    destruct (c' (n, s')) as [y [n1 s1']]; cbn in H1. destruct H1 as [Ho Hs1].
    inversion Ho as [a0 b Hab E1 E2| |]; subst. apply (H2 b Hab s n1 s1' Hs1).
  Qed.
  Lemma c_unwrap o o' : optrel RR o o' -> psim RR (unwrap o) (unwrap o').
  Proof.
    intros H s n s' Hs. destruct o, o'; try contradiction H; cbn; split; try exact Hs; constructor; exact H.
  Qed.
  Lemma c_join pk nx pk' nx' r r' : psim (optrel RR) pk pk' -> psim (optrel RR) nx nx' -> RR r r' ->
    psim RX (un_join merge pk nx r) (unc_join mergec pk' nx' r').
  Proof.
    intros H1 H2 Hr. unfold un_join, unc_join. eapply csim_bind; [exact H1|].
    intros o o' Ho. destruct o as [x|], o' as [x'|]; try contradiction Ho.
    - refine (csim_ret_l RX _ (merge r x) _ (fun z => let (b, r1) := z in if b then bind nx (fun _ => ret (true, r1)) else ret (false, r1)) _ (Hmerge _ _ _ _ Hr Ho) _).
      intros [b r1] [E1 E2]. destruct (merge r x) as [b0 r0]. cbn [fst snd] in *. subst b.
      destruct b0; [|apply csim_ret; auto]. eapply csim_bind; [exact H2|]. intros _ _ _. apply csim_ret. auto.
    - apply csim_ret. auto.
  Qed.
  Lemma c_un_loop fuel : forall r r', RR r r' ->
    psim RR (un_loop inext merge fuel r) (unc_loop inext mergec fuel r').
  Proof.
    induction fuel as [|fuel IH]; intros r r' Hr; cbn [un_loop unc_loop]; [apply csim_nofuel|].
    eapply csim_bind; [apply c_join; [apply c_peek_left|apply c_next_left|exact Hr]|].
    intros [b r1] [b' r1'] [E1 E2]. cbn [fst snd] in *. subst b'. destruct b; [apply IH, E2|].
    eapply csim_bind; [apply c_join; [apply c_peek_right|apply c_next_right|exact E2]|].
    intros [b r2] [b' r2'] [E3 E4]. cbn [fst snd] in *. subst b'. destruct b; [apply IH, E4|].
    apply csim_ret, E4.
  Qed.
  Lemma c_un_next : psim (optrel RR) (un_next inext ilen order_start merge)
                                     (unc_next inext ilen order_start rclone mergec).
  Proof.
    unfold un_next, unc_next. eapply csim_bind; [apply c_peek_left|]. intros l l' Hl.
    eapply csim_bind; [apply c_peek_right|]. intros r r' Hr.
    eapply (csim_bind _ (optrel RR)).
    - assert (HL : psim (optrel RR)
        (bind (next_left inext) (fun o => bind (unwrap o) (fun r => ret (Some r))))
        (bind (nocl (next_left inext)) (fun o => bind (unwrap o) (fun r => ret (Some r))))).
      { eapply csim_bind; [apply c_next_left|]. intros o o' Ho. eapply csim_bind; [apply c_unwrap, Ho|].
        intros x x' Hx. apply csim_ret. exact Hx. }
      assert (HR : psim (optrel RR)
        (bind (next_right inext) (fun o => bind (unwrap o) (fun r => ret (Some r))))
        (bind (nocl (next_right inext)) (fun o => bind (unwrap o) (fun r => ret (Some r))))).
      { eapply csim_bind; [apply c_next_right|]. intros o o' Ho. eapply csim_bind; [apply c_unwrap, Ho|].
        intros x x' Hx. apply csim_ret. exact Hx. }
      destruct l as [a|], l' as [a'|]; try contradiction Hl; destruct r as [b|], r' as [b'|]; try contradiction Hr.
      + rewrite (Hos a b a' b' Hl Hr). destruct (order_start a b); assumption.
      + exact HL.
      + exact HR.
      + apply csim_ret. exact Logic.I.
    - intros o o' Ho. destruct o as [x|], o' as [x'|]; try contradiction Ho; [|apply csim_ret; exact Logic.I].
      refine (csim_ret_l RR _ x _ (fun x => bind get (fun u => bind (un_loop inext merge
         (pk_len ilen (op_left u) + pk_len ilen (op_right u) + 1) x) (fun r => ret (Some r)))) _ (Hclone _ _ Ho) _).
      intros y Hy. eapply csim_bind; [apply csim_get|]. intros u u' [Hu1 Hu2].
      rewrite (c_pk_len _ _ Hu1), (c_pk_len _ _ Hu2).
      eapply csim_bind; [apply c_un_loop, Hy|]. intros z z' Hz. apply csim_ret. exact Hz.
  Qed.
  Lemma c_in_loop fuel : psim (optrel RR) (in_loop inext order_end intersect fuel)
                                          (inc_loop inext order_end intersectc fuel).
  Proof.
    induction fuel as [|fuel IH]; cbn [in_loop inc_loop]; [apply csim_nofuel|].
    eapply csim_bind; [apply c_peek_left|]. intros l l' Hl.
    eapply csim_bind; [apply c_peek_right|]. intros r r' Hr.
    destruct l as [a|], l' as [a'|]; try contradiction Hl; destruct r as [b|], r' as [b'|]; try contradiction Hr;
      try (apply csim_ret; exact Logic.I).
    refine (csim_ret_l (optrel RR) _ (intersect a b) _ (fun z => bind
       match order_end a b with Lt => next_left inext | _ => next_right inext end
       (fun _ => match z with Some i => ret (Some i) | None => in_loop inext order_end intersect fuel end)) _
       (Hinter _ _ _ _ Hl Hr) _).
    intros z Hz. rewrite (Hoe a b a' b' Hl Hr). eapply (csim_bind _ (optrel RR)).
    - destruct (order_end a b); [apply c_next_right|apply c_next_left|apply c_next_right].
    - intros _ _ _. destruct (intersect a b) as [i|], z as [i'|]; try contradiction Hz; [|exact IH].
      apply csim_ret. exact Hz.
  Qed.
  Lemma c_in_next : psim (optrel RR) (in_next inext ilen order_end intersect)
                                     (inc_next inext ilen order_end intersectc).
  Proof.
    unfold in_next, inc_next. eapply csim_bind; [apply csim_get|]. intros u u' [Hu1 Hu2].
    rewrite (c_pk_len _ _ Hu1), (c_pk_len _ _ Hu2). apply c_in_loop.
  Qed.

  (** drained one by one *)
  Lemma c_nexts (nx : M (pair_iter R I) (option R)) (nx' : CP (option R)) : psim (optrel RR) nx nx' ->
    forall k u n u', Rpair u u' ->
    Forall2 (orel (optrel RR)) (nexts_m nx k u) (nexts_m nx' k (n, u')).
  Proof.
    intros H k. induction k as [|k IH]; intros u n u' Hu; cbn [nexts_m]; [constructor|].
    destruct (H u n u' Hu) as [H1 H2]. destruct (nx u) as [o u1], (nx' (n, u')) as [o' [n1 u1']].
    cbn [fst snd] in *. constructor; [exact H1|]. apply IH, H2.
  Qed.

  (** draining and inserting alternately, or one after the other *)
  Fixpoint collect0 {T} (next : M (pair_iter R I) (option R)) (insert : R -> M T unit) (fuel : nat)
    : M (pair_iter R I * T) unit :=
    match fuel with
    | O => nofuel
    | S fuel' =>
        (o <- on_fst0 next ;;
         match o with
         | None => ret tt
         | Some r => on_snd0 (insert r) ;;; collect0 next insert fuel'
         end)%M
    end.
  Lemma collect_drain {T} (next : M (pair_iter R I) (option R)) (insert : R -> M T unit) fuel :
    forall u t l u', drain next fuel u = (Ret l, u') ->
    fst (collect0 next insert fuel (u, t)) = fst (for_each insert l t) /\
    snd (snd (collect0 next insert fuel (u, t))) = snd (for_each insert l t).
  Proof.
    induction fuel as [|fuel IH]; intros u t l u' H; [discriminate H|].
    cbn [drain] in H. unfold bind in H. cbn [collect0]. unfold bind at 1 3. unfold on_fst0. cbn [fst snd].
    destruct (next u) as [[o|p|] u1]; try discriminate H. destruct o as [r|].
    - destruct (drain next fuel u1) as [[l1|p|] u2] eqn:E; try discriminate H.
      cbn in H. injection H as <- <-. cbn [for_each]. unfold bind, on_snd0. cbn [fst snd].
      destruct (insert r t) as [[[]|p|] t1]; [|split; reflexivity|split; reflexivity].
      exact (IH _ _ _ _ E).
    - injection H as <- <-. split; reflexivity.
  Qed.
  Lemma c_collect {T T'} (RT : T -> T' -> Prop) nx nx' (ins : R -> M T unit) ins' :
    psim (optrel RR) nx nx' ->
    (forall r r', RR r r' -> csim RT (fun _ _ => True) (ins r) (ins' r')) ->
    forall fuel, csim (fun s s' => Rpair (fst s) (fst s') /\ RT (snd s) (snd s')) (fun _ _ => True)
      (collect0 nx ins fuel) (collectc nx' ins' fuel).
  Proof.
    intros H1 H2 fuel. induction fuel as [|fuel IH]; cbn [collect0 collectc]; [apply csim_nofuel|].
    eapply csim_bind; [apply csim_on_fst, H1|]. intros o o' Ho.
    destruct o as [r|], o' as [r'|]; try contradiction Ho; [|apply csim_ret; exact Logic.I].
    eapply csim_bind; [apply csim_on_snd, H2, Ho|]. intros _ _ _. exact IH.
  Qed.
End Ops.

Section Sets.
  Context {K : Type} {cmp : K -> K -> comparison} {kcl : nat -> K -> K} {RK : K -> K -> Prop}.
  Context (HK : forall a b a' b', RK a a' -> RK b b' -> cmp a' b' = cmp a b).
  Context (CK : forall n a a', RK a a' -> RK a (kcl n a')).
  Notation T := (fun _ _ => True).
  Notation RU := (fun _ _ : unit => True).
  Lemma Hunit (v w v' w' : unit) : RU v v' -> RU w w' -> unit_eqb v' w' = unit_eqb v w.
  Proof. reflexivity. Qed.
  Lemma Cunit (n : nat) (v v' : unit) : RU v v' -> RU v v'.
  Proof. auto. Qed.

  (** ** Half-open *)
  Notation Rr := (Rr (RK := RK)).
  Notation Re := (Re (RK := RK) (RV := RU)).
  Notation ssim := (csim (Forall2 Re)).
  Definition Rsop {Q} (RQ : Q -> Q -> Prop) (o o' : sop Q) : Prop :=
    match o, o' with
    | SInsert r, SInsert r' => RQ r r'
    | SRemove r, SRemove r' => RQ r r'
    | SClear, SClear => True
    | SExtend l, SExtend l' => Forall2 RQ l l'
    | _, _ => False
    end.
  Lemma cs_insert r r' : Rr r r' -> ssim T (rs_insert cmp r) (rsc_insert kcl cmp r').
  Proof. intros H. apply (c_insert HK Hunit CK Cunit); [exact H|exact I]. Qed.
  Lemma cs_exec o o' : Rsop Rr o o' -> ssim T (rs_exec cmp o) (rsc_exec kcl cmp o').
  Proof.
    destruct o as [r|r| |l], o' as [r'|r'| |l']; intros H; try contradiction H; cbn [rs_exec rsc_exec].
    - apply cs_insert, H.
    - apply (c_remove HK CK Cunit). exact H.
    - apply csim_modify. intros; constructor.
    - apply (csim_for_each _ Rr); [exact cs_insert|exact H].
  Qed.
  Lemma cs_run ops ops' : Forall2 (Rsop Rr) ops ops' ->
    Forall2 Re (rs_run cmp ops) (snd (rsc_run kcl cmp ops')).
  Proof. intros H. apply (csim_run _ (Rsop Rr) _ _ cs_exec _ _ H). constructor. Qed.

  Notation pair := (pair_iter (range K) (list (range K * unit))).
  Notation RP := (Rpair (RR := Rr) (RI := Forall2 Re)).
  Lemma cs_iter_next l l' : Forall2 Re l l' ->
    optrel Rr (fst (rs_iter_next l)) (fst (rs_iter_next l')) /\ Forall2 Re (snd (rs_iter_next l)) (snd (rs_iter_next l')).
  Proof. intros [|a b t t' [H1 _] H2]; cbn; split; auto. Qed.
  Lemma cs_len (l l' : list (range K * unit)) : Forall2 Re l l' -> length l' = length l.
  Proof. intros H. symmetry. exact (f2_length _ _ H). Qed.
  Lemma cs_clone a a' : Rr a a' -> csim RP Rr (ret a) (r_clone kcl a').
  Proof.
    intros [H1 H2] s n s' Hs. unfold r_clone, bind, kclone, ret. cbn.
    split; [|exact Hs]. constructor. split; apply CK; assumption.
  Qed.
  Lemma cs_merge a b a' b' : Rr a a' -> Rr b b' ->
    csim RP (fun x y => fst y = fst x /\ Rr (snd x) (snd y)) (ret (r_merge cmp a b)) (r_mergec kcl cmp a' b').
  Proof.
    intros Ha Hb. destruct Ha as [Ha1 Ha2], Hb as [Hb1 Hb2]. unfold r_merge, r_mergec.
    rewrite (c_contains HK a (r_start b) a' (r_start b') (conj Ha1 Ha2) Hb1).
    destruct (negb (r_contains cmp a (r_start b))); [apply csim_ret; repeat split; assumption|].
    rewrite (c_gtb HK _ _ _ _ Hb2 Ha2). destruct (gtb cmp (r_end b) (r_end a)).
    - apply csim_clone. intros n. apply csim_ret. repeat split; cbn; [exact Ha1|apply CK, Hb2].
    - apply csim_ret. repeat split; assumption.
  Qed.
  Lemma cs_intersect a b a' b' : Rr a a' -> Rr b b' ->
    csim RP (optrel Rr) (ret (r_intersect cmp a b)) (r_intersectc kcl cmp a' b').
  Proof.
    intros [Ha1 Ha2] [Hb1 Hb2]. unfold r_intersect, r_intersectc. cbv zeta.
    pose proof (c_kmax HK _ _ _ _ Ha1 Hb1) as H1. pose proof (c_kmin HK _ _ _ _ Ha2 Hb2) as H2.
    assert (E : geb cmp (kmax cmp (r_start a') (r_start b')) (kmin cmp (r_end a') (r_end b')) =
                geb cmp (kmax cmp (r_start a) (r_start b)) (kmin cmp (r_end a) (r_end b))).
    { unfold geb. apply (c_leb HK); assumption. }
    rewrite E. clear E. destruct (geb cmp (kmax cmp (r_start a) (r_start b)) (kmin cmp (r_end a) (r_end b))); [apply csim_ret; exact I|].
    apply csim_clone. intros n. apply csim_clone. intros n'. apply csim_ret. split; apply CK; assumption.
  Qed.
  Lemma cs_union_next : csim RP (optrel Rr) (rs_union_next cmp) (rsc_union_next kcl cmp).
  Proof.
    apply c_un_next; [exact cs_iter_next|exact cs_len| |exact cs_clone|exact cs_merge].
    intros a b a' b' [H1 _] [H2 _]. apply HK; assumption.
  Qed.
  Lemma cs_intersection_next : csim RP (optrel Rr) (rs_intersection_next cmp) (rsc_intersection_next kcl cmp).
  Proof.
    apply c_in_next; [exact cs_iter_next|exact cs_len| |exact cs_intersect].
    intros a b a' b' [_ H1] [_ H2]. apply HK; assumption.
  Qed.
  Lemma cs_new (a b a' b' : rset K) : Forall2 Re a a' -> Forall2 Re b b' ->
    RP (op_new (rs_iter a) (rs_iter b)) (op_new (rs_iter a') (rs_iter b')).
  Proof. intros H1 H2. repeat split; assumption. Qed.
  (** [collect] does what draining first and inserting then does. *)
  Lemma cs_collect nx nx' (a b a' b' : rset K) n s :
    csim RP (optrel Rr) nx nx' -> Forall2 Re a a' -> Forall2 Re b b' ->
    obind (fst (drain nx (rs_len a + rs_len b + 1) (op_new (rs_iter a) (rs_iter b)))) (rs_from_iter cmp) = Ret s ->
    exists s', fst (rsc_collect kcl cmp nx' a' b' n) = Ret s' /\ Forall2 Re s s'.
  Proof.
    intros Hnx Ha Hb Hd.
    destruct (drain nx (rs_len a + rs_len b + 1) (op_new (rs_iter a) (rs_iter b))) as [[l|p|] u] eqn:D;
      cbn [fst obind] in Hd; try discriminate.
    destruct (collect_drain (T := rset K) nx (rs_insert cmp) _ _ rs_new _ _ D) as [E1 E2].
    pose proof (c_collect (T := rset K) (T' := rset K) (Forall2 Re) nx nx' (rs_insert cmp) (rsc_insert kcl cmp) Hnx cs_insert
      (rs_len a + rs_len b + 1) (op_new (rs_iter a) (rs_iter b), rs_new) n (op_new (rs_iter a') (rs_iter b'), rs_new)
      (conj (cs_new _ _ _ _ Ha Hb) (Forall2_nil _))) as [H1 [_ H2]].
    rewrite E1 in H1. rewrite E2 in H2. clear E1 E2 D.
    unfold rs_from_iter, rs_extend in Hd.
    destruct (for_each (rs_insert cmp) l rs_new) as [[[]|p|] s0]; try discriminate. injection Hd as ->.
    unfold rsc_collect, rs_len, rm_len in *. rewrite (cs_len _ _ Ha), (cs_len _ _ Hb).
    change (@rs_new K) with (@nil (range K * unit)) in H1, H2.
    destruct (collectc nx' (rsc_insert kcl cmp) _ _) as [o' [n' [x s']]]. cbn [fst snd] in *.
    inversion H1; subst. exists s'. split; [reflexivity|exact H2].
  Qed.
  Lemma cs_eval (HR : forall k, RK k k) x : forall s n, rs_eval cmp x = Ret s ->
    exists s', fst (rsc_eval kcl cmp x n) = Ret s' /\ Forall2 Re s s'.
  Proof.
    assert (Hr : forall r, Rr r r) by (intros r; split; apply HR).
    induction x as [|y IH o|y IHy z IHz|y IHy z IHz]; intros s n E; cbn [rs_eval rsc_eval] in *.
    - injection E as <-. exists []. split; [reflexivity|constructor].
    - destruct (rs_eval cmp y) as [t| |]; try discriminate. cbn in E. injection E as <-.
      destruct (IH t n eq_refl) as (t' & E' & H). unfold bind.
      destruct (rsc_eval kcl cmp y n) as [o1 n1]. cbn [fst] in E'. subst o1. cbn [fst snd].
      assert (Ho : Rsop Rr o o).
      { destruct o as [r|r| |l]; cbn; auto. induction l; constructor; auto. }
      pose proof (cs_exec o o Ho t n1 t' H) as [_ H2]. exists (snd (snd (rsc_exec kcl cmp o (n1, t')))).
      split; [|exact H2]. destruct (rsc_exec kcl cmp o (n1, t')) as [o2 [n2 t2]]. reflexivity.
    - destruct (rs_eval cmp y) as [a| |]; try discriminate. cbn [obind] in E.
      destruct (rs_eval cmp z) as [b| |]; try discriminate. cbn [obind] in E.
      destruct (IHy a n eq_refl) as (a' & Ea & Ha). unfold bind.
      destruct (rsc_eval kcl cmp y n) as [o1 n1]. cbn [fst] in Ea. subst o1.
      destruct (IHz b n1 eq_refl) as (b' & Eb & Hb).
      destruct (rsc_eval kcl cmp z n1) as [o2 n2]. cbn [fst] in Eb. subst o2.
      exact (cs_collect _ _ a b a' b' n2 s cs_union_next Ha Hb E).
    - destruct (rs_eval cmp y) as [a| |]; try discriminate. cbn [obind] in E.
      destruct (rs_eval cmp z) as [b| |]; try discriminate. cbn [obind] in E.
      destruct (IHy a n eq_refl) as (a' & Ea & Ha). unfold bind.
      destruct (rsc_eval kcl cmp y n) as [o1 n1]. cbn [fst] in Ea. subst o1.
      destruct (IHz b n1 eq_refl) as (b' & Eb & Hb).
      destruct (rsc_eval kcl cmp z n1) as [o2 n2]. cbn [fst] in Eb. subst o2.
      exact (cs_collect _ _ a b a' b' n2 s cs_intersection_next Ha Hb E).
  Qed.
  Lemma cs_contains (s : rset K) n (s' : rset K) k k' : Forall2 Re s s' -> RK k k' ->
    fst (rsc_contains kcl cmp k' (n, s')) = rs_contains cmp s k /\
    snd (snd (rsc_contains kcl cmp k' (n, s'))) = s'.
  Proof.
    intros Hs Hk. destruct (c_get_key_value HK CK s n s' k k' Hs Hk) as [H1 H2].
    unfold rset in *. unfold rsc_contains, rmc_get, bind, rs_contains, rm_contains_key, rm_get, omap, ret.
    destruct (rmc_get_key_value kcl cmp k' (n, s')) as [o [n1 s1]]. cbn [fst snd] in *. subst s1.
    destruct H1 as [[[r v]|] [[r' v']|] Hx|p|]; try contradiction Hx; split; reflexivity.
  Qed.
  (** ** Inclusive *)
  Context {st : stepfns K}.
  Context (HA : forall x x' y, RK x x' -> ltb cmp x y = true ->
                  orel RK (step_o (add_one st x)) (step_o (add_one st x'))).
  Context (HS : forall x x' y, RK x x' -> ltb cmp y x = true ->
                  orel RK (step_o (sub_one st x)) (step_o (sub_one st x'))).
  Notation Rri := (Rri (RK := RK)).
  Notation Rei := (Rei (RK := RK) (RV := RU)).
  Notation issim := (csim (Forall2 Rei)).
  Lemma cis_insert r r' : Rri r r' -> issim T (is_insert cmp st r) (isc_insert kcl cmp st r').
  Proof. intros H. apply (ci_insert HK Hunit CK Cunit HA HS); [exact H|exact I]. Qed.
  Lemma cis_exec o o' : Rsop Rri o o' -> issim T (is_exec cmp st o) (isc_exec kcl cmp st o').
  Proof.
    destruct o as [r|r| |l], o' as [r'|r'| |l']; intros H; try contradiction H; cbn [is_exec isc_exec].
    - apply cis_insert, H.
    - apply (ci_remove HK CK Cunit HA HS). exact H.
    - apply csim_modify. intros; constructor.
    - apply (csim_for_each _ Rri); [exact cis_insert|exact H].
  Qed.
  Lemma cis_run ops ops' : Forall2 (Rsop Rri) ops ops' ->
    Forall2 Rei (is_run cmp st ops) (snd (isc_run kcl cmp st ops')).
  Proof. intros H. apply (csim_run _ (Rsop Rri) _ _ cis_exec _ _ H). constructor. Qed.

  Notation pairi := (pair_iter (rangei K) (list (rangei K * unit))).
  Notation RPi := (Rpair (RR := Rri) (RI := Forall2 Rei)).
  Lemma cis_iter_next l l' : Forall2 Rei l l' ->
    optrel Rri (fst (is_iter_next l)) (fst (is_iter_next l')) /\ Forall2 Rei (snd (is_iter_next l)) (snd (is_iter_next l')).
  Proof. intros [|a b t t' [H1 _] H2]; cbn; split; auto. Qed.
  Lemma cis_len (l l' : list (rangei K * unit)) : Forall2 Rei l l' -> length l' = length l.
  Proof. intros H. symmetry. exact (f2_length _ _ H). Qed.
  Lemma cis_clone a a' : Rri a a' -> csim RPi Rri (ret a) (ri_clone kcl a').
  Proof.
    intros (H1 & H2 & H3) s n s' Hs. unfold ri_clone, bind, kclone, ret. cbn.
    split; [|exact Hs]. constructor. repeat split; [apply CK; assumption|apply CK; assumption|exact H3].
  Qed.
  Lemma cis_merge a b a' b' : Rri a a' -> Rri b b' ->
    csim RPi (fun x y => fst y = fst x /\ Rri (snd x) (snd y)) (ret (ri_merge cmp a b)) (ri_mergec kcl cmp a' b').
  Proof.
    intros Ha Hb. destruct Ha as (Ha1 & Ha2 & Ha3), Hb as (Hb1 & Hb2 & Hb3). unfold ri_merge, ri_mergec.
    rewrite (ci_contains HK a (ri_start b) a' (ri_start b') (conj Ha1 (conj Ha2 Ha3)) Hb1).
    destruct (negb (ri_contains cmp a (ri_start b))); [apply csim_ret; repeat split; assumption|].
    rewrite (c_gtb HK _ _ _ _ Hb2 Ha2). destruct (gtb cmp (ri_end b) (ri_end a)).
    - apply csim_clone. intros n. apply csim_clone. intros n'. apply csim_ret. repeat split; cbn; apply CK; assumption.
    - apply csim_ret. repeat split; assumption.
  Qed.
  Lemma cis_intersect a b a' b' : Rri a a' -> Rri b b' ->
    csim RPi (optrel Rri) (ret (ri_intersect cmp a b)) (ri_intersectc kcl cmp a' b').
  Proof.
    intros (Ha1 & Ha2 & Ha3) (Hb1 & Hb2 & Hb3). unfold ri_intersect, ri_intersectc. cbv zeta.
    pose proof (c_kmax HK _ _ _ _ Ha1 Hb1) as H1. pose proof (c_kmin HK _ _ _ _ Ha2 Hb2) as H2.
    assert (E : gtb cmp (kmax cmp (ri_start a') (ri_start b')) (kmin cmp (ri_end a') (ri_end b')) =
                gtb cmp (kmax cmp (ri_start a) (ri_start b)) (kmin cmp (ri_end a) (ri_end b))).
    { apply (c_gtb HK); assumption. }
    rewrite E. clear E. destruct (gtb cmp (kmax cmp (ri_start a) (ri_start b)) (kmin cmp (ri_end a) (ri_end b))); [apply csim_ret; exact I|].
    apply csim_clone. intros n. apply csim_clone. intros n'. apply csim_ret. repeat split; apply CK; assumption.
  Qed.
  Lemma cis_union_next : csim RPi (optrel Rri) (is_union_next cmp) (isc_union_next kcl cmp).
  Proof.
    apply c_un_next; [exact cis_iter_next|exact cis_len| |exact cis_clone|exact cis_merge].
    intros a b a' b' (H1 & _) (H2 & _). apply HK; assumption.
  Qed.
  Lemma cis_intersection_next : csim RPi (optrel Rri) (is_intersection_next cmp) (isc_intersection_next kcl cmp).
  Proof.
    apply c_in_next; [exact cis_iter_next|exact cis_len| |exact cis_intersect].
    intros a b a' b' (_ & H1 & _) (_ & H2 & _). apply HK; assumption.
  Qed.
  Lemma cis_new (a b a' b' : iset K) : Forall2 Rei a a' -> Forall2 Rei b b' ->
    RPi (op_new (is_iter a) (is_iter b)) (op_new (is_iter a') (is_iter b')).
  Proof. intros H1 H2. repeat split; assumption. Qed.
  (** [collect] does what draining first and inserting then does. *)
  Lemma cis_collect nx nx' (a b a' b' : iset K) n s :
    csim RPi (optrel Rri) nx nx' -> Forall2 Rei a a' -> Forall2 Rei b b' ->
    obind (fst (drain nx (is_len a + is_len b + 1) (op_new (is_iter a) (is_iter b)))) (is_from_iter cmp st) = Ret s ->
    exists s', fst (isc_collect kcl cmp st nx' a' b' n) = Ret s' /\ Forall2 Rei s s'.
  Proof.
    intros Hnx Ha Hb Hd.
    destruct (drain nx (is_len a + is_len b + 1) (op_new (is_iter a) (is_iter b))) as [[l|p|] u] eqn:D;
      cbn [fst obind] in Hd; try discriminate.
    destruct (collect_drain (T := iset K) nx (is_insert cmp st) _ _ is_new _ _ D) as [E1 E2].
    pose proof (c_collect (T := iset K) (T' := iset K) (Forall2 Rei) nx nx' (is_insert cmp st) (isc_insert kcl cmp st) Hnx cis_insert
      (is_len a + is_len b + 1) (op_new (is_iter a) (is_iter b), is_new) n (op_new (is_iter a') (is_iter b'), is_new)
      (conj (cis_new _ _ _ _ Ha Hb) (Forall2_nil _))) as [H1 [_ H2]].
    rewrite E1 in H1. rewrite E2 in H2. clear E1 E2 D.
    unfold is_from_iter, is_extend in Hd.
    destruct (for_each (is_insert cmp st) l is_new) as [[[]|p|] s0]; try discriminate. injection Hd as ->.
    unfold isc_collect, is_len, im_len in *. rewrite (cis_len _ _ Ha), (cis_len _ _ Hb).
    change (@is_new K) with (@nil (rangei K * unit)) in H1, H2.
    destruct (collectc nx' (isc_insert kcl cmp st) _ _) as [o' [n' [x s']]]. cbn [fst snd] in *.
    inversion H1; subst. exists s'. split; [reflexivity|exact H2].
  Qed.
  Lemma cis_eval (HR : forall k, RK k k) x : forall s n, is_eval cmp st x = Ret s ->
    exists s', fst (isc_eval kcl cmp st x n) = Ret s' /\ Forall2 Rei s s'.
  Proof.
    assert (Hr : forall r, Rri r r) by (intros r; repeat split; apply HR).
    induction x as [|y IH o|y IHy z IHz|y IHy z IHz]; intros s n E; cbn [is_eval isc_eval] in *.
    - injection E as <-. exists []. split; [reflexivity|constructor].
    - destruct (is_eval cmp st y) as [t| |]; try discriminate. cbn in E. injection E as <-.
      destruct (IH t n eq_refl) as (t' & E' & H). unfold bind.
      destruct (isc_eval kcl cmp st y n) as [o1 n1]. cbn [fst] in E'. subst o1. cbn [fst snd].
      assert (Ho : Rsop Rri o o).
      { destruct o as [r|r| |l]; cbn; auto. induction l; constructor; auto. }
      pose proof (cis_exec o o Ho t n1 t' H) as [_ H2]. exists (snd (snd (isc_exec kcl cmp st o (n1, t')))).
      split; [|exact H2]. destruct (isc_exec kcl cmp st o (n1, t')) as [o2 [n2 t2]]. reflexivity.
    - destruct (is_eval cmp st y) as [a| |]; try discriminate. cbn [obind] in E.
      destruct (is_eval cmp st z) as [b| |]; try discriminate. cbn [obind] in E.
      destruct (IHy a n eq_refl) as (a' & Ea & Ha). unfold bind.
      destruct (isc_eval kcl cmp st y n) as [o1 n1]. cbn [fst] in Ea. subst o1.
      destruct (IHz b n1 eq_refl) as (b' & Eb & Hb).
      destruct (isc_eval kcl cmp st z n1) as [o2 n2]. cbn [fst] in Eb. subst o2.
      exact (cis_collect _ _ a b a' b' n2 s cis_union_next Ha Hb E).
    - destruct (is_eval cmp st y) as [a| |]; try discriminate. cbn [obind] in E.
      destruct (is_eval cmp st z) as [b| |]; try discriminate. cbn [obind] in E.
      destruct (IHy a n eq_refl) as (a' & Ea & Ha). unfold bind.
      destruct (isc_eval kcl cmp st y n) as [o1 n1]. cbn [fst] in Ea. subst o1.
      destruct (IHz b n1 eq_refl) as (b' & Eb & Hb).
      destruct (isc_eval kcl cmp st z n1) as [o2 n2]. cbn [fst] in Eb. subst o2.
      exact (cis_collect _ _ a b a' b' n2 s cis_intersection_next Ha Hb E).
  Qed.
  Lemma cis_contains (s : iset K) n (s' : iset K) k k' : Forall2 Rei s s' -> RK k k' ->
    fst (isc_contains kcl cmp k' (n, s')) = is_contains cmp s k /\
    snd (snd (isc_contains kcl cmp k' (n, s'))) = s'.
  Proof.
    intros Hs Hk. destruct (ci_get_key_value HK CK s n s' k k' Hs Hk) as [H1 H2].
    unfold iset in *. unfold isc_contains, imc_get, bind, is_contains, im_contains_key, im_get, omap, ret.
    destruct (imc_get_key_value kcl cmp k' (n, s')) as [o [n1 s1]]. cbn [fst snd] in *. subst s1.
    destruct H1 as [[[r v]|] [[r' v']|] Hx|p|]; try contradiction Hx; split; reflexivity.
  Qed.
End Sets.
