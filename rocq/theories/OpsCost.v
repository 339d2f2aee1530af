(** The number of comparisons the union and intersection iterators make (C102). *)
From Coq Require Import List Bool Lia.
From Verif Require Import Order Outcome BTree Ranges History OpsModel SetModel ISetModel CloneModel CloneSetModel
  OpsCostModel ListLemmas.
Import ListNotations.

(** ** Forgetting the count gives the model of OpsModel.v *)
Definition erases {S A} (q : M (counted S) A) (c : M S A) : Prop :=
  forall s, (fst (q s), snd (snd (q s))) = c (snd s).
Section Erase.
  Lemma er_ret {S A} (x : A) : erases (S := S) (ret x) (ret x).
  Proof. intros s. reflexivity. Qed.
  Lemma er_bind {S A B} (q : M (counted S) A) c (f : A -> M (counted S) B) g :
    erases q c -> (forall x, erases (f x) (g x)) -> erases (bind q f) (bind c g).
  Proof.
    intros H G s. specialize (H s). unfold bind. destruct (q s) as [[x|p|] s1]; cbn [fst snd] in *; rewrite <- H; [|reflexivity..].
    apply G.
  Qed.
  Lemma er_pure {S A B} (q : M (counted S) A) x (f : A -> M (counted S) B) g :
    erases q (ret x) -> erases (f x) g -> erases (bind q f) g.
  Proof.
    intros H G s. specialize (H s). unfold bind. destruct (q s) as [[y|p|] s1]; cbn [fst snd] in *; inversion H. subst y.
    rewrite <- (G s1). subst. reflexivity.
  Qed.
  Lemma er_nocl {S A} (c : M S A) : erases (nocl c) c.
  Proof. intros s. unfold nocl. destruct (c (snd s)); reflexivity. Qed.
  Lemma er_get {S} : erases (S := S) cget get.
  Proof. intros s. reflexivity. Qed.
  Lemma er_nofuel {S A} : erases (S := S) (A := A) nofuel nofuel.
  Proof. intros s. reflexivity. Qed.
  Lemma er_unwrap {S R} (o : option R) : erases (S := S) (unwrap o) (unwrap o).
  Proof. destruct o; intros s; reflexivity. Qed.
End Erase.

Section EraseOps.
  Context {R I : Type} (inext : I -> option R * I) (ilen : I -> nat).
  Notation CP := (M (counted (pair_iter R I))).
  Context (os oe : R -> R -> CP comparison) (mg : R -> R -> CP (bool * R)) (is_ : R -> R -> CP (option R)).
  Context (os' oe' : R -> R -> comparison) (mg' : R -> R -> bool * R) (is' : R -> R -> option R).
  Context (Hos : forall a b, erases (os a b) (ret (os' a b))) (Hoe : forall a b, erases (oe a b) (ret (oe' a b))).
  Context (Hmg : forall a b, erases (mg a b) (ret (mg' a b))) (His : forall a b, erases (is_ a b) (ret (is' a b))).

  Lemma er_join pk nx pk' nx' r : erases pk pk' -> erases nx nx' ->
    erases (unq_join mg pk nx r) (un_join mg' pk' nx' r).
  Proof.
    intros Hp Hn. apply er_bind; [exact Hp|]. intros [y|]; [|apply er_ret].
    eapply er_pure; [apply Hmg|]. destruct (mg' r y) as [[] z]; cbn [fst snd]; [|apply er_ret].
    apply er_bind; [exact Hn|]. intros _. apply er_ret.
  Qed.
  Lemma er_loop fuel : forall r, erases (unq_loop inext mg fuel r) (un_loop inext mg' fuel r).
  Proof.
    induction fuel as [|fuel IH]; intros r; cbn [unq_loop un_loop]; [apply er_nofuel|].
    apply er_bind; [apply er_join; apply er_nocl|]. intros [[] z]; cbn [fst snd]; [apply IH|].
    apply er_bind; [apply er_join; apply er_nocl|]. intros [[] z']; cbn [fst snd]; [apply IH|apply er_ret].
  Qed.
  Lemma er_union : erases (unq_next inext ilen os mg) (un_next inext ilen os' mg').
  Proof.
    assert (T : forall (c : CP (option R)) c', erases c c' ->
      erases (o <- c ;; r <- unwrap o ;; ret (Some r))%M (o <- c' ;; r <- unwrap o ;; ret (Some r))%M).
    { intros c c' H. apply er_bind; [exact H|]. intros o. apply er_bind; [apply er_unwrap|]. intros r. apply er_ret. }
    unfold unq_next, un_next. apply er_bind; [apply er_nocl|]. intros l. apply er_bind; [apply er_nocl|]. intros r.
    apply er_bind.
    - destruct l as [l|], r as [r|]; [|apply T, er_nocl|apply T, er_nocl|apply er_ret].
      eapply er_pure; [apply Hos|]. destruct (os' l r); apply T, er_nocl.
    - intros [z|]; [|apply er_ret]. apply er_bind; [apply er_get|]. intros u.
      apply er_bind; [apply er_loop|]. intros z'. apply er_ret.
  Qed.
  Lemma er_iloop fuel : erases (inq_loop inext oe is_ fuel) (in_loop inext oe' is' fuel).
  Proof.
    induction fuel as [|fuel IH]; cbn [inq_loop in_loop]; [apply er_nofuel|].
    apply er_bind; [apply er_nocl|]. intros l. apply er_bind; [apply er_nocl|]. intros r.
    destruct l as [l|], r as [r|]; try apply er_ret.
    eapply er_pure; [apply His|]. eapply er_pure; [apply Hoe|]. cbv zeta. apply er_bind.
    - destruct (oe' l r); apply er_nocl.
    - intros _. destruct (is' l r); [apply er_ret|exact IH].
  Qed.
  Lemma er_intersection : erases (inq_next inext ilen oe is_) (in_next inext ilen oe' is').
  Proof. apply er_bind; [apply er_get|]. intros u. apply er_iloop. Qed.
End EraseOps.

Section EraseSets.
  Context {K : Type} (cmp : K -> K -> comparison) (HO : TotalOrd cmp).
  Notation kc := (fun _ : nat => cmp).
  Lemma er_rmerge {S} a b : erases (S := S) (r_mergeq kc a b) (ret (r_merge cmp a b)).
  Proof.
    intros [n s]. unfold r_merge, r_mergeq, r_containsq, r_contains, qle, qlt, qgt, qcmp, bind, ret, leb, gtb, ltb. cbn.
    rewrite (ord_dual _ HO (r_end b) (r_end a)).
    destruct (cmp (r_start a) (r_start b)), (cmp (r_start b) (r_end a)), (cmp (r_end b) (r_end a)); reflexivity.
  Qed.
  Lemma er_rintersect {S} a b : erases (S := S) (r_intersectq kc a b) (ret (r_intersect cmp a b)).
  Proof.
    intros [n s]. unfold r_intersect, r_intersectq, qmax, qmin, qge, qcmp, bind, ret, kmax, kmin, geb, leb, ltb. cbn.
    rewrite (ord_dual _ HO (r_start a) (r_start b)), (ord_dual _ HO (r_end a) (r_end b)).
    destruct (cmp (r_start a) (r_start b)), (cmp (r_end a) (r_end b)); cbn [CompOpp];
      match goal with |- context [cmp ?x ?y] => rewrite (ord_dual _ HO x y); destruct (cmp x y) end; reflexivity.
  Qed.
  Lemma er_rimerge {S} a b : erases (S := S) (ri_mergeq kc a b) (ret (ri_merge cmp a b)).
  Proof.
    intros [n s]. unfold ri_merge, ri_mergeq, ri_containsq, ri_contains, qle, qlt, qgt, qcmp, bind, ret, leb, gtb, ltb. cbn.
    rewrite (ord_dual _ HO (ri_end b) (ri_end a)).
    destruct (ri_exhausted a);
      destruct (cmp (ri_start a) (ri_start b)), (cmp (ri_start b) (ri_end a)), (cmp (ri_end b) (ri_end a)); reflexivity.
  Qed.
  Lemma er_riintersect {S} a b : erases (S := S) (ri_intersectq kc a b) (ret (ri_intersect cmp a b)).
  Proof.
    intros [n s]. unfold ri_intersect, ri_intersectq, qmax, qmin, qgt, qcmp, bind, ret, kmax, kmin, gtb, ltb. cbn.
    rewrite (ord_dual _ HO (ri_start a) (ri_start b)), (ord_dual _ HO (ri_end a) (ri_end b)).
    destruct (cmp (ri_start a) (ri_start b)), (cmp (ri_end a) (ri_end b)); cbn [CompOpp];
      match goal with |- context [cmp ?x ?y] => rewrite (ord_dual _ HO x y); destruct (cmp x y) end; reflexivity.
  Qed.
  Lemma er_rs_union : erases (rsq_union_next kc) (rs_union_next cmp).
  Proof. apply er_union; [intros a b s; reflexivity|intros; apply er_rmerge]. Qed.
  Lemma er_rs_intersection : erases (rsq_intersection_next kc) (rs_intersection_next cmp).
  Proof. apply er_intersection; [intros a b s; reflexivity|intros; apply er_rintersect]. Qed.
  Lemma er_is_union : erases (isq_union_next kc) (is_union_next cmp).
  Proof. apply er_union; [intros a b s; reflexivity|intros; apply er_rimerge]. Qed.
  Lemma er_is_intersection : erases (isq_intersection_next kc) (is_intersection_next cmp).
  Proof. apply er_intersection; [intros a b s; reflexivity|intros; apply er_riintersect]. Qed.
End EraseSets.

(** ** Counting *)
Section Count.
  Context {R I : Type} (inext : I -> option R * I) (ilen : I -> nat).
  Context (Hnext : forall i, match inext i with
                             | (Some _, j) => ilen i = S (ilen j)
                             | (None, j) => ilen i = 0 /\ ilen j = 0
                             end).
  Notation pair := (pair_iter R I).
  Notation CP := (M (counted pair)).
  Notation plen := (pk_len ilen).
  Notation len u := (plen (op_left u) + plen (op_right u)).

  Lemma ct_peek p : match pk_peek inext p with
    | (o, q) => pk_peeked q = Some o /\ plen q = plen p /\ (match o with Some _ => 0 < plen p | None => True end) end.
  Proof.
    unfold pk_peek. destruct p as [i [o|]]; cbn [pk_peeked pk_iter].
    - destruct o; unfold pk_len; cbn; splits; auto; lia.
    - specialize (Hnext i). destruct (inext i) as [[r|] j]; unfold pk_len; cbn; splits; auto; lia.
  Qed.
  Lemma ct_next p o : pk_peeked p = Some o -> match pk_next inext p with
    | (o', q) => o' = o /\ plen p = plen q + (match o with Some _ => 1 | None => 0 end) end.
  Proof. destruct p as [i x]. unfold pk_next. cbn [pk_peeked pk_iter]. intros ->. unfold pk_len. destruct o; cbn; split; auto; lia. Qed.

  (** a computation that leaves the two iterators alone and adds [k] to the count *)
  Definition asks {A} (P : A -> nat -> Prop) (c : CP A) : Prop :=
    forall n u, exists x k, c (n, u) = (Ret x, (n + k, u)) /\ P x k.

  (** [ko], [ke], [ki], [rc]: how much one [order_start], [order_end],
      [intersect], and one clone of a range add at most; [m1] and [m0]: one
      [merge] that succeeds, or fails; [w]: the budget of each range taken *)
  Context (ko ke ki rc m0 m1 w : nat) (Hw1 : ko + rc + 2 * m0 <= w) (Hw2 : m0 + m1 <= w) (Hw3 : ki + ke <= w).
  Context (os oe : R -> R -> CP comparison) (mg : R -> R -> CP (bool * R)) (is_ : R -> R -> CP (option R)).
  Context (Hos : forall a b, asks (fun _ k => k <= ko) (os a b)).
  Context (Hoe : forall a b, asks (fun _ k => k <= ke) (oe a b)).
  Context (Hmg : forall a b, asks (fun (x : bool * R) k => k <= if fst x then m1 else m0) (mg a b)).
  Context (His : forall a b, asks (fun _ k => k <= ki) (is_ a b)).

  Definition joinl := unq_join mg (nocl (peek_left inext)) (nocl (next_left inext)).
  Definition joinr := unq_join mg (nocl (peek_right inext)) (nocl (next_right inext)).
  Definition join_post (c : CP (bool * R)) : Prop := forall n u, exists b r' k u', c (n, u) = (Ret (b, r'), (n + k, u')) /\
    if b : bool then k <= m1 /\ len u = S (len u') else k <= m0 /\ len u' = len u.
  Lemma ct_joinl r : join_post (joinl r).
  Proof.
    intros n [p q]. pose proof (ct_peek p) as H. unfold joinl, unq_join, bind, nocl, peek_left. cbn [snd fst op_left op_right].
    destruct (pk_peek inext p) as [o p1]. destruct H as [H1 [H2 H3]]. cbn [fst snd].
    destruct o as [y|].
    - destruct (Hmg r y n (mkPair p1 q)) as [x [k [E Hk]]]. rewrite E. destruct x as [[] z]; cbn [fst snd] in *.
      + pose proof (ct_next _ _ H1) as G. unfold next_left. cbn [op_left op_right]. destruct (pk_next inext p1) as [o2 p2]. destruct G as [G1 G2].
        exists true, z, k, (mkPair p2 q). cbn in *. splits; auto; lia.
      + exists false, z, k, (mkPair p1 q). cbn in *. splits; auto; lia.
    - exists false, r, 0, (mkPair p1 q). rewrite PeanoNat.Nat.add_0_r. cbn. splits; auto; lia.
  Qed.
  Lemma ct_joinr r : join_post (joinr r).
  Proof.
    intros n [p q]. pose proof (ct_peek q) as H. unfold joinr, unq_join, bind, nocl, peek_right. cbn [snd fst op_left op_right].
    destruct (pk_peek inext q) as [o q1]. destruct H as [H1 [H2 H3]]. cbn [fst snd].
    destruct o as [y|].
    - destruct (Hmg r y n (mkPair p q1)) as [x [k [E Hk]]]. rewrite E. destruct x as [[] z]; cbn [fst snd] in *.
      + pose proof (ct_next _ _ H1) as G. unfold next_right. cbn [op_left op_right]. destruct (pk_next inext q1) as [o2 q2]. destruct G as [G1 G2].
        exists true, z, k, (mkPair p q2). cbn in *. splits; auto; lia.
      + exists false, z, k, (mkPair p q1). cbn in *. splits; auto; lia.
    - exists false, r, 0, (mkPair p q1). rewrite PeanoNat.Nat.add_0_r. cbn. splits; auto; lia.
  Qed.
  Lemma ct_loop fuel : forall r n u, len u < fuel -> exists r' n' u',
    unq_loop inext mg fuel r (n, u) = (Ret r', (n', u')) /\ n <= n' /\ len u' <= len u /\ n' + w * len u' <= n + w * len u + 2 * m0.
  Proof.
    induction fuel as [|fuel IH]; intros r n u Hf; [lia|]. cbn [unq_loop]. unfold bind at 1.
    destruct (ct_joinl r n u) as [b [r1 [k [u1 [E H]]]]]. unfold joinl in E. rewrite E. cbn [fst snd].
    destruct b.
    - destruct (IH r1 (n + k) u1 ltac:(lia)) as [r' [n' [u' [E' [G0 [G1 G2]]]]]]. exists r', n', u'. split; [exact E'|nia].
    - unfold bind. destruct (ct_joinr r1 (n + k) u1) as [b [r2 [k2 [u2 [E2 H2]]]]]. unfold joinr in E2. rewrite E2. cbn [fst snd].
      destruct b.
      + destruct (IH r2 (n + k + k2) u2 ltac:(lia)) as [r' [n' [u' [E' [G0 [G1 G2]]]]]]. exists r', n', u'. split; [exact E'|nia].
      + exists r2, (n + k + k2), u2. split; [reflexivity|nia].
  Qed.
  (** after both peeks *)
  Lemma ct_peeks (p q : peekable I R) {A} (f : option R -> option R -> CP A) n :
    exists o o' p' q', (l <- nocl (peek_left inext) ;; r <- nocl (peek_right inext) ;; f l r)%M (n, mkPair p q) = f o o' (n, mkPair p' q')
      /\ pk_peeked p' = Some o /\ pk_peeked q' = Some o' /\ plen p' = plen p /\ plen q' = plen q
      /\ (match o with Some _ => 0 < plen p | None => True end) /\ (match o' with Some _ => 0 < plen q | None => True end).
  Proof.
    pose proof (ct_peek p) as H. pose proof (ct_peek q) as G. unfold bind, nocl, peek_left, peek_right. cbn [fst snd op_left op_right].
    destruct (pk_peek inext p) as [o p1]. cbn [fst snd op_left op_right]. destruct (pk_peek inext q) as [o' q1]. cbn [fst snd].
    destruct H as [H1 [H2 H3]], G as [G1 [G2 G3]].
    exists o, o', p1, q1. splits; auto.
  Qed.
  Definition next_post (c : CP (option R)) : Prop := forall n u, exists o n' u', c (n, u) = (Ret o, (n', u'))
    /\ n <= n' /\ n' + w * len u' <= n + w * len u
    /\ match o with Some _ => len u' < len u | None => len u' <= len u end.
  Lemma ct_take (left : bool) o n p q : (if left then pk_peeked p else pk_peeked q) = Some (Some o) ->
    exists p' q', (x <- (if left then nocl (next_left inext) else nocl (next_right inext)) ;; r <- unwrap x ;; ret (Some r))%M (n, mkPair p q)
      = (Ret (Some o), (n, mkPair p' q')) /\ plen p + plen q = S (plen p' + plen q').
  Proof.
    destruct left; intros H; pose proof (ct_next _ _ H) as G; unfold bind, nocl, next_left, next_right; cbn [fst snd op_left op_right].
    - destruct (pk_next inext p) as [o' p']. destruct G as [-> G]. exists p', q. split; [reflexivity|lia].
    - destruct (pk_next inext q) as [o' q']. destruct G as [-> G]. exists p, q'. split; [reflexivity|lia].
  Qed.
  Lemma ct_union_tail n r p q : exists o n' u', (u <- cget ;; r' <- unq_loop inext mg (pk_len ilen (op_left u) + pk_len ilen (op_right u) + 1) r ;; ret (Some r'))%M
      (n, mkPair p q) = (Ret (Some o), (n', u')) /\ n <= n' /\ len u' <= plen p + plen q /\ n' + w * len u' <= n + w * (plen p + plen q) + 2 * m0.
  Proof.
    unfold bind, cget. cbn [snd op_left op_right].
    destruct (ct_loop (plen p + plen q + 1) r n (mkPair p q)) as [r' [n' [u' [E H]]]]; [cbn; lia|]. rewrite E.
    exists r', n', u'. split; [reflexivity|exact H].
  Qed.
  Lemma ct_union : next_post (unq_next inext ilen os mg).
  Proof.
    intros n [p q]. unfold unq_next.
    destruct (ct_peeks p q (fun l r => first <- match l, r with
              | Some _, None => o <- nocl (next_left inext) ;; r <- unwrap o ;; ret (Some r)
              | None, Some _ => o <- nocl (next_right inext) ;; r <- unwrap o ;; ret (Some r)
              | Some lt_, Some rt_ =>
                  c <- os lt_ rt_ ;;
                  match c with
                  | Lt => o <- nocl (next_left inext) ;; r <- unwrap o ;; ret (Some r)
                  | _ => o <- nocl (next_right inext) ;; r <- unwrap o ;; ret (Some r)
                  end
              | None, None => ret None
              end ;;
     match first with
     | None => ret None
     | Some range =>
         u <- cget ;;
         range' <- unq_loop inext mg (pk_len ilen (op_left u) + pk_len ilen (op_right u) + 1) range ;;
         ret (Some range')
     end)%M n) as [o [o' [p1 [q1 [E [H1 [H2 [H3 [H4 [H5 H6]]]]]]]]]].
    rewrite E. clear E.
    assert (T : forall (left : bool) k x, k <= ko -> (if left then pk_peeked p1 else pk_peeked q1) = Some (Some x) ->
      exists y n' u', (first <- (x <- (if left then nocl (next_left inext) else nocl (next_right inext)) ;; r <- unwrap x ;; ret (Some r)) ;;
        match first with
        | None => ret None
        | Some range =>
         u <- cget ;;
         range' <- unq_loop inext mg (pk_len ilen (op_left u) + pk_len ilen (op_right u) + 1) range ;;
         ret (Some range')
        end)%M (n + k, mkPair p1 q1) = (Ret (Some y), (n', u')) /\ n <= n' /\ n' + w * len u' <= n + w * (plen p + plen q) /\ len u' < plen p + plen q).
    { intros left k x Hk Hx. unfold bind at 1. destruct (ct_take left x (n + k) p1 q1 Hx) as [p2 [q2 [E G]]]. rewrite E.
      destruct (ct_union_tail (n + k) x p2 q2) as [y [n' [u' [E' [G1 [G2 G3]]]]]]. exists y, n', u'.
      split; [exact E'|]. nia. }
    destruct o as [l|], o' as [r|].
    - unfold bind at 1. unfold bind at 1. destruct (Hos l r n (mkPair p1 q1)) as [c [k [E Hk]]]. rewrite E.
      destruct c.
      + destruct (T false k r Hk H2) as [y [n' [u' [E' G]]]]. exists (Some y), n', u'. split; [exact E'|exact G].
      + destruct (T true k l Hk H1) as [y [n' [u' [E' G]]]]. exists (Some y), n', u'. split; [exact E'|exact G].
      + destruct (T false k r Hk H2) as [y [n' [u' [E' G]]]]. exists (Some y), n', u'. split; [exact E'|exact G].
    - destruct (T true 0 l ltac:(lia) H1) as [y [n' [u' [E' G]]]]. rewrite PeanoNat.Nat.add_0_r in E'. exists (Some y), n', u'. split; [exact E'|exact G].
    - destruct (T false 0 r ltac:(lia) H2) as [y [n' [u' [E' G]]]]. rewrite PeanoNat.Nat.add_0_r in E'. exists (Some y), n', u'. split; [exact E'|exact G].
    - exists None, n, (mkPair p1 q1). split; [reflexivity|]. cbn [op_left op_right]. rewrite H3, H4. lia.
  Qed.
  (** with the clone of the first range (CloneSetModel.v) *)
  Context (os' : R -> R -> comparison) (rcl : R -> CP R) (Hrc : forall a, asks (fun _ k => k <= rc) (rcl a)).
  Lemma ct_unionc : next_post (unc_next inext ilen os' rcl mg).
  Proof.
    intros n [p q]. unfold unc_next.
    destruct (ct_peeks p q (fun l r => first <- match l, r with
              | Some _, None => o <- nocl (next_left inext) ;; r <- unwrap o ;; ret (Some r)
              | None, Some _ => o <- nocl (next_right inext) ;; r <- unwrap o ;; ret (Some r)
              | Some lt_, Some rt_ =>
                  match os' lt_ rt_ with
                  | Lt => o <- nocl (next_left inext) ;; r <- unwrap o ;; ret (Some r)
                  | _ => o <- nocl (next_right inext) ;; r <- unwrap o ;; ret (Some r)
                  end
              | None, None => ret None
              end ;;
     match first with
     | None => ret None
     | Some range0 =>
         range <- rcl range0 ;;
         u <- cget ;;
         range' <- unc_loop inext mg (pk_len ilen (op_left u) + pk_len ilen (op_right u) + 1) range ;;
         ret (Some range')
     end)%M n) as [o [o' [p1 [q1 [E [H1 [H2 [H3 [H4 [H5 H6]]]]]]]]]].
    rewrite E. clear E.
    assert (T : forall (left : bool) x, (if left then pk_peeked p1 else pk_peeked q1) = Some (Some x) ->
      exists y n' u', (first <- (x <- (if left then nocl (next_left inext) else nocl (next_right inext)) ;; r <- unwrap x ;; ret (Some r)) ;;
        match first with
        | None => ret None
        | Some range0 =>
         range <- rcl range0 ;;
         u <- cget ;;
         range' <- unc_loop inext mg (pk_len ilen (op_left u) + pk_len ilen (op_right u) + 1) range ;;
         ret (Some range')
        end)%M (n, mkPair p1 q1) = (Ret (Some y), (n', u')) /\ n <= n' /\ n' + w * len u' <= n + w * (plen p + plen q) /\ len u' < plen p + plen q).
    { intros left x Hx. unfold bind at 1. destruct (ct_take left x n p1 q1 Hx) as [p2 [q2 [E G]]]. rewrite E.
      unfold bind at 1. destruct (Hrc x n (mkPair p2 q2)) as [x' [k [Ek Hk]]]. rewrite Ek.
      destruct (ct_union_tail (n + k) x' p2 q2) as [y [n' [u' [E' [G1 [G2 G3]]]]]]. exists y, n', u'.
      split; [exact E'|]. nia. }
    destruct o as [l|], o' as [r|].
    - destruct (os' l r).
      + destruct (T false r H2) as [y [n' [u' [E' G]]]]. exists (Some y), n', u'. split; [exact E'|exact G].
      + destruct (T true l H1) as [y [n' [u' [E' G]]]]. exists (Some y), n', u'. split; [exact E'|exact G].
      + destruct (T false r H2) as [y [n' [u' [E' G]]]]. exists (Some y), n', u'. split; [exact E'|exact G].
    - destruct (T true l H1) as [y [n' [u' [E' G]]]]. exists (Some y), n', u'. split; [exact E'|exact G].
    - destruct (T false r H2) as [y [n' [u' [E' G]]]]. exists (Some y), n', u'. split; [exact E'|exact G].
    - exists None, n, (mkPair p1 q1). split; [reflexivity|]. cbn [op_left op_right]. rewrite H3, H4. lia.
  Qed.
  Lemma ct_iloop fuel : forall n u, len u < fuel -> exists o n' u',
    inq_loop inext oe is_ fuel (n, u) = (Ret o, (n', u')) /\ n <= n' /\ n' + w * len u' <= n + w * len u
    /\ (match o with Some _ => len u' < len u | None => len u' <= len u end) /\ (0 < len u -> 0 < len u').
  Proof.
    induction fuel as [|fuel IH]; intros n [p q] Hf; [lia|]. cbn [inq_loop].
    destruct (ct_peeks p q (fun l r => match l, r with
         | Some lt_, Some rt_ =>
             intersection <- is_ lt_ rt_ ;;
             c <- oe lt_ rt_ ;;
             match c with
             | Lt => nocl (next_left inext)
             | _ => nocl (next_right inext)
             end ;;;
             match intersection with
             | Some i => ret (Some i)
             | None => inq_loop inext oe is_ fuel
             end
         | _, _ => ret None
         end)%M n) as [o [o' [p1 [q1 [E [H1 [H2 [H3 [H4 [H5 H6]]]]]]]]]].
    rewrite E. clear E. cbn [op_left op_right] in *.
    destruct o as [l|], o' as [r|]; try (exists None, n, (mkPair p1 q1); split; [reflexivity|cbn [op_left op_right]; rewrite ?H3, ?H4; lia]).
    unfold bind at 1. destruct (His l r n (mkPair p1 q1)) as [x [k [E Hk]]]. rewrite E.
    unfold bind at 1. destruct (Hoe l r (n + k) (mkPair p1 q1)) as [c [k' [E' Hk']]]. rewrite E'. clear E E'.
    assert (T : exists y u2, match c with Lt => nocl (next_left inext) | _ => nocl (next_right inext) end (n + k + k', mkPair p1 q1)
      = (Ret y, (n + k + k', u2)) /\ plen p + plen q = S (len u2)).
    { assert (TL : exists y u2, nocl (next_left inext) (n + k + k', mkPair p1 q1) = (Ret y, (n + k + k', u2)) /\ plen p + plen q = S (len u2)).
      { pose proof (ct_next _ _ H1) as G. unfold nocl, next_left. cbn [fst snd op_left op_right]. destruct (pk_next inext p1) as [y p2].
        exists y, (mkPair p2 q1). split; [reflexivity|cbn [op_left op_right]; lia]. }
      assert (TR : exists y u2, nocl (next_right inext) (n + k + k', mkPair p1 q1) = (Ret y, (n + k + k', u2)) /\ plen p + plen q = S (len u2)).
      { pose proof (ct_next _ _ H2) as G. unfold nocl, next_right. cbn [fst snd op_left op_right]. destruct (pk_next inext q1) as [y q2].
        exists y, (mkPair p1 q2). split; [reflexivity|cbn [op_left op_right]; lia]. }
      destruct c; assumption. }
    destruct T as [y [u2 [E G]]]. unfold bind at 1. rewrite E.
    destruct x as [x|].
    - exists (Some x), (n + k + k'), u2. split; [reflexivity|nia].
    - destruct (IH (n + k + k') u2) as [o [n' [u' [E' [G1 [G2 [G3 G4]]]]]]]; [lia|].
      exists o, n', u'. split; [exact E'|]. destruct o; nia.
  Qed.
  Lemma ct_intersection n u : exists o n' u', inq_next inext ilen oe is_ (n, u) = (Ret o, (n', u'))
    /\ n <= n' /\ n' + w * len u' <= n + w * len u
    /\ (match o with Some _ => len u' < len u | None => len u' <= len u end) /\ (0 < len u -> 0 < len u').
  Proof. apply (ct_iloop (len u + 1)). lia. Qed.

  (** a whole drain *)
  Lemma ct_drain (c : CP (option R)) : next_post c -> forall fuel n u, len u < fuel ->
    exists l n' u', drain c fuel (n, u) = (Ret l, (n', u')) /\ length l + len u' <= len u /\ n' + w * len u' <= n + w * len u.
  Proof.
    intros H fuel. induction fuel as [|fuel IH]; intros n u Hf; [lia|]. cbn [drain]. unfold bind.
    destruct (H n u) as [o [n1 [u1 [E [G1 [G2 G3]]]]]]. rewrite E. destruct o as [x|].
    - destruct (IH n1 u1) as [l [n' [u' [E' [G4 G5]]]]]; [lia|]. rewrite E'. exists (x :: l), n', u'.
      split; [reflexivity|]. cbn [length]. lia.
    - exists [], n1, u1. split; [reflexivity|]. cbn [length]. lia.
  Qed.
  (** a side that has been exhausted yields nothing more to the intersection,
      and then nothing is compared *)
  Lemma ct_drain_in fuel : forall n u, len u < fuel -> 0 < len u ->
    exists l n' u', drain (inq_next inext ilen oe is_) fuel (n, u) = (Ret l, (n', u')) /\ length l < len u /\ n' + w <= n + w * len u.
  Proof.
    induction fuel as [|fuel IH]; intros n u Hf Hp; [lia|]. cbn [drain]. unfold bind.
    destruct (ct_intersection n u) as [o [n1 [u1 [E [G1 [G2 [G3 G4]]]]]]]. rewrite E. specialize (G4 Hp). destruct o as [x|].
    - destruct (IH n1 u1) as [l [n' [u' [E' [G5 G6]]]]]; [lia|lia|]. rewrite E'. exists (x :: l), n', u'.
      split; [reflexivity|]. cbn [length]. lia.
    - exists [], n1, u1. split; [reflexivity|]. cbn [length]. nia.
  Qed.
End Count.

(** ** The iterators of the sets *)
Section CountSets.
  Context {K : Type} (kc : nat -> K -> K -> comparison).
  Lemma plus3 n : S (S (S n)) = n + 3. Proof. lia. Qed.
  Lemma plus2 n : S (S n) = n + 2. Proof. lia. Qed.
  Lemma plus1 n : S n = n + 1. Proof. lia. Qed.
  Lemma ak_order {R I} (a b : K) : asks (R := R) (I := I) (fun _ k => k <= 1) (qcmp kc a b).
  Proof. intros n u. exists (kc n a b), 1. unfold qcmp. cbn [fst snd]. rewrite (plus1 n). auto. Qed.
  Lemma ak_merge {I} a b : asks (R := range K) (I := I) (fun (x : bool * range K) k => k <= if fst x then 3 else 2) (r_mergeq kc a b).
  Proof.
    intros n u. unfold r_mergeq, r_containsq, qle, qlt, qgt, qcmp, bind, ret. cbn [fst snd].
    destruct (kc n (r_start a) (r_start b)); cbn [fst snd];
      try (destruct (kc (S n) (r_start b) (r_end a)); cbn [negb fst snd]);
      first [eexists _, 3; split; [rewrite (plus3 n); reflexivity|cbn; lia]
            |eexists _, 2; split; [rewrite (plus2 n); reflexivity|cbn; lia]
            |eexists _, 1; split; [rewrite (plus1 n); reflexivity|cbn; lia]].
  Qed.
  Lemma ak_intersect {I} a b : asks (R := range K) (I := I) (fun _ k => k <= 3) (r_intersectq kc a b).
  Proof.
    intros n u. unfold r_intersectq, qmax, qmin, qge, qcmp, bind, ret. cbn [fst snd].
    eexists _, 3. rewrite (plus3 n). split; [reflexivity|lia].
  Qed.
  Lemma ak_imerge {I} a b : asks (R := rangei K) (I := I) (fun (x : bool * rangei K) k => k <= if fst x then 3 else 2) (ri_mergeq kc a b).
  Proof.
    intros n u. unfold ri_mergeq, ri_containsq, qle, qlt, qgt, qcmp, bind, ret. cbn [fst snd].
    destruct (ri_exhausted a);
    (destruct (kc n (ri_start a) (ri_start b)); cbn [fst snd];
      try (destruct (kc (S n) (ri_start b) (ri_end a)); cbn [negb fst snd]);
      first [eexists _, 3; split; [rewrite (plus3 n); reflexivity|cbn; lia]
            |eexists _, 2; split; [rewrite (plus2 n); reflexivity|cbn; lia]
            |eexists _, 1; split; [rewrite (plus1 n); reflexivity|cbn; lia]]).
  Qed.
  Lemma ak_iintersect {I} a b : asks (R := rangei K) (I := I) (fun _ k => k <= 3) (ri_intersectq kc a b).
  Proof.
    intros n u. unfold ri_intersectq, qmax, qmin, qgt, qcmp, bind, ret. cbn [fst snd].
    eexists _, 3. rewrite (plus3 n). split; [reflexivity|lia].
  Qed.
  Lemma nx_half (i : list (range K * unit)) :
    match rs_iter_next i with (Some _, j) => length i = S (length j) | (None, j) => length i = 0 /\ length j = 0 end.
  Proof. destruct i as [|[r []] i]; cbn; auto. Qed.
  Lemma nx_incl (i : list (rangei K * unit)) :
    match is_iter_next i with (Some _, j) => length i = S (length j) | (None, j) => length i = 0 /\ length j = 0 end.
  Proof. destruct i as [|[r []] i]; cbn; auto. Qed.
End CountSets.
