(** The union and intersection iterators over any two iterators (the facts behind
    P_Ops.v).  As in OpsProofs.v a range is seen through the positions [s] and
    [e] of its ends in a total order; it may be empty ([e] not above [s]). *)
From Coq Require Import List Bool Sorting.Sorted Lia.
From Verif Require Import Order Outcome Ranges History Spec SpecOps ListLemmas IterFacts OpsModel OpsProofs Cuts.
Import ListNotations.

Lemma yields_in {A} (y : A) l : forall n, In y (firstn n l) -> In (Some y) (yields n l).
Proof.
  induction l as [|a l IH]; intros [|n] H; [destruct H|destruct H|destruct H|].
  rewrite yields_cons. destruct H as [-> |H]; [left; reflexivity|right; apply IH, H].
Qed.
Lemma yields_none {A} (l : list A) : forall n, ~ In None (yields n l) -> n <= length l.
Proof.
  induction l as [|a l IH]; intros [|n] H; cbn; try lia.
  - exfalso. apply H. left. reflexivity.
  - rewrite yields_cons in H. assert (n <= length l); [|lia]. apply IH. intros G. apply H. right. exact G.
Qed.
Lemma tallied_supplies {I R} (next : I -> option R * I) l : forall i k,
  supplies next i l -> supplies (tallied next) (i, k) l.
Proof.
  induction l as [|r l IH]; intros i k H; cbn in *; [exact H|]. destruct H as [H1 H2]. split; [exact H1|]. apply IH, H2.
Qed.

(** ** Arbitrary iterators and range types *)
Section Fused.
  Context {R I : Type} (inext : I -> option R * I) (ilen : I -> nat).
  Context (order_start order_end : R -> R -> comparison).
  Context (merge : R -> R -> bool * R) (intersect : R -> R -> option R).
  Notation un := (un_next inext ilen order_start merge).
  Notation inn := (in_next inext ilen order_end intersect).

  Lemma peek_twice p o p' : pk_peek inext p = (o, p') -> pk_peek inext p' = (o, p') /\ pk_peeked p' = Some o.
  Proof.
    unfold pk_peek. destruct (pk_peeked p) as [x|] eqn:E.
    - intros H. injection H as <- <-. rewrite E. auto.
    - destruct (inext (pk_iter p)) as [x i]. intros H. injection H as <- <-. cbn. auto.
  Qed.
  Lemma take_peeked (p : peekable I R) o : pk_peeked p = Some o -> fst (pk_next inext p) = o.
  Proof. unfold pk_next. intros ->. reflexivity. Qed.

  Lemma join_no_panic (peek next : M (pair_iter R I) (option R)) range u :
    (forall u, exists o u', peek u = (Ret o, u')) -> (forall u, exists o u', next u = (Ret o, u')) ->
    exists o u', un_join merge peek next range u = (Ret o, u').
  Proof.
    intros Hp Hn. unfold un_join, bind. destruct (Hp u) as (o & u' & ->). destruct o as [x|].
    - destruct (merge range x) as [[|] r]; [|eexists; eexists; reflexivity].
      destruct (Hn u') as (o' & u2 & ->). eexists; eexists; reflexivity.
    - eexists; eexists; reflexivity.
  Qed.
  Lemma pl u : exists o u', peek_left inext u = (Ret o, u').
  Proof. unfold peek_left. destruct (pk_peek inext (op_left u)). eauto. Qed.
  Lemma pr u : exists o u', peek_right inext u = (Ret o, u').
  Proof. unfold peek_right. destruct (pk_peek inext (op_right u)). eauto. Qed.
  Lemma nl u : exists o u', next_left inext u = (Ret o, u').
  Proof. unfold next_left. destruct (pk_next inext (op_left u)). eauto. Qed.
  Lemma nr u : exists o u', next_right inext u = (Ret o, u').
  Proof. unfold next_right. destruct (pk_next inext (op_right u)). eauto. Qed.
  Lemma loop_no_panic fuel : forall range u p, fst (un_loop inext merge fuel range u) <> Panicked p.
  Proof.
    induction fuel as [|fuel IH]; intros range u p; [discriminate|]. cbn [un_loop]. unfold bind at 1.
    destruct (join_no_panic (peek_left inext) (next_left inext) range u pl nl) as (x & u1 & ->).
    destruct (fst x); [apply IH|]. unfold bind at 1.
    destruct (join_no_panic (peek_right inext) (next_right inext) (snd x) u1 pr nr) as (y & u2 & ->).
    destruct (fst y); [apply IH|discriminate].
  Qed.
  Lemma union_no_panic u p : fst (un u) <> Panicked p.
  Proof.
    unfold un_next. unfold bind at 1. unfold peek_left at 1.
    destruct (pk_peek inext (op_left u)) as [o1 p1] eqn:E1. apply peek_twice in E1 as [_ E1].
    unfold bind at 1. unfold peek_right at 1. cbn [op_left op_right].
    destruct (pk_peek inext (op_right u)) as [o2 p2] eqn:E2. apply peek_twice in E2 as [_ E2].
    assert (Hl : forall a, o1 = Some a -> forall q, fst ((first <- (o <- next_left inext ;; r <- unwrap o ;; ret (Some r)) ;;
         match first with
         | None => ret None
         | Some range => v <- get ;;
             range' <- un_loop inext merge (pk_len ilen (op_left v) + pk_len ilen (op_right v) + 1) range ;;
             ret (Some range')
         end)%M (mkPair p1 p2)) <> Panicked q).
    { intros a -> q. unfold bind at 1. unfold bind at 1. unfold next_left at 1. cbn [op_left op_right].
      pose proof (take_peeked _ _ E1) as H. destruct (pk_next inext p1) as [x p1']. cbn in H. subst x. cbn.
      unfold bind.
      match goal with |- context [un_loop inext merge ?f a ?v] =>
        pose proof (loop_no_panic f a v q); destruct (un_loop inext merge f a v) as [[?|?|] ?] end; cbn in *; congruence. }
    assert (Hr : forall a, o2 = Some a -> forall q, fst ((first <- (o <- next_right inext ;; r <- unwrap o ;; ret (Some r)) ;;
         match first with
         | None => ret None
         | Some range => v <- get ;;
             range' <- un_loop inext merge (pk_len ilen (op_left v) + pk_len ilen (op_right v) + 1) range ;;
             ret (Some range')
         end)%M (mkPair p1 p2)) <> Panicked q).
    { intros a -> q. unfold bind at 1. unfold bind at 1. unfold next_right at 1. cbn [op_left op_right].
      pose proof (take_peeked _ _ E2) as H. destruct (pk_next inext p2) as [x p2']. cbn in H. subst x. cbn.
      unfold bind.
      match goal with |- context [un_loop inext merge ?f a ?v] =>
        pose proof (loop_no_panic f a v q); destruct (un_loop inext merge f a v) as [[?|?|] ?] end; cbn in *; congruence. }
    destruct o1 as [a|], o2 as [b|].
    - destruct (order_start a b); [apply (Hr b eq_refl)|apply (Hl a eq_refl)|apply (Hr b eq_refl)].
    - apply (Hl a eq_refl).
    - apply (Hr b eq_refl).
    - discriminate.
  Qed.

  Lemma some_not_none {A} (c : M (pair_iter R I) A) u u' : (a <- c ;; ret (Some a))%M u = (Ret None, u') -> False.
  Proof. unfold bind. destruct (c u) as [[?|?|] ?]; discriminate. Qed.
  Lemma union_fused u u' : un u = (Ret None, u') -> un u' = (Ret None, u').
  Proof.
    unfold un_next. unfold bind at 1. unfold peek_left at 1.
    destruct (pk_peek inext (op_left u)) as [o1 p1] eqn:E1. apply peek_twice in E1 as [E1 _].
    unfold bind at 1. unfold peek_right at 1. cbn [op_left op_right].
    destruct (pk_peek inext (op_right u)) as [o2 p2] eqn:E2. apply peek_twice in E2 as [E2 _].
    assert (Hn : forall (d : M (pair_iter R I) (option R)) v,
      (first <- (o <- d ;; r <- unwrap o ;; ret (Some r)) ;;
       match first with
       | None => ret None
       | Some range => v <- get ;;
           range' <- un_loop inext merge (pk_len ilen (op_left v) + pk_len ilen (op_right v) + 1) range ;;
           ret (Some range')
       end)%M v = (Ret None, u') -> False).
    { intros d v H. unfold bind at 1 in H. unfold bind at 1 in H. destruct (d v) as [[[x|]|?|] v']; try discriminate.
      cbn in H. exact (some_not_none _ _ _ H). }
    intros H. destruct o1 as [a|], o2 as [b|].
    - exfalso. destruct (order_start a b); exact (Hn _ _ H).
    - destruct (Hn _ _ H).
    - destruct (Hn _ _ H).
    - cbn in H. injection H as <-. unfold bind, peek_left, peek_right. cbn [op_left op_right].
      rewrite E1. cbn [op_left op_right]. rewrite E2. reflexivity.
  Qed.
  Lemma in_loop_fused fuel : forall u u', in_loop inext order_end intersect fuel u = (Ret None, u') ->
    forall fuel', in_loop inext order_end intersect (S fuel') u' = (Ret None, u').
  Proof.
    induction fuel as [|fuel IH]; intros u u' H fuel'; [discriminate|]. cbn [in_loop] in H.
    unfold bind at 1 in H. unfold peek_left at 1 in H.
    destruct (pk_peek inext (op_left u)) as [o1 p1] eqn:E1. apply peek_twice in E1 as [E1 _].
    unfold bind at 1 in H. unfold peek_right at 1 in H. cbn [op_left op_right] in H.
    destruct (pk_peek inext (op_right u)) as [o2 p2] eqn:E2. apply peek_twice in E2 as [E2 _].
    assert (Hend : (o1 = None \/ o2 = None) -> u' = mkPair p1 p2 ->
      in_loop inext order_end intersect (S fuel') u' = (Ret None, u')).
    { intros Ho ->. cbn [in_loop]. unfold bind, peek_left, peek_right. cbn [op_left op_right]. rewrite E1. cbn [op_left op_right].
      rewrite E2. destruct Ho as [-> | ->]; [reflexivity|destruct o1; reflexivity]. }
    destruct o1 as [a|], o2 as [b|]; cbv beta iota zeta in H.
    - assert (Hd : exists o v, (match order_end a b with Lt => next_left inext | _ => next_right inext end)
                     (mkPair p1 p2) = (Ret o, v)) by (destruct (order_end a b); auto using nl, nr).
      destruct Hd as (o & v & Ed). unfold bind in H. rewrite Ed in H.
      destruct (intersect a b); [discriminate|]. exact (IH _ _ H fuel').
    - injection H as <-. apply Hend; auto.
    - injection H as <-. apply Hend; auto.
    - injection H as <-. apply Hend; auto.
  Qed.
  Lemma inter_fused u u' : inn u = (Ret None, u') -> inn u' = (Ret None, u').
  Proof.
    unfold in_next, bind, get. intros H. rewrite PeanoNat.Nat.add_1_r. exact (in_loop_fused _ _ _ H _).
  Qed.
End Fused.

(** ** Ranges in a total order *)
(* [g]: where a range stops containing keys, for [merge]; [e]: where it ends *)
Record AnyLaws {R P} (c : P -> P -> comparison) (s e g : R -> P) (ok fin : R -> Prop)
    (order_start order_end : R -> R -> comparison)
    (merge : R -> R -> bool * R) (intersect : R -> R -> option R) : Prop := {
  xl_start : forall a b, ok a -> ok b -> order_start a b = c (s a) (s b);
  xl_end : forall a b, ok a -> ok b -> order_end a b = c (e a) (e b);
  xl_merge : forall a b, ok a -> ok b ->
    if leb c (s a) (s b) && ltb c (s b) (g a)
    then exists r, merge a b = (true, r) /\ ok r /\ c (s r) (s a) = Eq /\ c (e r) (kmax c (e a) (e b)) = Eq
    else merge a b = (false, a);
  xl_intersect : forall a b, ok a -> ok b ->
    if ltb c (kmax c (s a) (s b)) (kmin c (e a) (e b))
    then exists r, intersect a b = Some r /\ fin r /\ c (s r) (kmax c (s a) (s b)) = Eq /\
                   c (e r) (kmin c (e a) (e b)) = Eq
    else intersect a b = None;
  xl_gate : forall a, leb c (g a) (e a) = true
}.

Section Any.
  Context {R I P : Type} {c : P -> P -> comparison} (HO : TotalOrd c).
  Context {s e g : R -> P} {ok fin : R -> Prop}.
  Context {order_start order_end : R -> R -> comparison}.
  Context {merge : R -> R -> bool * R} {intersect : R -> R -> option R}.
  Context (HL : AnyLaws c s e g ok fin order_start order_end merge intersect).
  Context (inext : I -> option R * I) (cnt : I -> nat) (Hcnt : forall i, cnt (snd (inext i)) <= S (cnt i)).
  (** [ilen], which gives the fuel, is large enough for up to [N] items *)
  Context (ilen : I -> nat) (N : nat) (Hfill : forall i l, supplies inext i l -> length l <= N -> length l <= ilen i).

  Notation ltb := (ltb c).
  Notation leb := (leb c).
  Notation pk := (peekable I R).
  Notation pairs := (pair_iter R I).
  Notation un := (un_next inext ilen order_start merge).
  Notation inn := (in_next inext ilen order_end intersect).

  (** [p] has [l] to yield, having yielded [n] items *)
  Definition holds (p : pk) (l : list R) (n : nat) : Prop :=
    match pk_peeked p with
    | None => supplies inext (pk_iter p) l /\ cnt (pk_iter p) <= n
    | Some None => l = [] /\ cnt (pk_iter p) <= S n
    | Some (Some a) => (exists l', l = a :: l' /\ supplies inext (pk_iter p) l') /\ cnt (pk_iter p) <= S n
    end.
  Lemma holds_cnt p l n : holds p l n -> cnt (pk_iter p) <= n + 1.
  Proof. unfold holds. destruct (pk_peeked p) as [[a|]|]; intros [_ H]; lia. Qed.
  Lemma peek_holds p l n : holds p l n -> exists p', pk_peek inext p = (hd_error l, p') /\ holds p' l n.
  Proof.
    unfold holds, pk_peek. destruct (pk_peeked p) as [[a|]|] eqn:E; intros [H1 H2].
    - destruct H1 as (l' & -> & H1). exists p. rewrite E. eauto.
    - subst l. exists p. rewrite E. auto.
    - pose proof (Hcnt (pk_iter p)) as H3. destruct (inext (pk_iter p)) as [o i] eqn:En. cbn in H3.
      destruct l as [|a l]; cbn in H1; rewrite En in H1; cbn in H1.
      + subst o. eexists. split; [reflexivity|]. cbn. split; [reflexivity|lia].
      + destruct H1 as [-> H1]. eexists. split; [reflexivity|]. cbn. split; [eauto|lia].
  Qed.
  Lemma next_holds p a l n : holds p (a :: l) n -> exists p', pk_next inext p = (Some a, p') /\ holds p' l (S n).
  Proof.
    unfold holds, pk_next. destruct (pk_peeked p) as [[b|]|] eqn:E; intros [H1 H2].
    - destruct H1 as (l' & H & H1). injection H as <- <-. eexists. split; [reflexivity|]. cbn. auto.
    - discriminate.
    - pose proof (Hcnt (pk_iter p)) as H3. destruct (inext (pk_iter p)) as [o i] eqn:En. cbn in H3.
      cbn in H1. rewrite En in H1. cbn in H1. destruct H1 as [-> H1]. eexists. split; [reflexivity|]. cbn. split; [auto|lia].
  Qed.
  Definition hu (u : pairs) (l r : list R) (n m : nat) : Prop := holds (op_left u) l n /\ holds (op_right u) r m.
  Lemma pl_holds u l r n m : hu u l r n m -> exists u', peek_left inext u = (Ret (hd_error l), u') /\ hu u' l r n m.
  Proof.
    intros [H1 H2]. unfold peek_left. destruct (peek_holds _ _ _ H1) as (p' & -> & H). eexists. split; [reflexivity|]. split; auto.
  Qed.
  Lemma pr_holds u l r n m : hu u l r n m -> exists u', peek_right inext u = (Ret (hd_error r), u') /\ hu u' l r n m.
  Proof.
    intros [H1 H2]. unfold peek_right. destruct (peek_holds _ _ _ H2) as (p' & -> & H). eexists. split; [reflexivity|]. split; auto.
  Qed.
  Lemma nl_holds u a l r n m : hu u (a :: l) r n m -> exists u', next_left inext u = (Ret (Some a), u') /\ hu u' l r (S n) m.
  Proof.
    intros [H1 H2]. unfold next_left. destruct (next_holds _ _ _ _ H1) as (p' & -> & H). eexists. split; [reflexivity|]. split; auto.
  Qed.
  Lemma nr_holds u b l r n m : hu u l (b :: r) n m -> exists u', next_right inext u = (Ret (Some b), u') /\ hu u' l r n (S m).
  Proof.
    intros [H1 H2]. unfold next_right. destruct (next_holds _ _ _ _ H2) as (p' & -> & H). eexists. split; [reflexivity|]. split; auto.
  Qed.

  Lemma hu_fuel u l r n m : hu u l r n m -> length l + length r <= N ->
    length l + length r <= pk_len ilen (op_left u) + pk_len ilen (op_right u).
  Proof.
    assert (X : forall p l n, holds p l n -> length l <= N -> length l <= pk_len ilen p).
    { unfold holds, pk_len. intros p x y. destruct (pk_peeked p) as [[a|]|]; intros [H1 _] H.
      - destruct H1 as (l' & -> & H1). cbn [length] in *. specialize (Hfill _ _ H1). lia.
      - subst x. cbn. lia.
      - specialize (Hfill _ _ H1). lia. }
    intros [H1 H2] H. apply X in H1; [|lia]. apply X in H2; [|lia]. lia.
  Qed.

  Notation cov := (cov (c := c) (s := s) (e := e)).
  Notation covs := (covs (c := c) (s := s) (e := e)).
  Notation ins := (ins (c := c) (s := s) (e := e)).
  Definition within (y x : R) : Prop := leb (s y) (s x) = true /\ leb (e x) (e y) = true.
  Definition catches (y : R) (o : option R) : Prop :=
    match o with Some x => leb (s y) (s x) && ltb (s x) (g y) = true | None => False end.
  Notation starts := (StronglySorted (fun a b => leb (s a) (s b) = true)).
  Notation asc := (StronglySorted (fun a b => leb (e a) (s b) = true)).

  (** ** Union *)
  Definition grown (range range' : R) (q : list R) : Prop :=
    ok range' /\ c (s range') (s range) = Eq /\ leb (e range) (e range') = true /\
    Forall (within range') q /\
    (forall x, cov range' x <-> cov range x \/ covs q x) /\
    (forall x, ins range' x -> ins range x \/ exists y, In y q /\ ins y x).
  Lemma grown_refl range : ok range -> grown range range [].
  Proof.
    intros H. unfold grown. splits; auto; try ord. intros x. rewrite (covs_nil (c := c) (s := s) (e := e)). tauto.
  Qed.
  Lemma grown_step range x rg range' q q' : ok range -> ok x -> leb (s range) (s x) && ltb (s x) (g range) = true ->
    ok rg -> c (s rg) (s range) = Eq -> c (e rg) (kmax c (e range) (e x)) = Eq ->
    grown rg range' q -> (forall y, In y q' <-> y = x \/ In y q) -> grown range range' q'.
  Proof.
    intros Hr Hx Hc Hg Hs He (G1 & G2 & G3 & G4 & G5 & G6) Hq. apply andb_prop in Hc as [C1 C2]. pose proof (xl_gate _ _ _ _ _ _ _ _ _ _ HL range) as HG.
    assert (E1 : leb (e range) (e rg) = true) by (unfold kmax in He; destruct (Order.ltb c (e x) (e range)) eqn:E; ord).
    assert (E2 : leb (e x) (e rg) = true) by (unfold kmax in He; destruct (Order.ltb c (e x) (e range)) eqn:E; ord).
    unfold grown. splits; auto.
    - ord.
    - ord.
    - rewrite Forall_forall in *. intros y Hy. apply Hq in Hy as [-> |Hy]; [|auto]. split; ord.
    - intros z. rewrite G5. assert (Hz : cov rg z <-> cov range z \/ cov x z).
      { unfold OpsProofs.cov. unfold kmax in He. destruct (Order.ltb c (e x) (e range)) eqn:E2'.
        - split; [intros [A B]; left; split; ord|]. intros [[A B]|[A B]]; split; ord.
        - split; [intros [A B]; destruct (Order.ltb c z (e range)) eqn:E3; [left|right]; split; ord|].
          intros [[A B]|[A B]]; split; ord. }
      rewrite Hz. unfold OpsProofs.covs. split.
      + intros [[H|H]|(y & Hy & H)]; [auto|right; exists x|right; exists y]; rewrite Hq; auto.
      + intros [H|(y & Hy & H)]; [auto|]. apply Hq in Hy as [-> |Hy]; [auto|]. right. eauto.
    - intros z Hz. destruct (G6 z Hz) as [H|(y & Hy & H)].
      + destruct H as [A B]. destruct (Order.ltb c z (e range)) eqn:E3.
        * left. split; ord.
        * right. exists x. split; [apply Hq; auto|]. unfold OpsProofs.ins.
          unfold kmax in He. destruct (Order.ltb c (e x) (e range)) eqn:E4; split; ord.
      + right. exists y. rewrite Hq. auto.
  Qed.
  Lemma any_merge range x : ok range -> ok x ->
    (catches range (Some x) /\ exists rg, merge range x = (true, rg) /\ ok rg /\ c (s rg) (s range) = Eq /\
       c (e rg) (kmax c (e range) (e x)) = Eq) \/
    (~ catches range (Some x) /\ merge range x = (false, range)).
  Proof.
    intros Hr Hx. pose proof (xl_merge _ _ _ _ _ _ _ _ _ _ HL range x Hr Hx) as H. unfold catches.
    destruct (leb (s range) (s x) && ltb (s x) (g range)); [left; auto|right; split; [discriminate|exact H]].
  Qed.

  Lemma any_loop : forall fuel u range l r n m,
    hu u l r n m -> ok range -> Forall ok l -> Forall ok r -> length l + length r < fuel ->
    exists range' u' l1 l2 r1 r2, un_loop inext merge fuel range u = (Ret range', u') /\
      l = l1 ++ l2 /\ r = r1 ++ r2 /\ hu u' l2 r2 (n + length l1) (m + length r1) /\
      grown range range' (l1 ++ r1) /\
      ~ catches range' (hd_error l2) /\ ~ catches range' (hd_error r2).
  Proof.
    induction fuel as [|fuel IH]; intros u range l r n m Hu Hr Hl1 Hr1 Hf; [lia|].
    cbn [un_loop]. unfold un_join at 1.
    destruct (pl_holds _ _ _ _ _ Hu) as (u1 & P1 & U1). unfold bind at 1. unfold bind at 1. rewrite P1.
    assert (Hright : ~ catches range (hd_error l) -> exists range' u' l1 l2 r1 r2,
      (y <- un_join merge (peek_right inext) (next_right inext) range ;;
       (if fst y then un_loop inext merge fuel (snd y) else ret (snd y)))%M u1 = (Ret range', u') /\
      l = l1 ++ l2 /\ r = r1 ++ r2 /\ hu u' l2 r2 (n + length l1) (m + length r1) /\
      grown range range' (l1 ++ r1) /\
      ~ catches range' (hd_error l2) /\ ~ catches range' (hd_error r2)).
    { intros Hn. unfold un_join. destruct (pr_holds _ _ _ _ _ U1) as (u2 & P2 & U2).
      unfold bind at 1. unfold bind at 1. rewrite P2.
      assert (Hstop : forall r', r' = r -> ~ catches range (hd_error r') -> exists range' u' l1 l2 r1 r2,
        ret range u2 = (Ret range', u') /\
        l = l1 ++ l2 /\ r = r1 ++ r2 /\ hu u' l2 r2 (n + length l1) (m + length r1) /\
        grown range range' (l1 ++ r1) /\ ~ catches range' (hd_error l2) /\ ~ catches range' (hd_error r2)).
      { intros r' -> Hn'. exists range, u2, [], l, [], r. cbn [length app]. rewrite !PeanoNat.Nat.add_0_r.
        splits; auto. apply grown_refl, Hr. }
      destruct r as [|b r]; cbn [hd_error].
      - cbn [fst snd ret]. apply (Hstop [] eq_refl). intros [].
      - apply Forall_cons_iff in Hr1 as [Hb Hr1].
        destruct (any_merge range b Hr Hb) as [(C & rg & M1 & M2 & M3 & M4)|(C & M1)]; rewrite M1.
        + destruct (nr_holds _ _ _ _ _ _ U2) as (u3 & P3 & U3). unfold bind at 1. rewrite P3. cbn [fst snd ret].
          destruct (IH u3 rg l r n (S m) U3 M2 Hl1 Hr1) as (range' & u' & l1 & l2 & r1 & r2 & E & A & B & D & G & N1 & N2);
            [cbn in *; lia|].
          exists range', u', l1, l2, (b :: r1), r2. rewrite E. splits; auto.
          * rewrite B. reflexivity.
          * cbn [length]. rewrite PeanoNat.Nat.add_succ_r. exact D.
          * apply (grown_step range b rg range' _ _ Hr Hb C M2 M3 M4 G).
            intros y. rewrite !in_app_iff. cbn. intuition congruence.
        + cbn [fst snd ret]. apply (Hstop (b :: r) eq_refl). exact C. }
    destruct l as [|a l]; cbn [hd_error].
    - cbn [fst snd ret]. apply Hright. intros [].
    - apply Forall_cons_iff in Hl1 as [Ha Hl1].
      destruct (any_merge range a Hr Ha) as [(C & rg & M1 & M2 & M3 & M4)|(C & M1)]; rewrite M1.
      + destruct (nl_holds _ _ _ _ _ _ U1) as (u3 & P3 & U3). unfold bind at 1. rewrite P3. cbn [fst snd ret].
        destruct (IH u3 rg l r (S n) m U3 M2 Hl1 Hr1) as (range' & u' & l1 & l2 & r1 & r2 & E & A & B & D & G & N1 & N2);
          [cbn in *; lia|].
        exists range', u', (a :: l1), l2, r1, r2. rewrite E. splits; auto.
        * rewrite A. reflexivity.
        * cbn [length]. rewrite PeanoNat.Nat.add_succ_r. exact D.
        * apply (grown_step range a rg range' _ _ Hr Ha C M2 M3 M4 G). intros y. cbn. intuition congruence.
      + cbn [fst snd ret]. apply Hright. exact C.
  Qed.

  Lemma any_union u l r n m : hu u l r n m -> Forall ok l -> Forall ok r -> length l + length r <= N ->
    exists o u', un u = (Ret o, u') /\
      match o with
      | None => l = [] /\ r = [] /\ hu u' [] [] n m
      | Some q => exists l1 l2 r1 r2, l = l1 ++ l2 /\ r = r1 ++ r2 /\ hu u' l2 r2 (n + length l1) (m + length r1) /\
          0 < length l1 + length r1 /\ ok q /\
          (Forall (fun x => ltb (s x) (e x) = true) (l ++ r) -> ltb (s q) (e q) = true) /\
          Forall (within q) (l1 ++ r1) /\ (forall x, cov q x <-> covs (l1 ++ r1) x) /\
          (forall x, ins q x -> exists y, In y (l1 ++ r1) /\ ins y x) /\
          (exists y, In y (l1 ++ r1) /\ c (s q) (s y) = Eq) /\
          (starts l -> starts r -> Forall (fun x => leb (g q) (s x) = true) (l2 ++ r2))
      end.
  Proof.
    intros Hu Hl1 Hr1 HN. unfold un_next.
    destruct (pl_holds _ _ _ _ _ Hu) as (u1 & P1 & U1). destruct (pr_holds _ _ _ _ _ U1) as (u2 & P2 & U2).
    unfold bind at 1. rewrite P1. unfold bind at 1. rewrite P2.
    (* what is left lies behind the piece *)
    assert (Hbehind : forall (q f : R) (l' l1 l2 : list R), l' = l1 ++ l2 -> starts l' ->
       Forall (fun x => leb (s f) (s x) = true) l' -> c (s q) (s f) = Eq -> ~ catches q (hd_error l2) ->
       Forall (fun x => leb (g q) (s x) = true) l2).
    { intros q f l' l1 l2 -> Hs Hf Hq Hn. apply SS_app in Hs as (_ & Hs & _). apply Forall_app in Hf as [_ Hf].
      destruct l2 as [|x l2]; [constructor|]. apply StronglySorted_inv in Hs as [_ Hs].
      apply Forall_cons_iff in Hf as [Hf _]. unfold catches in Hn. cbn [hd_error] in Hn.
      assert (Hx : leb (g q) (s x) = true).
      { destruct (leb (g q) (s x)) eqn:G; [reflexivity|]. exfalso. apply Hn. apply andb_true_intro. split; ord. }
      constructor; [exact Hx|]. eapply Forall_impl; [|exact Hs]. cbn. intros y Hy. ord. }
    assert (Hhead : forall a l', starts (a :: l') -> Forall (fun x => leb (s a) (s x) = true) (a :: l')).
    { intros a l' H. apply StronglySorted_inv in H as [_ H]. constructor; [ord|exact H]. }
    assert (Hleft : forall a l', l = a :: l' -> (starts r -> Forall (fun x => leb (s a) (s x) = true) r) ->
      exists o u', (first <- (o <- next_left inext ;; r <- unwrap o ;; ret (Some r)) ;;
         match first with
         | None => ret None
         | Some range => v <- get ;;
             range' <- un_loop inext merge (pk_len ilen (op_left v) + pk_len ilen (op_right v) + 1) range ;;
             ret (Some range')
         end)%M u2 = (Ret o, u') /\
        match o with
        | None => l = [] /\ r = [] /\ hu u' [] [] n m
        | Some q => exists l1 l2 r1 r2, l = l1 ++ l2 /\ r = r1 ++ r2 /\ hu u' l2 r2 (n + length l1) (m + length r1) /\
            0 < length l1 + length r1 /\ ok q /\
            (Forall (fun x => ltb (s x) (e x) = true) (l ++ r) -> ltb (s q) (e q) = true) /\
            Forall (within q) (l1 ++ r1) /\ (forall x, cov q x <-> covs (l1 ++ r1) x) /\
            (forall x, ins q x -> exists y, In y (l1 ++ r1) /\ ins y x) /\
            (exists y, In y (l1 ++ r1) /\ c (s q) (s y) = Eq) /\
            (starts l -> starts r -> Forall (fun x => leb (g q) (s x) = true) (l2 ++ r2))
        end).
    { intros a l' -> Hmin. destruct (nl_holds _ _ _ _ _ _ U2) as (u3 & P3 & U3).
      apply Forall_cons_iff in Hl1 as [Ha Hl1]. unfold bind at 1. unfold bind at 1. rewrite P3.
      destruct (any_loop (pk_len ilen (op_left u3) + pk_len ilen (op_right u3) + 1) u3 a l' r (S n) m U3 Ha Hl1 Hr1)
        as (range' & u' & l1 & l2 & r1 & r2 & E & A & B & D & G & N1 & N2).
      { cbn [length] in HN. pose proof (hu_fuel _ _ _ _ _ U3). lia. }
      cbn [unwrap]. unfold bind at 1. cbn [ret]. unfold bind. cbn [get]. rewrite E. exists (Some range'), u'. split; [reflexivity|].
      destruct G as (G1 & G2 & G3 & G4 & G5 & G6).
      exists (a :: l1), l2, r1, r2. splits; auto.
      - rewrite A. reflexivity.
      - cbn [length]. rewrite PeanoNat.Nat.add_succ_r. exact D.
      - cbn. lia.
      - intros H. cbn in H. apply Forall_cons_iff in H as [H _]. ord.
      - cbn. constructor; [split; ord|exact G4].
      - intros x. cbn [app]. rewrite G5, (covs_cons (c := c) (s := s) (e := e)). tauto.
      - intros x Hx. cbn [app]. destruct (G6 x Hx) as [H|(y & Hy & H)]; [exists a|exists y]; cbn; auto.
      - exists a. cbn. auto.
      - intros S1 S2. apply Forall_app. split.
        + apply (Hbehind range' a (a :: l') (a :: l1) l2); auto. rewrite A. reflexivity.
        + apply (Hbehind range' a r r1 r2); auto. }
    assert (Hright : forall b r', r = b :: r' -> (starts l -> Forall (fun x => leb (s b) (s x) = true) l) ->
      exists o u', (first <- (o <- next_right inext ;; r <- unwrap o ;; ret (Some r)) ;;
         match first with
         | None => ret None
         | Some range => v <- get ;;
             range' <- un_loop inext merge (pk_len ilen (op_left v) + pk_len ilen (op_right v) + 1) range ;;
             ret (Some range')
         end)%M u2 = (Ret o, u') /\
        match o with
        | None => l = [] /\ r = [] /\ hu u' [] [] n m
        | Some q => exists l1 l2 r1 r2, l = l1 ++ l2 /\ r = r1 ++ r2 /\ hu u' l2 r2 (n + length l1) (m + length r1) /\
            0 < length l1 + length r1 /\ ok q /\
            (Forall (fun x => ltb (s x) (e x) = true) (l ++ r) -> ltb (s q) (e q) = true) /\
            Forall (within q) (l1 ++ r1) /\ (forall x, cov q x <-> covs (l1 ++ r1) x) /\
            (forall x, ins q x -> exists y, In y (l1 ++ r1) /\ ins y x) /\
            (exists y, In y (l1 ++ r1) /\ c (s q) (s y) = Eq) /\
            (starts l -> starts r -> Forall (fun x => leb (g q) (s x) = true) (l2 ++ r2))
        end).
    { clear Hleft. intros b r' -> Hmin. destruct (nr_holds _ _ _ _ _ _ U2) as (u3 & P3 & U3).
      apply Forall_cons_iff in Hr1 as [Hb Hr1]. unfold bind at 1. unfold bind at 1. rewrite P3.
      destruct (any_loop (pk_len ilen (op_left u3) + pk_len ilen (op_right u3) + 1) u3 b l r' n (S m) U3 Hb Hl1 Hr1)
        as (range' & u' & l1 & l2 & r1 & r2 & E & A & B & D & G & N1 & N2).
      { cbn [length] in HN. pose proof (hu_fuel _ _ _ _ _ U3). lia. }
      cbn [unwrap]. unfold bind at 1. cbn [ret]. unfold bind. cbn [get]. rewrite E. exists (Some range'), u'. split; [reflexivity|].
      destruct G as (G1 & G2 & G3 & G4 & G5 & G6).
      exists l1, l2, (b :: r1), r2. splits; auto.
      - rewrite B. reflexivity.
      - cbn [length]. rewrite PeanoNat.Nat.add_succ_r. exact D.
      - cbn. lia.
      - intros H. apply Forall_app in H as [_ H]. apply Forall_cons_iff in H as [H _]. ord.
      - apply Forall_app in G4 as [G4 G4']. apply Forall_app. split; [exact G4|]. constructor; [split; ord|exact G4'].
      - intros x. rewrite G5, !(covs_app (c := c) (s := s) (e := e)), (covs_cons (c := c) (s := s) (e := e)). tauto.
      - intros x Hx. destruct (G6 x Hx) as [H|(y & Hy & H)]; [exists b|exists y]; rewrite in_app_iff in *; cbn; tauto.
      - exists b. rewrite in_app_iff. cbn. auto.
      - intros S1 S2. apply Forall_app. split.
        + apply (Hbehind range' b l l1 l2); auto.
        + apply (Hbehind range' b (b :: r') (b :: r1) r2); auto. rewrite B. reflexivity. }
    destruct l as [|a l0], r as [|b r0]; cbn [hd_error].
    - exists None, u2. cbn. auto.
    - apply (Hright b r0 eq_refl). constructor.
    - apply (Hleft a l0 eq_refl). constructor.
    - pose proof Hl1 as Hl1'. pose proof Hr1 as Hr1'.
      apply Forall_cons_iff in Hl1' as [Ha _]. apply Forall_cons_iff in Hr1' as [Hb _].
      rewrite (xl_start _ _ _ _ _ _ _ _ _ _ HL a b Ha Hb).
      destruct (c (s a) (s b)) eqn:Ec.
      + apply (Hright b r0 eq_refl). intros H. eapply Forall_impl; [|exact (Hhead _ _ H)]. cbn. intros x Hx. ord.
      + apply (Hleft a l0 eq_refl). intros H. eapply Forall_impl; [|exact (Hhead _ _ H)]. cbn. intros x Hx. ord.
      + apply (Hright b r0 eq_refl). intros H. eapply Forall_impl; [|exact (Hhead _ _ H)]. cbn. intros x Hx. ord.
  Qed.

  Lemma any_union_run : forall k u l r n m, length l + length r <= k -> k <= N ->
    hu u l r n m -> Forall ok l -> Forall ok r ->
    exists us, drains un u us /\ Forall ok us /\ length us <= length l + length r /\
      (Forall (fun x => ltb (s x) (e x) = true) (l ++ r) -> Forall (fun x => ltb (s x) (e x) = true) us) /\
      Forall (fun x => exists y, In y us /\ within y x) (l ++ r) /\
      (forall x, covs us x <-> covs (l ++ r) x) /\
      (forall q x, In q us -> ins q x -> exists y, In y (l ++ r) /\ ins y x) /\
      (starts l -> starts r -> StronglySorted (fun a b => leb (g a) (s b) = true) us /\ forall z, Forall (fun x => leb z (s x) = true) (l ++ r) -> Forall (fun x => leb z (s x) = true) us) /\
      (forall i, exists l1 l2 r1 r2, l = l1 ++ l2 /\ r = r1 ++ r2 /\
         hu (nexts_end un i u) l2 r2 (n + length l1) (m + length r1) /\
         Forall (fun x => exists y, In y (firstn i us) /\ within y x) (l1 ++ r1)).
  Proof.
    induction k as [|k IH]; intros u l r n m Hk HN Hu Hl1 Hr1.
    1: assert (l = []) as -> by (destruct l; cbn in Hk; [reflexivity|lia]).
    1: assert (r = []) as -> by (destruct r; cbn in Hk; [reflexivity|lia]).
    2: destruct (any_union u l r n m Hu Hl1 Hr1 ltac:(lia)) as (o & u' & E & H); destruct o as [q|].
    - (* nothing left *)
      assert (Hn : forall v, hu v [] [] n m -> exists v', un v = (Ret None, v') /\ hu v' [] [] n m).
      { intros v Hv. destruct (any_union v [] [] n m Hv ltac:(constructor) ltac:(constructor) ltac:(cbn; lia)) as (o & v' & E & H).
        exists v'. destruct o as [q|]; [|tauto]. exfalso. destruct H as (l1 & l2 & r1 & r2 & A & B & _ & H & _).
        symmetry in A, B. apply app_eq_nil in A as [-> _], B as [-> _]. cbn in H. lia. }
      exists []. splits; auto; try constructor; auto.
      + apply (drains_nil un (fun v => hu v [] [] n m)); auto.
      + intros q x [].
      + constructor.
      + intros i. exists [], [], [], []. splits; auto; try constructor.
        all: cbn [length]; rewrite !PeanoNat.Nat.add_0_r.
        all: assert (G : hu (nexts_end un i u) [] [] n m) by
               (clear -Hu Hn; revert u Hu; induction i as [|i IHi]; intros u Hu; [exact Hu|];
                cbn [nexts_end]; destruct (Hn u Hu) as (v' & -> & Hv'); apply IHi; exact Hv').
        all: apply G.
    - destruct H as (l1 & l2 & r1 & r2 & A & B & D & Hpos & Hq & Hv & Hw & Hc & Hi & (y0 & Hy0 & Hs0) & Hs).
      assert (Q1 : Forall ok l2) by (rewrite A in Hl1; apply Forall_app in Hl1; tauto).
      assert (Q2 : Forall ok r2) by (rewrite B in Hr1; apply Forall_app in Hr1; tauto).
      assert (Hin : forall x, In x (l ++ r) <-> In x (l1 ++ r1) \/ In x (l2 ++ r2))
        by (intros x; rewrite A, B, !in_app_iff; tauto).
      destruct (IH u' l2 r2 _ _ ltac:(rewrite A, B, !app_length in Hk; lia) ltac:(lia) D Q1 Q2)
        as (us & G1 & G2 & G3 & G4 & G5 & G6 & G7 & G8 & G9).
      exists (q :: us). splits.
      + eapply drains_cons; eauto.
      + constructor; auto.
      + rewrite A, B, !app_length. cbn. lia.
      + intros H. constructor; [auto|]. apply G4. rewrite Forall_forall in *. intros x Hx. apply H, Hin. auto.
      + rewrite Forall_forall in *. intros x Hx. apply Hin in Hx as [Hx|Hx].
        * exists q. split; [left; reflexivity|auto].
        * destruct (G5 x Hx) as (y & Hy & H). exists y. split; [right; exact Hy|exact H].
      + intros x. rewrite (covs_cons (c := c) (s := s) (e := e)), Hc, G6. rewrite A, B.
        rewrite !(covs_app (c := c) (s := s) (e := e)). tauto.
      + intros y x [<- |Hy] Hx.
        * destruct (Hi x Hx) as (z & Hz & H). exists z. rewrite Hin. auto.
        * destruct (G7 y x Hy Hx) as (z & Hz & H). exists z. rewrite Hin. auto.
      + intros S1 S2. pose proof (Hs S1 S2) as Hb.
        assert (S3 : starts l2) by (rewrite A in S1; apply SS_app in S1; tauto).
        assert (S4 : starts r2) by (rewrite B in S2; apply SS_app in S2; tauto).
        destruct (G8 S3 S4) as [G8a G8b]. split.
        * constructor; [exact G8a|]. apply G8b, Hb.
        * intros z Hz. assert (Hz2 : Forall (fun x => leb z (s x) = true) (l2 ++ r2))
            by (rewrite Forall_forall in *; intros x Hx; apply Hz, Hin; auto).
          constructor; [|apply G8b, Hz2].
          rewrite Forall_forall in Hz. assert (leb z (s y0) = true) by (apply Hz, Hin; auto). ord.
      + intros [|i].
        * exists [], l, [], r. cbn [length app firstn nexts_end]. rewrite !PeanoNat.Nat.add_0_r. splits; auto.
        * cbn [nexts_end]. rewrite E. cbn [snd].
          destruct (G9 i) as (l3 & l4 & r3 & r4 & A' & B' & D' & F').
          exists (l1 ++ l3), l4, (r1 ++ r3), r4. rewrite !app_length, !PeanoNat.Nat.add_assoc.
          splits; auto; try (rewrite ?A, ?B, ?A', ?B', app_assoc; reflexivity).
          rewrite Forall_forall in *. intros x Hx.
          assert (Hx' : In x (l1 ++ r1) \/ In x (l3 ++ r3)) by (rewrite !in_app_iff in *; tauto).
          destruct Hx' as [Hx'|Hx'].
          -- exists q. split; [left; reflexivity|auto].
          -- destruct (F' x Hx') as (y & Hy & H). exists y. split; [right; exact Hy|exact H].
    - destruct H as (-> & -> & H). apply (IH u [] [] n m); auto; try (cbn; lia).
  Qed.

  (** ** Intersection *)
  Notation valid x := (ltb (s x) (e x) = true).
  Definition after (z : P) (l : list R) : Prop := Forall (fun x => leb z (s x) = true) l.
  Lemma after_app z l1 l2 : after z (l1 ++ l2) <-> after z l1 /\ after z l2.
  Proof. unfold after. rewrite Forall_app. tauto. Qed.
  Lemma covs_after z l x : after z l -> covs l x -> leb z x = true.
  Proof. intros H (y & Hy & [A B]). unfold after in H. rewrite Forall_forall in H. specialize (H y Hy). cbn in H. ord. Qed.

  Lemma any_inter_loop : forall fuel u l r n m,
    hu u l r n m -> Forall ok l -> Forall ok r -> starts l -> starts r -> length l + length r < fuel ->
    exists o u' l1 l2 r1 r2, in_loop inext order_end intersect fuel u = (Ret o, u') /\
      l = l1 ++ l2 /\ r = r1 ++ r2 /\ hu u' l2 r2 (n + length l1) (m + length r1) /\
      match o with
      | None => (forall x, ~ (covs l x /\ covs r x)) /\ (l2 = [] \/ r2 = [])
      | Some q => 0 < length l1 + length r1 /\ fin q /\ valid q /\
          (exists a b, In a l /\ In b r /\ within a q /\ within b q) /\
          (forall x, covs l x /\ covs r x <-> cov q x \/ covs l2 x /\ covs r2 x) /\
          Forall (fun x => leb (e x) (e q) = true) (l1 ++ r1) /\
          (after (s q) l2 \/ after (s q) r2) /\
          (forall z, after z l \/ after z r -> leb z (s q) = true) /\
          (asc l -> asc r -> after (e q) l2 \/ after (e q) r2)
      end.
  Proof.
    induction fuel as [|fuel IH]; intros u l r n m Hu Hl1 Hr1 Sl Sr Hf; [lia|].
    cbn [in_loop].
    destruct (pl_holds _ _ _ _ _ Hu) as (u1 & P1 & U1). destruct (pr_holds _ _ _ _ _ U1) as (u2 & P2 & U2).
    unfold bind at 1. rewrite P1. unfold bind at 1. rewrite P2.
    assert (Hend : l = [] \/ r = [] -> exists o u' l1 l2 r1 r2, (ret None : M pairs (option R)) u2 = (Ret o, u') /\
      l = l1 ++ l2 /\ r = r1 ++ r2 /\ hu u' l2 r2 (n + length l1) (m + length r1) /\
      match o with
      | None => (forall x, ~ (covs l x /\ covs r x)) /\ (l2 = [] \/ r2 = [])
      | Some _ => False
      end).
    { intros H. exists None, u2, [], l, [], r. cbn [length app]. rewrite !PeanoNat.Nat.add_0_r. splits; auto.
      intros x [H1 H2]. destruct H as [-> | ->]; [destruct H1 as (? & [] & _)|destruct H2 as (? & [] & _)]. }
    destruct l as [|a l]; cbn [hd_error].
    { destruct (Hend ltac:(auto)) as (o & u' & l1 & l2 & r1 & r2 & E & A & B & D & H).
      exists o, u', l1, l2, r1, r2. splits; auto. destruct o; [contradiction|exact H]. }
    destruct r as [|b r]; cbn [hd_error].
    { destruct (Hend ltac:(auto)) as (o & u' & l1 & l2 & r1 & r2 & E & A & B & D & H).
      exists o, u', l1, l2, r1, r2. splits; auto. destruct o; [contradiction|exact H]. }
    clear Hend. pose proof Hl1 as Hl0. pose proof Hr1 as Hr0.
    apply Forall_cons_iff in Hl1 as [Ha Hl1]. apply Forall_cons_iff in Hr1 as [Hb Hr1].
    rewrite (xl_end _ _ _ _ _ _ _ _ _ _ HL a b Ha Hb).
    pose proof (xl_intersect _ _ _ _ _ _ _ _ _ _ HL a b Ha Hb) as HI.
    assert (Tl : after (s a) (a :: l)) by (apply StronglySorted_inv in Sl as [_ H]; constructor; [ord|exact H]).
    assert (Tr : after (s b) (b :: r)) by (apply StronglySorted_inv in Sr as [_ H]; constructor; [ord|exact H]).
    (* the popped side *)
    assert (Hpop : exists u3 p l3 p' r3, (match c (e a) (e b) with Lt => next_left inext | _ => next_right inext end) u2
                     = (Ret (Some (match c (e a) (e b) with Lt => a | _ => b end)), u3) /\
       a :: l = p ++ l3 /\ b :: r = p' ++ r3 /\ hu u3 l3 r3 (n + length p) (m + length p') /\
       length p + length p' = 1 /\
       Forall (fun x => leb (e x) (kmin c (e a) (e b)) = true) (p ++ p') /\
       (forall x, covs (a :: l) x /\ covs (b :: r) x <-> (cov a x /\ cov b x) \/ covs l3 x /\ covs r3 x) /\
       (asc (a :: l) -> asc (b :: r) -> after (kmin c (e a) (e b)) l3 \/ after (kmin c (e a) (e b)) r3)).
    { assert (HR : ltb (e a) (e b) = false -> exists u3 p l3 p' r3, next_right inext u2 = (Ret (Some b), u3) /\
       a :: l = p ++ l3 /\ b :: r = p' ++ r3 /\ hu u3 l3 r3 (n + length p) (m + length p') /\
       length p + length p' = 1 /\
       Forall (fun x => leb (e x) (kmin c (e a) (e b)) = true) (p ++ p') /\
       (forall x, covs (a :: l) x /\ covs (b :: r) x <-> (cov a x /\ cov b x) \/ covs l3 x /\ covs r3 x) /\
       (asc (a :: l) -> asc (b :: r) -> after (kmin c (e a) (e b)) l3 \/ after (kmin c (e a) (e b)) r3)).
      { intros Ec. destruct (nr_holds _ _ _ _ _ _ U2) as (u3 & P3 & U3).
        exists u3, [], (a :: l), [b], r. cbn [length app]. rewrite PeanoNat.Nat.add_0_r, PeanoNat.Nat.add_1_r. splits; auto.
        - constructor; [|constructor]. unfold kmin. destruct (Order.ltb c (e b) (e a)) eqn:E2; ord.
        - intros x. rewrite (covs_cons (c := c) (s := s) (e := e) b).
          assert (N0 : cov b x -> covs (a :: l) x -> cov a x).
          { intros [_ Q1] Q2. apply (covs_after (s a)) in Q2; [|exact Tl]. split; ord. }
          assert (N' : cov a x -> covs (a :: l) x) by (intros Q; exists a; cbn; auto).
          tauto.
        - intros _ H. right. apply StronglySorted_inv in H as [_ H]. unfold after. eapply Forall_impl; [|exact H].
          cbn. intros y Hy. unfold kmin. destruct (Order.ltb c (e b) (e a)) eqn:E2; ord. }
      destruct (c (e a) (e b)) eqn:Ec; [apply HR; ord| |apply HR; ord].
      destruct (nl_holds _ _ _ _ _ _ U2) as (u3 & P3 & U3).
      exists u3, [a], l, [], (b :: r). cbn [length app]. rewrite PeanoNat.Nat.add_0_r, PeanoNat.Nat.add_1_r. splits; auto.
      - constructor; [|constructor]. unfold kmin. destruct (Order.ltb c (e b) (e a)) eqn:E2; ord.
      - intros x. rewrite (covs_cons (c := c) (s := s) (e := e) a).
        assert (N0 : cov a x -> covs (b :: r) x -> cov b x).
        { intros [_ Q1] Q2. apply (covs_after (s b)) in Q2; [|exact Tr]. split; ord. }
        assert (N' : cov b x -> covs (b :: r) x) by (intros Q; exists b; cbn; auto).
        tauto.
      - intros H _. left. apply StronglySorted_inv in H as [_ H]. unfold after. eapply Forall_impl; [|exact H].
        cbn. intros y Hy. unfold kmin. destruct (Order.ltb c (e b) (e a)) eqn:E2; ord. }
    destruct Hpop as (u3 & p & l3 & p' & r3 & P3 & A3 & B3 & U3 & Hlen & Hp & Hcov & Hasc).
    unfold bind at 1. rewrite P3.
    assert (Tl3 : after (s a) l3) by (rewrite A3 in Tl; apply after_app in Tl; tauto).
    assert (Tr3 : after (s b) r3) by (rewrite B3 in Tr; apply after_app in Tr; tauto).
    destruct (Order.ltb c (kmax c (s a) (s b)) (kmin c (e a) (e b))) eqn:EI.
    - destruct HI as (q & -> & Q1 & Q2 & Q3). exists (Some q), u3, p, l3, p', r3. cbn [ret].
      assert (Qa : leb (s a) (s q) = true) by (unfold kmax in *; destruct (Order.ltb c (s b) (s a)) eqn:E1; ord).
      assert (Qb : leb (s b) (s q) = true) by (unfold kmax in *; destruct (Order.ltb c (s b) (s a)) eqn:E1; ord).
      assert (Qa' : leb (e q) (e a) = true) by (unfold kmin in *; destruct (Order.ltb c (e b) (e a)) eqn:E1; ord).
      assert (Qb' : leb (e q) (e b) = true) by (unfold kmin in *; destruct (Order.ltb c (e b) (e a)) eqn:E1; ord).
      splits; auto.
      + lia.
      + ord.
      + exists a, b. unfold within. cbn. splits; auto.
      + intros x. rewrite Hcov. unfold OpsProofs.cov.
        assert (W : (leb (s q) x = true /\ ltb x (e q) = true) <->
               ((leb (s a) x = true /\ ltb x (e a) = true) /\ leb (s b) x = true /\ ltb x (e b) = true)).
        { split; [intros [X1 X2]; refine (conj (conj _ _) (conj _ _)); ord|].
          intros [[X1 X2] [X3 X4]]. unfold kmax, kmin in *.
          destruct (Order.ltb c (s b) (s a)) eqn:E1, (Order.ltb c (e b) (e a)) eqn:E2; split; ord. }
        tauto.
      + eapply Forall_impl; [|exact Hp]. cbn. intros x Hx. ord.
      + unfold kmax in Q2. unfold after in *.
        destruct (Order.ltb c (s b) (s a)) eqn:E1; [left; eapply Forall_impl; [|exact Tl3]|right; eapply Forall_impl; [|exact Tr3]];
          cbn; intros x Hx; ord.
      + intros z [H|H]; unfold after in H; apply Forall_cons_iff in H as [H _]; ord.
      + intros H1 H2. unfold after in *. destruct (Hasc H1 H2) as [H|H]; [left|right]; (eapply Forall_impl; [|exact H]);
          cbn; intros x Hx; ord.
    - rewrite HI.
      destruct (IH u3 l3 r3 _ _ U3) as (o & u' & l1 & l2 & r1 & r2 & E & A & B & D & H); auto.
      + rewrite A3 in Hl0. apply Forall_app in Hl0. tauto.
      + rewrite B3 in Hr0. apply Forall_app in Hr0. tauto.
      + rewrite A3 in Sl. apply SS_app in Sl. tauto.
      + rewrite B3 in Sr. apply SS_app in Sr. tauto.
      + rewrite A3, B3, !app_length in Hf. lia.
      + assert (Hn : forall x, covs (a :: l) x /\ covs (b :: r) x <-> covs l3 x /\ covs r3 x).
        { intros x. rewrite Hcov. unfold OpsProofs.cov.
          assert (W : ~ ((leb (s a) x = true /\ ltb x (e a) = true) /\ leb (s b) x = true /\ ltb x (e b) = true)).
          { intros [[X1 X2] [X3 X4]]. unfold kmax, kmin in *.
            destruct (Order.ltb c (s b) (s a)) eqn:E1, (Order.ltb c (e b) (e a)) eqn:E2; ord. }
          tauto. }
        exists o, u', (p ++ l1), l2, (p' ++ r1), r2. rewrite E, !app_length, !PeanoNat.Nat.add_assoc, <- !app_assoc.
        splits; auto.
        * rewrite A3, A. reflexivity.
        * rewrite B3, B. reflexivity.
        * destruct o as [q|].
          -- destruct H as (S1 & S2 & S3 & (qa & qb & S4 & S5 & S6 & S6') & S7 & S8 & S9 & S10 & S11). splits; auto.
             ++ lia.
             ++ exists qa, qb. rewrite A3, B3, !in_app_iff. splits; auto.
             ++ intros x. rewrite Hn. apply S7.
             ++ rewrite Forall_forall in *. intros x Hx.
                assert (Hx' : In x (p ++ p') \/ In x (l1 ++ r1)) by (rewrite !in_app_iff in *; tauto).
                destruct Hx' as [Hx'|Hx']; [|auto]. specialize (Hp x Hx').
                assert (Z1 : leb (s a) (s q) = true) by (apply S10; auto).
                assert (Z2 : leb (s b) (s q) = true) by (apply S10; auto).
                unfold kmax in EI. destruct (Order.ltb c (s b) (s a)) eqn:E1; ord.
             ++ intros z Hz. apply S10. rewrite A3, B3, !after_app in Hz. tauto.
             ++ intros H1 H2. apply S11.
                ** rewrite A3 in H1. apply SS_app in H1. tauto.
                ** rewrite B3 in H2. apply SS_app in H2. tauto.
          -- destruct H as (S1 & S2). split; auto. intros x Hx. apply (S1 x), Hn, Hx.
  Qed.

  Lemma any_inter_run : forall k u l r n m, length l + length r <= k -> k <= N ->
    hu u l r n m -> Forall ok l -> Forall ok r -> starts l -> starts r ->
    exists us, drains inn u us /\ Forall fin us /\ length us <= length l + length r /\
      Forall (fun q => valid q) us /\
      Forall (fun q => exists a b, In a l /\ In b r /\ within a q /\ within b q) us /\
      (forall x, covs us x <-> covs l x /\ covs r x) /\
      starts us /\ (asc l -> asc r -> asc us) /\
      (forall z, after z l \/ after z r -> after z us) /\
      (forall i, exists l1 l2 r1 r2, l = l1 ++ l2 /\ r = r1 ++ r2 /\
         hu (nexts_end inn i u) l2 r2 (n + length l1) (m + length r1) /\
         (i <= length us -> Forall (fun x => exists q, In q (firstn i us) /\ leb (e x) (e q) = true) (l1 ++ r1))).
  Proof.
    intros k. induction k as [k IH] using (well_founded_induction Wf_nat.lt_wf).
    intros u l r n m Hk HN Hu Hl1 Hr1 Sl Sr.
    assert (Hf : length l + length r < pk_len ilen (op_left u) + pk_len ilen (op_right u) + 1)
      by (pose proof (hu_fuel _ _ _ _ _ Hu); lia).
    destruct (any_inter_loop _ u l r n m Hu Hl1 Hr1 Sl Sr Hf) as (o & u' & l1 & l2 & r1 & r2 & E & A & B & D & H).
    assert (E' : inn u = (Ret o, u')) by exact E.
    destruct o as [q|].
    - destruct H as (Hpos & Hq & Hv & (qa & qb & Hqa & Hqb & Wa & Wb) & Hc & He & Hst & Hz & Hasc).
      assert (Q1 : Forall ok l2) by (rewrite A in Hl1; apply Forall_app in Hl1; tauto).
      assert (Q2 : Forall ok r2) by (rewrite B in Hr1; apply Forall_app in Hr1; tauto).
      assert (S1 : starts l2) by (rewrite A in Sl; apply SS_app in Sl; tauto).
      assert (S2 : starts r2) by (rewrite B in Sr; apply SS_app in Sr; tauto).
      destruct (IH (length l2 + length r2) ltac:(rewrite A, B, !app_length in Hk; lia) u' l2 r2 _ _ (le_n _)
                 ltac:(rewrite A, B, !app_length in Hk; lia) D Q1 Q2 S1 S2)
        as (us & G1 & G2 & G3 & G4 & G5 & G6 & G7 & G8 & G9 & G10).
      exists (q :: us). splits.
      + eapply drains_cons; eauto.
      + constructor; auto.
      + rewrite A, B, !app_length. cbn. lia.
      + constructor; auto.
      + constructor; [exists qa, qb; auto|]. eapply Forall_impl; [|exact G5]. cbn. intros y (a' & b' & Y1 & Y2 & Y3).
        exists a', b'. rewrite A, B, !in_app_iff. tauto.
      + intros x. rewrite (covs_cons (c := c) (s := s) (e := e)), G6, Hc. tauto.
      + constructor; [exact G7|]. apply G9. exact Hst.
      + intros H1 H2. constructor; [|apply G9; apply Hasc; auto]. apply G8.
        * rewrite A in H1. apply SS_app in H1. tauto.
        * rewrite B in H2. apply SS_app in H2. tauto.
      + intros z H1. constructor; [auto|]. apply G9. rewrite A, B, !after_app in H1. tauto.
      + intros [|i].
        * exists [], l, [], r. cbn [length app firstn nexts_end]. rewrite !PeanoNat.Nat.add_0_r. splits; auto.
        * cbn [nexts_end]. rewrite E'. cbn [snd].
          destruct (G10 i) as (l3 & l4 & r3 & r4 & A' & B' & D' & F').
          exists (l1 ++ l3), l4, (r1 ++ r3), r4. rewrite !app_length, !PeanoNat.Nat.add_assoc.
          splits; auto; try (rewrite ?A, ?B, ?A', ?B', app_assoc; reflexivity).
          intros Hi. specialize (F' ltac:(cbn in Hi; lia)).
          rewrite Forall_forall in *. intros x Hx.
          assert (Hx' : In x (l1 ++ r1) \/ In x (l3 ++ r3)) by (rewrite !in_app_iff in *; tauto).
          destruct Hx' as [Hx'|Hx'].
          -- exists q. split; [left; reflexivity|auto].
          -- destruct (F' x Hx') as (y & Hy & H). exists y. split; [right; exact Hy|exact H].
    - destruct H as [H1 H2].
      assert (Hn : forall v l2 r2 n m, hu v l2 r2 n m -> l2 = [] \/ r2 = [] ->
        exists v', inn v = (Ret None, v') /\ hu v' l2 r2 n m).
      { clear -Hcnt. intros v l r n m Hv Hd. unfold in_next. unfold bind at 1. cbn [get].
        replace (pk_len ilen (op_left v) + pk_len ilen (op_right v) + 1)
          with (S (pk_len ilen (op_left v) + pk_len ilen (op_right v))) by lia. cbn [in_loop].
        destruct (pl_holds _ _ _ _ _ Hv) as (u1 & P1 & U1). destruct (pr_holds _ _ _ _ _ U1) as (u2 & P2 & U2).
        unfold bind at 1. rewrite P1. unfold bind at 1. rewrite P2. exists u2. split; [|exact U2].
        destruct Hd as [-> | ->]; [reflexivity|destruct l; reflexivity]. }
      exists []. splits; auto; try constructor; cbn [length]; try lia.
      + intros [|i]; [reflexivity|]. rewrite yields_nil. cbn [nexts_m repeat map]. rewrite E'.
        f_equal. rewrite <- yields_nil.
        apply (drains_nil inn (fun v => exists l2 r2 n m, hu v l2 r2 n m /\ (l2 = [] \/ r2 = []))).
        * intros v (l5 & r5 & n5 & m5 & V1 & V2). destruct (Hn v _ _ _ _ V1 V2) as (v' & Ev & V').
          exists v'. split; [exact Ev|]. exists l5, r5, n5, m5. auto.
        * exists l2, r2, (n + length l1), (m + length r1). auto.
      + rewrite (covs_nil (c := c) (s := s) (e := e)) in *. tauto.
      + intros Hx. destruct (H1 _ Hx).
      + intros [|i].
        * exists [], l, [], r. cbn [length app firstn nexts_end]. rewrite !PeanoNat.Nat.add_0_r. splits; auto.
        * exists l1, l2, r1, r2. splits; auto; [|cbn; lia]. cbn [nexts_end]. rewrite E'. cbn [snd].
          clear -D H2 Hn. revert u' D. induction i as [|i IHi]; intros u' D; [exact D|].
          cbn [nexts_end]. destruct (Hn u' _ _ _ _ D H2) as (v' & -> & D'). apply IHi, D'.
  Qed.

  (** The two iterators, not yet asked for anything *)
  Lemma hu_new i j l r : supplies inext i l -> supplies inext j r -> cnt i = 0 -> cnt j = 0 ->
    hu (mkPair (mkPeek i None) (mkPeek j None)) l r 0 0.
  Proof. intros H1 H2 H3 H4. unfold hu, holds. cbn. splits; auto; lia. Qed.
  Lemma hu_cnt u l r n m : hu u l r n m -> cnt (pk_iter (op_left u)) <= n + 1 /\ cnt (pk_iter (op_right u)) <= m + 1.
  Proof. intros [H1 H2]. split; eapply holds_cnt; eassumption. Qed.
End Any.

Lemma drained_in {S A} (next : M S (option A)) u us n y :
  drains next u us -> In y (firstn n us) -> In (Ret (Some y)) (nexts_m next n u).
Proof. intros H Hy. rewrite (H n). apply in_map. apply yields_in, Hy. Qed.
Lemma drained_some {S A} (next : M S (option A)) u us n :
  drains next u us -> ~ In (Ret None) (nexts_m next n u) -> n <= length us.
Proof. intros H Hn. apply yields_none. intros G. apply Hn. rewrite (H n). apply in_map, G. Qed.

(** ** [Range] *)
Section Half.
  Context {K : Type} {cmp : K -> K -> comparison} (HO : TotalOrd cmp).
  Notation valid := (valid_range cmp).
  Notation covers := (in_range cmp).
  Lemma half_laws : AnyLaws cmp r_start r_end r_end (fun _ : range K => True) (fun _ => True)
    (r_order_start cmp) (r_order_end cmp) (r_merge cmp) (r_intersect cmp).
  Proof.
    split.
    - reflexivity.
    - reflexivity.
    - intros a b _ _. unfold r_merge, r_contains.
      replace (geb cmp (r_start b) (r_start a)) with (leb cmp (r_start a) (r_start b)) by ord.
      destruct (leb cmp (r_start a) (r_start b) && ltb cmp (r_start b) (r_end a)) eqn:E; cbn [negb]; [|reflexivity].
      eexists. split; [reflexivity|]. unfold kmax.
      destruct (gtb cmp (r_end b) (r_end a)) eqn:G; destruct (ltb cmp (r_end b) (r_end a)) eqn:G2;
        cbn [r_start r_end]; splits; auto; ord.
    - intros a b _ _. unfold r_intersect.
      destruct (ltb cmp (kmax cmp (r_start a) (r_start b)) (kmin cmp (r_end a) (r_end b))) eqn:E.
      + replace (geb cmp (kmax cmp (r_start a) (r_start b)) (kmin cmp (r_end a) (r_end b))) with false by ord.
        eexists. split; [reflexivity|]. cbn. splits; auto; ord.
      + replace (geb cmp (kmax cmp (r_start a) (r_start b)) (kmin cmp (r_end a) (r_end b))) with true by ord.
        reflexivity.
    - intros a. ord.
  Qed.
  Lemma half_cov (l : list (range K)) k :
    covs (c := cmp) (s := r_start) (e := r_end) l k <-> exists r, In r l /\ covers r k = true.
  Proof.
    unfold covs, cov, in_range. split; intros (r & Hr & H); exists r; (split; [exact Hr|]).
    - destruct H. ord.
    - split; ord.
  Qed.
  Lemma all_true {A} (l : list A) : Forall (fun _ => True) l.
  Proof. induction l; auto. Qed.

  Context {I : Type} (next : I -> option (range K) * I) (N : nat).
  Notation un nx := (un_next nx (fun _ => N) (r_order_start cmp) (r_merge cmp)).
  Notation inn nx := (in_next nx (fun _ => N) (r_order_end cmp) (r_intersect cmp)).

  Lemma half_union i j l r : supplies next i l -> supplies next j r -> length l + length r <= N ->
    exists us, (forall n, nexts_m (un next) n (op_new i j) = map Ret (yields n us)) /\
      (forall k, (exists u, In u us /\ covers u k = true) <-> (exists x, In x (l ++ r) /\ covers x k = true)) /\
      welded cmp (l ++ r) us /\ length us <= length l + length r /\
      (Forall (fun x => valid x = true) (l ++ r) -> Forall (fun x => valid x = true) us) /\
      (by_start cmp l -> by_start cmp r -> in_turn cmp us).
  Proof.
    intros Hi Hj HN.
    destruct (any_union_run HO half_laws next (fun _ => 0) ltac:(cbn; lia) (fun _ => N) N (fun _ _ _ h => h) _ (op_new i j) l r 0 0 (le_n _) HN
                (hu_new _ (fun _ => 0) _ _ _ _ Hi Hj eq_refl eq_refl) (all_true _) (all_true _))
      as (us & H1 & _ & H3 & H4 & H5 & H6 & H7 & H8 & _).
    exists us. unfold welded. splits; auto.
    - intros k. rewrite <- !half_cov. apply H6.
    - rewrite Forall_forall in H5. intros x Hx. destruct (H5 x Hx) as (y & Hy & [W1 W2]). eauto.
    - intros u z Hu Hz1 Hz2. destruct (H7 u z Hu (conj Hz1 Hz2)) as (y & Hy & [W1 W2]). eauto.
    - intros S1 S2. apply (H8 S1 S2).
  Qed.
  Lemma half_inter i j l r : supplies next i l -> supplies next j r -> length l + length r <= N ->
    by_start cmp l -> by_start cmp r ->
    exists us, (forall n, nexts_m (inn next) n (op_new i j) = map Ret (yields n us)) /\
      (forall k, (exists u, In u us /\ covers u k = true) <->
         (exists x, In x l /\ covers x k = true) /\ (exists y, In y r /\ covers y k = true)) /\
      Forall (fun u => valid u = true /\ exists x y, In x l /\ In y r /\ inside cmp x u /\ inside cmp y u) us /\
      length us <= length l + length r /\
      by_start cmp us /\ (in_turn cmp l -> in_turn cmp r -> in_turn cmp us).
  Proof.
    intros Hi Hj HN S1 S2.
    destruct (any_inter_run HO half_laws next (fun _ => 0) ltac:(cbn; lia) (fun _ => N) N (fun _ _ _ h => h) _ (op_new i j) l r 0 0 (le_n _) HN
                (hu_new _ (fun _ => 0) _ _ _ _ Hi Hj eq_refl eq_refl) (all_true _) (all_true _) S1 S2)
      as (us & H1 & _ & H3 & H4 & H5 & H6 & H7 & H8 & _).
    exists us. splits; auto.
    - intros k. rewrite <- !half_cov. apply H6.
    - rewrite Forall_forall in *. intros x Hx. split; [apply (H4 x Hx)|exact (H5 x Hx)].
  Qed.
  Lemma half_union_lazy i j l r : supplies next i l -> supplies next j r -> length l + length r <= N ->
    forall n, let u := nexts_end (un (tallied next)) n (op_new (i, 0) (j, 0)) in
    exists l1 l2 r1 r2, l = l1 ++ l2 /\ r = r1 ++ r2 /\
      snd (pk_iter (op_left u)) <= length l1 + 1 /\ snd (pk_iter (op_right u)) <= length r1 + 1 /\
      Forall (fun x => exists y, In (Ret (Some y)) (nexts_m (un (tallied next)) n (op_new (i, 0) (j, 0))) /\ inside cmp y x) (l1 ++ r1).
  Proof.
    intros Hi Hj HN n.
    destruct (any_union_run HO half_laws (tallied next) snd ltac:(cbn; lia) (fun _ => N) N (fun _ _ _ h => h) _ (op_new (i, 0) (j, 0)) l r 0 0 (le_n _) HN
                (hu_new _ snd _ _ _ _ (tallied_supplies _ _ _ 0 Hi) (tallied_supplies _ _ _ 0 Hj) eq_refl eq_refl) (all_true _) (all_true _))
      as (us & H1 & _ & _ & _ & _ & _ & _ & _ & H9).
    destruct (H9 n) as (l1 & l2 & r1 & r2 & A & B & D & F). apply hu_cnt in D as [D1 D2].
    exists l1, l2, r1, r2. splits; auto.
    eapply Forall_impl; [|exact F]. cbn. intros x (y & Hy & W). exists y. split; [eapply drained_in; eassumption|exact W].
  Qed.
  Lemma half_inter_lazy i j l r : supplies next i l -> supplies next j r -> length l + length r <= N ->
    by_start cmp l -> by_start cmp r ->
    forall n, let u := nexts_end (inn (tallied next)) n (op_new (i, 0) (j, 0)) in
    exists l1 l2 r1 r2, l = l1 ++ l2 /\ r = r1 ++ r2 /\
      snd (pk_iter (op_left u)) <= length l1 + 1 /\ snd (pk_iter (op_right u)) <= length r1 + 1 /\
      (~ In (Ret None) (nexts_m (inn (tallied next)) n (op_new (i, 0) (j, 0))) ->
       Forall (fun x => exists y, In (Ret (Some y)) (nexts_m (inn (tallied next)) n (op_new (i, 0) (j, 0))) /\
                                  leb cmp (r_end x) (r_end y) = true) (l1 ++ r1)).
  Proof.
    intros Hi Hj HN S1 S2 n.
    destruct (any_inter_run HO half_laws (tallied next) snd ltac:(cbn; lia) (fun _ => N) N (fun _ _ _ h => h) _ (op_new (i, 0) (j, 0)) l r 0 0 (le_n _) HN
                (hu_new _ snd _ _ _ _ (tallied_supplies _ _ _ 0 Hi) (tallied_supplies _ _ _ 0 Hj) eq_refl eq_refl) (all_true _) (all_true _) S1 S2)
      as (us & H1 & _ & _ & _ & _ & _ & _ & _ & _ & H9).
    destruct (H9 n) as (l1 & l2 & r1 & r2 & A & B & D & F). apply hu_cnt in D as [D1 D2].
    exists l1, l2, r1, r2. splits; auto. intros Hn. specialize (F (drained_some _ _ _ _ H1 Hn)).
    eapply Forall_impl; [|exact F]. cbn. intros x (y & Hy & W). exists y. split; [eapply drained_in; eassumption|exact W].
  Qed.
End Half.

(** ** [RangeInclusive]: the positions before and after each key *)
Section Incl.
  Context {K : Type} {cmp : K -> K -> comparison} (HO : TotalOrd cmp).
  Notation valid := (valid_rangei cmp).
  Notation covers := (in_rangei cmp).
  Definition lex_le (a b : cut K) : bool :=
    match a, b with
    | Before x, Before y | After x, After y | Before x, After y => leb cmp x y
    | After x, Before y => ltb cmp x y
    end.
  Notation lex := (cmp_of lex_le).
  Lemma lex_order : TotalOrd lex.
  Proof.
    apply cmp_of_order.
    - intros [x|x] [y|y]; cbn; destruct (leb cmp x y) eqn:E; auto; try (right; ord);
        destruct (ltb cmp x y) eqn:E2; auto; right; ord.
    - intros [x|x] [y|y] [z|z]; cbn; intros H1 H2; ord.
  Qed.
  Lemma lex_leb a b : leb lex a b = lex_le a b.
  Proof.
    unfold leb, cmp_of. destruct (lex_le a b) eqn:E; [destruct (lex_le b a); reflexivity|reflexivity].
  Qed.
  Lemma lex_ltb a b : ltb lex a b = negb (lex_le b a).
  Proof.
    pose proof lex_order as HO'. rewrite <- lex_leb. clear -HO'. ord.
  Qed.
  Lemma lex_B x y : lex (Before x) (Before y) = cmp x y.
  Proof. unfold cmp_of. cbn. destruct (leb cmp x y) eqn:E1, (leb cmp y x) eqn:E2; destruct (cmp x y) eqn:E3; auto; ord. Qed.
  Lemma lex_A x y : lex (After x) (After y) = cmp x y.
  Proof. unfold cmp_of. cbn. destruct (leb cmp x y) eqn:E1, (leb cmp y x) eqn:E2; destruct (cmp x y) eqn:E3; auto; ord. Qed.
  Notation fresh := (fun r : rangei K => ri_exhausted r = false).
  Notation sp := (fun r : rangei K => Before (ri_start r)).
  Notation ep := (fun r : rangei K => After (ri_end r)).
  (* the positions at which a range contains no more keys: an exhausted one excludes its end *)
  Notation gp := (fun r : rangei K => if ri_exhausted r then Before (ri_end r) else After (ri_end r)).
  (* [H]: whether the items are assumed not to be exhausted *)
  Notation okif H := (fun r : rangei K => H -> ri_exhausted r = false).
  Lemma incl_laws (H : Prop) : AnyLaws lex sp ep gp (okif H) fresh (ri_order_start cmp) (ri_order_end cmp) (ri_merge cmp) (ri_intersect cmp).
  Proof.
    split.
    - intros a b _ _. symmetry. apply lex_B.
    - intros a b _ _. symmetry. apply lex_A.
    - intros a b Xa Xb. unfold ri_merge, ri_contains. rewrite lex_leb, lex_ltb. cbn [lex_le].
      replace (if ri_exhausted a then ltb cmp (ri_start b) (ri_end a) else leb cmp (ri_start b) (ri_end a))
        with (negb (lex_le (gp a) (Before (ri_start b)))) by (destruct (ri_exhausted a); cbn [lex_le]; ord).
      destruct (leb cmp (ri_start a) (ri_start b) && negb (lex_le (gp a) (Before (ri_start b)))) eqn:E; cbn [negb]; [|reflexivity].
      eexists. split; [reflexivity|]. unfold kmax. rewrite lex_ltb. cbn [lex_le].
      destruct (gtb cmp (ri_end b) (ri_end a)) eqn:G; destruct (leb cmp (ri_end a) (ri_end b)) eqn:G2;
        cbn [ri_start ri_end ri_exhausted negb]; rewrite lex_B, lex_A; splits; auto; ord.
    - intros a b Xa Xb. unfold ri_intersect.
      assert (E1 : kmax lex (Before (ri_start a)) (Before (ri_start b)) = Before (kmax cmp (ri_start a) (ri_start b))).
      { unfold kmax. rewrite lex_ltb. cbn [lex_le]. replace (negb (leb cmp (ri_start a) (ri_start b))) with (ltb cmp (ri_start b) (ri_start a)) by ord.
        destruct (ltb _ _ _); reflexivity. }
      assert (E2 : kmin lex (After (ri_end a)) (After (ri_end b)) = After (kmin cmp (ri_end a) (ri_end b))).
      { unfold kmin. rewrite lex_ltb. cbn [lex_le]. replace (negb (leb cmp (ri_end a) (ri_end b))) with (ltb cmp (ri_end b) (ri_end a)) by ord.
        destruct (ltb _ _ _); reflexivity. }
      rewrite E1, E2, lex_ltb. cbn [lex_le].
      destruct (ltb cmp (kmin cmp (ri_end a) (ri_end b)) (kmax cmp (ri_start a) (ri_start b))) eqn:E; cbn [negb].
      + replace (gtb cmp (kmax cmp (ri_start a) (ri_start b)) (kmin cmp (ri_end a) (ri_end b))) with true by ord.
        reflexivity.
      + replace (gtb cmp (kmax cmp (ri_start a) (ri_start b)) (kmin cmp (ri_end a) (ri_end b))) with false by ord.
        eexists. split; [reflexivity|]. cbn [ri_start ri_end ri_exhausted]. rewrite lex_B, lex_A. splits; auto; apply (ord_refl _ HO).
    - intros a. rewrite lex_leb. destruct (ri_exhausted a); cbn [lex_le]; ord.
  Qed.
  Lemma incl_cov (l : list (rangei K)) k :
    covs (c := lex) (s := sp) (e := ep) l (Before k) <-> exists r, In r l /\ covers r k = true.
  Proof.
    unfold covs, cov, in_rangei. split; intros (r & Hr & H); exists r; (split; [exact Hr|]);
      rewrite lex_leb, lex_ltb in *; cbn [lex_le] in *.
    - destruct H as [H1 H2]. apply negb_true_iff in H2. ord.
    - split; [ord|]. apply negb_true_iff. ord.
  Qed.
  Lemma incl_starts (l : list (rangei K)) :
    StronglySorted (fun a b => leb lex (Before (ri_start a)) (Before (ri_start b)) = true) l <-> by_starti cmp l.
  Proof. unfold by_starti. split; apply SS_impl; intros a b _ _ H; rewrite lex_leb in *; exact H. Qed.
  Lemma incl_turn (l : list (rangei K)) :
    StronglySorted (fun a b => leb lex (After (ri_end a)) (Before (ri_start b)) = true) l <-> in_turni cmp l.
  Proof. unfold in_turni. split; apply SS_impl; intros a b _ _ H; rewrite lex_leb in *; exact H. Qed.
  Lemma incl_turnx (l : list (rangei K)) :
    StronglySorted (fun a b => leb lex (gp a) (Before (ri_start b)) = true) l -> in_turnx cmp l.
  Proof.
    unfold in_turnx. apply SS_impl; intros a b _ _ H; rewrite lex_leb in *. destruct (ri_exhausted a) eqn:E; cbn [lex_le] in H; [|auto].
    destruct (ltb cmp (ri_end a) (ri_start b)) eqn:G; [auto|right]. split; [reflexivity|ord].
  Qed.
  Lemma incl_turnx_fresh (l : list (rangei K)) : in_turnx cmp l -> Forall fresh l -> in_turni cmp l.
  Proof.
    intros H Hf. rewrite Forall_forall in Hf. revert H. unfold in_turni, in_turnx. apply SS_impl. intros a b Ha _ [H|[H _]]; [exact H|].
    rewrite (Hf a Ha) in H. discriminate.
  Qed.
  Lemma okifs (H : Prop) (l : list (rangei K)) : (H -> Forall fresh l) -> Forall (okif H) l.
  Proof. intros Hl. apply Forall_forall. intros x Hx h. specialize (Hl h). rewrite Forall_forall in Hl. auto. Qed.
  Lemma okifs_inv (H : Prop) (l : list (rangei K)) : Forall (okif H) l -> H -> Forall fresh l.
  Proof. intros Hl h. eapply Forall_impl; [|exact Hl]. cbn. auto. Qed.
  Lemma incl_within (y x : rangei K) : within (c := lex) (s := sp) (e := ep) y x <-> insidei cmp y x.
  Proof. unfold within, insidei. rewrite !lex_leb. tauto. Qed.
  Lemma incl_valid (x : rangei K) : ltb lex (Before (ri_start x)) (After (ri_end x)) = valid x.
  Proof. rewrite lex_ltb. reflexivity. Qed.
  Lemma incl_valids (l : list (rangei K)) :
    Forall (fun x => ltb lex (Before (ri_start x)) (After (ri_end x)) = true) l <-> Forall (fun x => valid x = true) l.
  Proof. split; apply Forall_impl; intros x; rewrite incl_valid; auto. Qed.

  Context {I : Type} (next : I -> option (rangei K) * I) (N : nat).
  Notation un nx := (un_next nx (fun _ => N) (ri_order_start cmp) (ri_merge cmp)).
  Notation inn nx := (in_next nx (fun _ => N) (ri_order_end cmp) (ri_intersect cmp)).

  Lemma incl_union i j l r : supplies next i l -> supplies next j r -> length l + length r <= N ->
    exists us, (forall n, nexts_m (un next) n (op_new i j) = map Ret (yields n us)) /\
      (forall k, (exists u, In u us /\ covers u k = true) <-> (exists x, In x (l ++ r) /\ covers x k = true)) /\
      weldedi cmp (l ++ r) us /\ length us <= length l + length r /\
      (Forall fresh (l ++ r) -> Forall fresh us) /\
      (Forall (fun x => valid x = true) (l ++ r) -> Forall (fun x => valid x = true) us) /\
      (by_starti cmp l -> by_starti cmp r ->
         in_turnx cmp us /\ (Forall fresh (l ++ r) -> in_turni cmp us)).
  Proof.
    intros Hi Hj HN.
    destruct (any_union_run lex_order (incl_laws (Forall fresh (l ++ r))) next (fun _ => 0) ltac:(cbn; lia) (fun _ => N) N (fun _ _ _ h => h) _ (op_new i j) l r 0 0 (le_n _) HN
                (hu_new _ (fun _ => 0) _ _ _ _ Hi Hj eq_refl eq_refl) (okifs (Forall fresh (l ++ r)) l (fun h => proj1 (proj1 (Forall_app _ _ _) h))) (okifs (Forall fresh (l ++ r)) r (fun h => proj2 (proj1 (Forall_app _ _ _) h))))
      as (us & H1 & H2 & H3 & H4 & H5 & H6 & H7 & H8 & _).
    exists us. unfold weldedi. splits; auto.
    - intros k. rewrite <- !incl_cov. apply H6.
    - rewrite Forall_forall in H5. intros x Hx. destruct (H5 x Hx) as (y & Hy & W). apply incl_within in W as [W1 W2]. eauto.
    - intros u z Hu Hz1 Hz2. destruct (H7 u (Before z) Hu) as (y & Hy & [W1 W2]).
      + split; rewrite lex_ltb; cbn [lex_le]; apply negb_true_iff; ord.
      + rewrite lex_ltb in W1, W2. cbn [lex_le] in W1, W2. apply negb_true_iff in W1, W2. exists y. splits; auto; ord.
    - exact (okifs_inv _ _ H2).
    - rewrite !incl_valids in H4. exact H4.
    - intros S1 S2. apply incl_starts in S1, S2. pose proof (incl_turnx _ (proj1 (H8 S1 S2))) as HT. split; [exact HT|].
      intros h. exact (incl_turnx_fresh _ HT (okifs_inv _ _ H2 h)).
  Qed.
  Lemma incl_inter i j l r : supplies next i l -> supplies next j r -> length l + length r <= N ->
    by_starti cmp l -> by_starti cmp r ->
    exists us, (forall n, nexts_m (inn next) n (op_new i j) = map Ret (yields n us)) /\
      (forall k, (exists u, In u us /\ covers u k = true) <->
         (exists x, In x l /\ covers x k = true) /\ (exists y, In y r /\ covers y k = true)) /\
      Forall (fun u => (fresh u /\ valid u = true) /\ exists x y, In x l /\ In y r /\ insidei cmp x u /\ insidei cmp y u) us /\
      length us <= length l + length r /\
      by_starti cmp us /\ (in_turni cmp l -> in_turni cmp r -> in_turni cmp us).
  Proof.
    intros Hi Hj HN S1 S2. apply incl_starts in S1, S2.
    destruct (any_inter_run lex_order (incl_laws (Forall fresh (l ++ r))) next (fun _ => 0) ltac:(cbn; lia) (fun _ => N) N (fun _ _ _ h => h) _ (op_new i j) l r 0 0 (le_n _) HN
                (hu_new _ (fun _ => 0) _ _ _ _ Hi Hj eq_refl eq_refl) (okifs (Forall fresh (l ++ r)) l (fun h => proj1 (proj1 (Forall_app _ _ _) h))) (okifs (Forall fresh (l ++ r)) r (fun h => proj2 (proj1 (Forall_app _ _ _) h))) S1 S2)
      as (us & H1 & H2 & H3 & H4 & H5 & H6 & H7 & H8 & _).
    exists us. splits; auto.
    - intros k. rewrite <- !incl_cov. apply H6.
    - rewrite Forall_forall in *. intros x Hx. split; [split; [apply H2, Hx|]|].
      + rewrite <- incl_valid. apply (H4 x Hx).
      + destruct (H5 x Hx) as (a & b & Ia & Ib & Wa & Wb). apply incl_within in Wa, Wb. exists a, b. auto.
    - apply incl_starts, H7.
    - intros T1 T2. apply incl_turn in T1, T2. apply incl_turn, (H8 T1 T2).
  Qed.
  Lemma incl_union_lazy i j l r : supplies next i l -> supplies next j r -> length l + length r <= N ->
    forall n, let u := nexts_end (un (tallied next)) n (op_new (i, 0) (j, 0)) in
    exists l1 l2 r1 r2, l = l1 ++ l2 /\ r = r1 ++ r2 /\
      snd (pk_iter (op_left u)) <= length l1 + 1 /\ snd (pk_iter (op_right u)) <= length r1 + 1 /\
      Forall (fun x => exists y, In (Ret (Some y)) (nexts_m (un (tallied next)) n (op_new (i, 0) (j, 0))) /\ insidei cmp y x) (l1 ++ r1).
  Proof.
    intros Hi Hj HN n.
    destruct (any_union_run lex_order (incl_laws (Forall fresh (l ++ r))) (tallied next) snd ltac:(cbn; lia) (fun _ => N) N (fun _ _ _ h => h) _ (op_new (i, 0) (j, 0)) l r 0 0 (le_n _) HN
                (hu_new _ snd _ _ _ _ (tallied_supplies _ _ _ 0 Hi) (tallied_supplies _ _ _ 0 Hj) eq_refl eq_refl) (okifs (Forall fresh (l ++ r)) l (fun h => proj1 (proj1 (Forall_app _ _ _) h))) (okifs (Forall fresh (l ++ r)) r (fun h => proj2 (proj1 (Forall_app _ _ _) h))))
      as (us & H1 & _ & _ & _ & _ & _ & _ & _ & H9).
    destruct (H9 n) as (l1 & l2 & r1 & r2 & A & B & D & F). apply hu_cnt in D as [D1 D2].
    exists l1, l2, r1, r2. splits; auto.
    eapply Forall_impl; [|exact F]. cbn. intros x (y & Hy & W). exists y. split; [eapply drained_in; eassumption|apply incl_within, W].
  Qed.
  Lemma incl_inter_lazy i j l r : supplies next i l -> supplies next j r -> length l + length r <= N ->
    by_starti cmp l -> by_starti cmp r ->
    forall n, let u := nexts_end (inn (tallied next)) n (op_new (i, 0) (j, 0)) in
    exists l1 l2 r1 r2, l = l1 ++ l2 /\ r = r1 ++ r2 /\
      snd (pk_iter (op_left u)) <= length l1 + 1 /\ snd (pk_iter (op_right u)) <= length r1 + 1 /\
      (~ In (Ret None) (nexts_m (inn (tallied next)) n (op_new (i, 0) (j, 0))) ->
       Forall (fun x => exists y, In (Ret (Some y)) (nexts_m (inn (tallied next)) n (op_new (i, 0) (j, 0))) /\
                                  leb cmp (ri_end x) (ri_end y) = true) (l1 ++ r1)).
  Proof.
    intros Hi Hj HN S1 S2 n. apply incl_starts in S1, S2.
    destruct (any_inter_run lex_order (incl_laws (Forall fresh (l ++ r))) (tallied next) snd ltac:(cbn; lia) (fun _ => N) N (fun _ _ _ h => h) _ (op_new (i, 0) (j, 0)) l r 0 0 (le_n _) HN
                (hu_new _ snd _ _ _ _ (tallied_supplies _ _ _ 0 Hi) (tallied_supplies _ _ _ 0 Hj) eq_refl eq_refl) (okifs (Forall fresh (l ++ r)) l (fun h => proj1 (proj1 (Forall_app _ _ _) h))) (okifs (Forall fresh (l ++ r)) r (fun h => proj2 (proj1 (Forall_app _ _ _) h))) S1 S2)
      as (us & H1 & _ & _ & _ & _ & _ & _ & _ & _ & H9).
    destruct (H9 n) as (l1 & l2 & r1 & r2 & A & B & D & F). apply hu_cnt in D as [D1 D2].
    exists l1, l2, r1, r2. splits; auto. intros Hn. specialize (F (drained_some _ _ _ _ H1 Hn)).
    eapply Forall_impl; [|exact F]. cbn. intros x (y & Hy & W). exists y. split; [eapply drained_in; eassumption|rewrite lex_leb in W; exact W].
  Qed.
End Incl.
