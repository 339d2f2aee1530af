(** [RangeInclusiveMap<K>] simulates [RangeMap<K'>] where [K'] are the "cuts"
    between keys of [K]: [s..=e] corresponds to [lo s .. hi e], with [lo k] the
    cut just before [k] and [hi k] the cut just after it.  If [k] has a
    successor [s] then [hi k] and [lo s] are the same cut.

    Any order [K'] with such maps [lo]/[hi] will do: the cuts of Cuts.v, or,
    for integer keys, the integers with [lo k = k] and [hi k = k + 1]. *)
From Coq Require Import List Bool Sorting.Sorted Lia.
From Verif Require Import Order Outcome BTree Ranges History Spec MapModel IMapModel ListLemmas
  MapProofs MapRemove AnyEq MapFacts MapIter.
Import ListNotations.

Record Cuts {K K'} (cmp : K -> K -> comparison) (cmp' : K' -> K' -> comparison)
    (st : stepfns K) (lo hi : K -> K') : Prop := {
  cut_lo : forall a b, cmp' (lo a) (lo b) = cmp a b;
  cut_hi : forall a b, cmp' (hi a) (hi b) = cmp a b;
  cut_in : forall a b, leb cmp a b = true -> ltb cmp' (lo a) (hi b) = true;
  cut_succ : forall a b, ltb cmp a b = true ->
    exists s, add_one st a = Some s /\ cmp' (hi a) (lo s) = Eq /\ leb cmp' (hi a) (lo b) = true;
  cut_pred : forall a b, ltb cmp b a = true ->
    exists p, sub_one st a = Some p /\ cmp' (hi p) (lo a) = Eq
}.

Section Sim.
  Context {K K' V : Type} {cmp : K -> K -> comparison} {cmp' : K' -> K' -> comparison}.
  Context {veqb : V -> V -> bool} {st : stepfns K} {lo hi : K -> K'}.
  Context (HC : Cuts cmp cmp' st lo hi) (HO : TotalOrd cmp').

  Notation WF := (@WF K' V cmp' veqb).
  Notation WFq q := (@MapProofs.WF K' V cmp' q).
  Notation WW := (@MapProofs.WF K' V cmp' (fun _ _ => false)).

  Lemma lo_lt a b : ltb cmp a b = ltb cmp' (lo a) (lo b).
  Proof. unfold ltb. rewrite (cut_lo _ _ _ _ _ HC). reflexivity. Qed.
  Lemma lo_le a b : leb cmp a b = leb cmp' (lo a) (lo b).
  Proof. unfold leb. rewrite (cut_lo _ _ _ _ _ HC). reflexivity. Qed.
  Lemma lo_eq a b : eqb cmp a b = eqb cmp' (lo a) (lo b).
  Proof. unfold eqb. rewrite (cut_lo _ _ _ _ _ HC). reflexivity. Qed.
  Lemma hi_lt a b : ltb cmp a b = ltb cmp' (hi a) (hi b).
  Proof. unfold ltb. rewrite (cut_hi _ _ _ _ _ HC). reflexivity. Qed.
  Lemma hi_le a b : leb cmp a b = leb cmp' (hi a) (hi b).
  Proof. unfold leb. rewrite (cut_hi _ _ _ _ _ HC). reflexivity. Qed.
  Lemma hi_eq a b : eqb cmp a b = eqb cmp' (hi a) (hi b).
  Proof. unfold eqb. rewrite (cut_hi _ _ _ _ _ HC). reflexivity. Qed.
  Lemma lohi_lt a b : leb cmp a b = ltb cmp' (lo a) (hi b).
  Proof.
    destruct (leb cmp a b) eqn:E; [symmetry; apply (cut_in _ _ _ _ _ HC); exact E|].
    assert (E2 : ltb cmp b a = true).
    { rewrite hi_le in E. rewrite hi_lt. ord. }
    destruct (cut_succ _ _ _ _ _ HC b a E2) as (s & _ & _ & H). ord.
  Qed.
  Lemma lohi_le a b : ltb cmp b a = leb cmp' (hi b) (lo a).
  Proof.
    assert (H : leb cmp a b = negb (ltb cmp b a)).
    { rewrite lo_le, lo_lt. ord. }
    rewrite lohi_lt in H. ord.
  Qed.

  Lemma cmp_compat x x' y y' : cmp' x x' = Eq -> cmp' y y' = Eq -> cmp' x y = cmp' x' y'.
  Proof. intros H1 H2. destruct (cmp' x y) eqn:E; symmetry; ord. Qed.

  (** the key order inherits the order laws *)
  Lemma cuts_order : TotalOrd cmp.
  Proof.
    split.
    - intros x. rewrite <- (cut_lo _ _ _ _ _ HC). apply (ord_refl _ HO).
    - intros x y. rewrite <- !(cut_lo _ _ _ _ _ HC). apply (ord_dual _ HO).
    - intros c x y z. rewrite <- !(cut_lo _ _ _ _ _ HC). apply (ord_trans _ HO).
  Qed.

  (** ** Related ranges, entries, maps, outcomes and computations *)
  Definition Rr (r : rangei K) (r' : range K') : Prop :=
    cmp' (lo (ri_start r)) (r_start r') = Eq /\ cmp' (hi (ri_end r)) (r_end r') = Eq.
  Definition Rn (r : rangei K) (r' : range K') : Prop := Rr r r' /\ ri_exhausted r = false.
  Definition Re (e : rangei K * V) (e' : range K' * V) : Prop :=
    Rn (fst e) (fst e') /\ snd e = snd e'.
  Definition Rm : imap K V -> rmap K' V -> Prop := Forall2 Re.

  Definition osim {A B} (R : A -> B -> Prop) (o : outcome A) (o' : outcome B) : Prop :=
    match o, o' with
    | Ret a, Ret b => R a b
    | Panicked p, Panicked p' => p = p'
    | OutOfFuel, OutOfFuel => True
    | _, _ => False
    end.
  Definition res {A B} (R : A -> B -> Prop) (x : outcome A * imap K V) (x' : outcome B * rmap K' V)
    : Prop := osim R (fst x) (fst x') /\ Rm (snd x) (snd x').
  Definition msim {A B} (R : A -> B -> Prop) (c : M (imap K V) A) (c' : M (rmap K' V) B) : Prop :=
    forall m m', Rm m m' -> res R (c m) (c' m').
  Notation U := (fun _ _ : unit => True).

  Lemma sim_ret {A B} (R : A -> B -> Prop) a b : R a b -> msim R (ret a) (ret b).
  Proof. intros H m m' Hm. split; [exact H|exact Hm]. Qed.
  Lemma sim_bind {A B C D} (R : A -> B -> Prop) (Q : C -> D -> Prop) c c' f f' :
    msim R c c' -> (forall a b, R a b -> msim Q (f a) (f' b)) -> msim Q (bind c f) (bind c' f').
  Proof.
    intros H1 H2 m m' Hm. specialize (H1 m m' Hm). unfold bind. unfold res in H1.
    destruct (c m) as [[a|p|] s], (c' m') as [[b|p'|] s']; cbn in H1; destruct H1 as [H1 H3];
      try contradiction.
    - apply H2; assumption.
    - split; assumption.
    - split; assumption.
  Qed.
  Lemma sim_get : msim Rm get get.
  Proof. intros m m' Hm. split; exact Hm. Qed.
  Lemma sim_modify f f' : (forall m m', Rm m m' -> Rm (f m) (f' m')) -> msim U (modify f) (modify f').
  Proof. intros H m m' Hm. split; [exact I|apply H; exact Hm]. Qed.
  Lemma sim_lift {A B} (R : A -> B -> Prop) o o' : osim R o o' -> msim R (lift o) (lift o').
  Proof. intros H m m' Hm. split; [exact H|exact Hm]. Qed.
  Lemma sim_if {A B} (R : A -> B -> Prop) (b b' : bool) c d c' d' :
    b = b' -> (b = true -> msim R c c') -> (b = false -> msim R d d') ->
    msim R (if b then c else d) (if b' then c' else d').
  Proof. intros <- H1 H2. destruct b; auto. Qed.

  (** ** Range predicates *)
  Ltac tr := rewrite ?lo_lt, ?lo_le, ?lo_eq, ?hi_lt, ?hi_le, ?hi_eq, ?lohi_lt in *.

  Lemma start_sim a a' b b' : Rr a a' -> Rr b b' -> cmpi_start cmp a b = cmp_start cmp' a' b'.
  Proof.
    intros [H1 _] [H2 _]. unfold cmpi_start, cmp_start.
    rewrite <- (cut_lo _ _ _ _ _ HC). apply cmp_compat; assumption.
  Qed.
  Lemma end_sim a a' b b' : Rr a a' -> Rr b b' -> cmpi_end cmp a b = cmp_end cmp' a' b'.
  Proof.
    intros [_ H1] [_ H2]. unfold cmpi_end, cmp_end.
    rewrite <- (cut_hi _ _ _ _ _ HC). apply cmp_compat; assumption.
  Qed.
  Lemma start_lt_sim a a' b b' : Rr a a' -> Rr b b' ->
    ltb cmp (ri_start a) (ri_start b) = ltb cmp' (r_start a') (r_start b').
  Proof. intros [H1 _] [H2 _]. rewrite lo_lt. ord. Qed.
  Lemma end_lt_sim a a' b b' : Rr a a' -> Rr b b' ->
    ltb cmp (ri_end a) (ri_end b) = ltb cmp' (r_end a') (r_end b').
  Proof. intros [_ H1] [_ H2]. rewrite hi_lt. ord. Qed.
  Lemma start_end_sim a a' b b' : Rr a a' -> Rr b b' ->
    leb cmp (ri_start a) (ri_end b) = ltb cmp' (r_start a') (r_end b').
  Proof. intros [H1 _] [_ H2]. rewrite lohi_lt. ord. Qed.
  Lemma end_start_sim a a' b b' : Rr a a' -> Rr b b' ->
    ltb cmp (ri_end a) (ri_start b) = leb cmp' (r_end a') (r_start b').
  Proof. intros [_ H1] [H2 _]. rewrite lohi_le. ord. Qed.

  Lemma join_sim a a' b b' : Rr a a' -> Rr b b' ->
    Rn (incl (kmin cmp (ri_start a) (ri_start b)) (kmax cmp (ri_end a) (ri_end b)))
       (mkR (kmin cmp' (r_start a') (r_start b')) (kmax cmp' (r_end a') (r_end b'))).
  Proof.
    intros Ha Hb. split; [|reflexivity]. unfold Rr, kmin, kmax. cbn.
    rewrite (start_lt_sim b b' a a' Hb Ha), (end_lt_sim b b' a a' Hb Ha).
    destruct Ha, Hb. split.
    - destruct (ltb cmp' (r_start b') (r_start a')); assumption.
    - destruct (ltb cmp' (r_end b') (r_end a')); assumption.
  Qed.
  Lemma overlaps_sim a a' b b' : Rr a a' -> Rr b b' -> ri_overlaps cmp a b = r_overlaps cmp' a' b'.
  Proof.
    intros Ha Hb. unfold ri_overlaps, r_overlaps, kmax, kmin.
    rewrite (start_lt_sim b b' a a' Hb Ha), (end_lt_sim b b' a a' Hb Ha).
    destruct (ltb cmp' (r_start b') (r_start a')), (ltb cmp' (r_end b') (r_end a'));
      apply start_end_sim; assumption.
  Qed.
  Lemma touches_sim a a' b b' : Rr a a' -> Rr b b' ->
    ri_touches cmp st a b = Ret (r_touches cmp' a' b').
  Proof.
    intros Ha Hb. unfold ri_touches, r_touches, kmax, kmin.
    rewrite (start_lt_sim b b' a a' Hb Ha), (end_lt_sim b b' a a' Hb Ha).
    set (ms := if ltb cmp' (r_start b') (r_start a') then ri_start a else ri_start b).
    set (ms' := if ltb cmp' (r_start b') (r_start a') then r_start a' else r_start b').
    set (me := if ltb cmp' (r_end b') (r_end a') then ri_end b else ri_end a).
    set (me' := if ltb cmp' (r_end b') (r_end a') then r_end b' else r_end a').
    assert (H1 : cmp' (lo ms) ms' = Eq).
    { unfold ms, ms'. destruct (ltb cmp' (r_start b') (r_start a')); [apply Ha|apply Hb]. }
    assert (H2 : cmp' (hi me) me' = Eq).
    { unfold me, me'. destruct (ltb cmp' (r_end b') (r_end a')); [apply Hb|apply Ha]. }
    clearbody ms ms' me me'. clear Ha Hb.
    destruct (ltb cmp me ms) eqn:E.
    - destruct (cut_succ _ _ _ _ _ HC me ms E) as (s & Hs & H3 & H4). rewrite Hs. cbn.
      rewrite lo_le. f_equal. ord.
    - cbn. rewrite lo_le. f_equal.
      assert (E2 : leb cmp ms me = true).
      { rewrite lo_lt in E. rewrite lo_le. ord. }
      pose proof E2 as E3. rewrite lohi_lt in E2. rewrite lo_le in E3. rewrite E3. ord.
  Qed.
  Lemma contains_sim r r' k : Rn r r' -> ri_contains cmp r k = r_contains cmp' r' (lo k).
  Proof.
    intros [[H1 H2] H3]. unfold ri_contains, r_contains. rewrite H3, (lo_le (ri_start r) k), (lohi_lt k (ri_end r)). ord.
  Qed.

  (** ** [BTreeMap] operations *)
  Lemma bt_insert_sim k k' v m m' : Rn k k' -> Rm m m' ->
    Rm (bt_insert (cmpi_start cmp) k v m) (bt_insert (cmp_start cmp') k' v m').
  Proof.
    intros Hk Hm. induction Hm as [|[a x] [a' x'] m m' He Hm IH]; cbn.
    - repeat constructor; apply Hk.
    - destruct He as [He Hx]. cbn in He, Hx. subst x'.
      rewrite (start_sim k k' a a' (proj1 Hk) (proj1 He)).
      destruct (cmp_start cmp' k' a').
      + constructor; [split; [exact He|reflexivity]|exact Hm].
      + constructor; [split; [exact Hk|reflexivity]|].
        constructor; [split; [exact He|reflexivity]|exact Hm].
      + constructor; [split; [exact He|reflexivity]|exact IH].
  Qed.
  Lemma bt_remove_sim k k' m m' : Rr k k' -> Rm m m' ->
    Rm (bt_remove (cmpi_start cmp) k m) (bt_remove (cmp_start cmp') k' m').
  Proof.
    intros Hk Hm. induction Hm as [|[a x] [a' x'] m m' He Hm IH]; cbn; [constructor|].
    destruct He as [He Hx]. cbn in He, Hx. subst x'.
    rewrite (start_sim k k' a a' Hk (proj1 He)).
    destruct (cmp_start cmp' k' a'); [exact Hm| |].
    - constructor; [split; [exact He|reflexivity]|exact Hm].
    - constructor; [split; [exact He|reflexivity]|exact IH].
  Qed.
  Lemma take_while_sim p p' m m' : Rm m m' ->
    (forall e e', In e' m' -> Re e e' -> p e = p' e') -> Rm (take_while p m) (take_while p' m').
  Proof.
    intros Hm. induction Hm as [|a a' m m' He Hm IH]; intros Hp; cbn; [constructor|].
    rewrite (Hp a a' (or_introl eq_refl) He). destruct (p' a'); [|constructor].
    constructor; [exact He|]. apply IH. intros e e' Hin. apply Hp. right; exact Hin.
  Qed.
  Lemma drop_while_sim p p' m m' : Rm m m' ->
    (forall e e', In e' m' -> Re e e' -> p e = p' e') -> Rm (drop_while p m) (drop_while p' m').
  Proof.
    intros Hm. induction Hm as [|a a' m m' He Hm IH]; intros Hp; cbn; [constructor|].
    rewrite (Hp a a' (or_introl eq_refl) He). destruct (p' a'); [|constructor; assumption].
    apply IH. intros e e' Hin. apply Hp. right; exact Hin.
  Qed.
  (** general form: any two bounds pairs cutting related entries alike *)
  Lemma bt_range_sim c c' l h l' h' m m' : Rm m m' ->
    bad_bounds c l h = bad_bounds c' l' h' ->
    (forall e e', Re e e' -> below c l (fst e) = below c' l' (fst e')) ->
    (forall e e', Re e e' -> above c h (fst e) = above c' h' (fst e')) ->
    osim Rm (bt_range c l h m) (bt_range c' l' h' m').
  Proof.
    intros Hm Hb Hl Hh. unfold bt_range. rewrite Hb. destruct (bad_bounds c' l' h'); [reflexivity|].
    cbn. apply take_while_sim; [apply drop_while_sim; auto|].
    intros e e' _ He. rewrite (Hh e e' He). reflexivity.
  Qed.
  Lemma rev_sim m m' : Rm m m' -> Rm (rev m) (rev m').
  Proof.
    intros Hm. induction Hm; cbn; [constructor|].
    apply Forall2_app; [assumption|repeat constructor]; apply H.
  Qed.
  Lemma firstn_sim n : forall m m', Rm m m' -> Rm (firstn n m) (firstn n m').
  Proof.
    induction n as [|n IH]; intros m m' Hm; cbn; [constructor|].
    destruct Hm; constructor; auto. apply IH; assumption.
  Qed.
  Lemma len_sim m m' : Rm m m' -> length m = length m'.
  Proof. intros H. induction H; cbn; congruence. Qed.
  Definition oe (o : option (rangei K * V)) (o' : option (range K' * V)) : Prop :=
    match o, o' with Some e, Some e' => Re e e' | None, None => True | _, _ => False end.
  Lemma next_sim m m' : Rm m m' -> oe (fst (it_next m)) (fst (it_next m')) /\
    Rm (snd (it_next m)) (snd (it_next m')).
  Proof. intros Hm. destruct Hm; cbn; auto. split; [exact I|constructor]. Qed.
  Lemma next_back_sim m m' : Rm m m' -> oe (fst (it_next_back m)) (fst (it_next_back m')) /\
    Rm (snd (it_next_back m)) (snd (it_next_back m')).
  Proof.
    intros Hm. unfold it_next_back. pose proof (rev_sim m m' Hm) as Hr.
    destruct Hr as [|e e' l l' He Hl]; cbn; [split; [exact I|constructor]|].
    split; [exact He|apply rev_sim; exact Hl].
  Qed.

  (** ** Updates *)
  Lemma piece_left_sim s s' v r r' : Rr s s' -> Rr r r' ->
    ltb cmp (ri_start s) (ri_start r) = true ->
    msim U (bind (lift (step_o (sub_one st (ri_start r)))) (fun p =>
              modify (bt_insert (cmpi_start cmp) (incl (ri_start s) p) v)))
           (modify (bt_insert (cmp_start cmp') (mkR (r_start s') (r_start r')) v)).
  Proof.
    intros Hs Hr E. destruct (cut_pred _ _ _ _ _ HC _ _ E) as (p & Hp & H1). rewrite Hp. cbn.
    intros m m' Hm. cbn. split; [exact I|]. apply bt_insert_sim; [|exact Hm].
    destruct Hs as [S1 S2], Hr as [R1 R2]. split; [split; cbn; [exact S1|ord]|reflexivity].
  Qed.
  Lemma piece_right_sim s s' v r r' : Rr s s' -> Rr r r' ->
    gtb cmp (ri_end s) (ri_end r) = true ->
    msim U (bind (lift (step_o (add_one st (ri_end r)))) (fun p =>
              modify (bt_insert (cmpi_start cmp) (incl p (ri_end s)) v)))
           (modify (bt_insert (cmp_start cmp') (mkR (r_end r') (r_end s')) v)).
  Proof.
    intros Hs Hr E. destruct (cut_succ _ _ _ _ _ HC _ _ E) as (p & Hp & H1 & _). rewrite Hp. cbn.
    intros m m' Hm. cbn. split; [exact I|]. apply bt_insert_sim; [|exact Hm].
    destruct Hs as [S1 S2], Hr as [R1 R2]. split; [split; cbn; [ord|exact S2]|reflexivity].
  Qed.

  Lemma adjust_insert_sim s s' sv r r' v : Rn s s' -> Rn r r' ->
    msim Rn (im_adjust_touching_ranges_for_insert cmp veqb st s sv r v)
            (rm_adjust_touching_ranges_for_insert cmp' veqb s' sv r' v).
  Proof.
    intros Hs Hr.
    unfold im_adjust_touching_ranges_for_insert, rm_adjust_touching_ranges_for_insert.
    apply sim_if; [reflexivity| |]; intros Ev.
    - eapply sim_bind; [apply sim_modify; intros; apply bt_remove_sim; [apply Hs|assumption]|].
      intros _ _ _. apply sim_ret. apply join_sim; [apply Hr|apply Hs].
    - apply sim_if; [apply overlaps_sim; [apply Hr|apply Hs]| |]; intros Eo.
      + eapply sim_bind; [apply sim_modify; intros; apply bt_remove_sim; [apply Hs|assumption]|].
        intros _ _ _. eapply sim_bind.
        { apply sim_if; [apply start_lt_sim; [apply Hs|apply Hr]| |]; intros E.
          - apply piece_left_sim; [apply Hs|apply Hr|exact E].
          - apply sim_ret. exact I. }
        intros _ _ _. eapply sim_bind.
        { apply sim_if; [apply end_lt_sim; [apply Hr|apply Hs]| |]; intros E.
          - apply piece_right_sim; [apply Hs|apply Hr|exact E].
          - apply sim_ret. exact I. }
        intros _ _ _. apply sim_ret. exact Hr.
      + apply sim_ret. exact Hr.
  Qed.
  Lemma adjust_remove_sim s s' sv r r' : Rr s s' -> Rr r r' ->
    msim U (im_adjust_overlapping_ranges_for_remove cmp st s sv r)
           (rm_adjust_overlapping_ranges_for_remove cmp' s' sv r').
  Proof.
    intros Hs Hr.
    unfold im_adjust_overlapping_ranges_for_remove, rm_adjust_overlapping_ranges_for_remove.
    eapply sim_bind; [apply sim_modify; intros; apply bt_remove_sim; [apply Hs|assumption]|].
    intros _ _ _. eapply sim_bind.
    { apply sim_if; [apply start_lt_sim; [apply Hs|apply Hr]| |]; intros E.
      - apply piece_left_sim; [apply Hs|apply Hr|exact E].
      - apply sim_ret. exact I. }
    intros _ _ _. apply sim_if; [apply end_lt_sim; [apply Hr|apply Hs]| |]; intros E.
    - apply piece_right_sim; [apply Hs|apply Hr|exact E].
    - apply sim_ret. exact I.
  Qed.

  Lemma before_sim r r' m m' : Rr r r' -> Rm m m' ->
    osim Rm (bt_range (cmpi_start cmp) Unbounded (Included r) m)
            (bt_range (cmp_start cmp') Unbounded (Included r') m').
  Proof.
    intros Hr Hm. apply bt_range_sim; auto.
    intros e e' He. cbn. rewrite (start_sim _ _ r r' (proj1 (proj1 He)) Hr). reflexivity.
  Qed.

  (** [remove] *)
  Lemma remove_loop_sim fuel r r' : Rr r r' -> ltb cmp' (r_start r') (r_end r') = true ->
    msim U (im_remove_loop cmp st fuel r (incl (ri_end r) (ri_end r)))
           (rm_remove_loop cmp' fuel r' (mkR (r_end r') (r_end r'))).
  Proof.
    intros Hr Hv. induction fuel as [|fuel IH]; cbn [im_remove_loop rm_remove_loop].
    { intros m m' Hm. split; [exact I|exact Hm]. }
    eapply sim_bind; [apply sim_get|]. intros m m' Hm.
    eapply (sim_bind Rm).
    - apply sim_lift. apply bt_range_sim; [exact Hm| | |].
      + cbn. unfold cmpi_start, cmp_start. cbn.
        assert (E : leb cmp (ri_start r) (ri_end r) = true)
          by (rewrite (start_end_sim r r' r r' Hr Hr); exact Hv).
        unfold leb in E. unfold ltb in Hv.
        destruct (cmp (ri_start r) (ri_end r)), (cmp' (r_start r') (r_end r')); congruence.
      + intros e e' He. cbn. rewrite (start_sim _ _ r r' (proj1 (proj1 He)) Hr). reflexivity.
      + intros e e' He. cbn. unfold cmpi_start, cmp_start. cbn.
        pose proof (start_end_sim _ _ r r' (proj1 (proj1 He)) Hr) as E.
        unfold leb, ltb in E.
        destruct (cmp (ri_start (fst e)) (ri_end r)), (cmp' (r_start (fst e')) (r_end r')); congruence.
    - intros l l' Hl. destruct (next_sim l l' Hl) as [Hn _].
      destruct (fst (it_next l)) as [[s sv]|], (fst (it_next l')) as [[s' sv']|]; cbn in Hn;
        try contradiction.
      + destruct Hn as [Hn1 Hn2]. cbn in Hn1, Hn2. subst sv'.
        eapply sim_bind; [apply adjust_remove_sim; [apply Hn1|exact Hr]|]. intros _ _ _. exact IH.
      + apply sim_ret. exact I.
  Qed.
  Lemma last_sim m m' : Rm m m' -> oe (last_opt m) (last_opt m').
  Proof. intros Hm. apply (next_back_sim m m' Hm). Qed.

  Lemma remove_sim r r' : Rr r r' -> msim U (im_remove cmp st r) (rm_remove cmp' r').
  Proof.
    intros Hr. unfold im_remove, rm_remove.
    pose proof (start_end_sim r r' r r' Hr Hr) as E. unfold assert_. rewrite E.
    destruct (ltb cmp' (r_start r') (r_end r')) eqn:Hv.
    2:{ intros m m' Hm. split; [reflexivity|exact Hm]. }
    eapply (sim_bind U); [apply sim_ret; exact I|]. intros _ _ _.
    eapply sim_bind; [apply sim_get|]. intros m m' Hm.
    eapply (sim_bind Rm); [apply sim_lift, before_sim; assumption|]. intros l l' Hl.
    eapply (sim_bind U).
    { pose proof (last_sim l l' Hl) as Hn.
      destruct (last_opt l) as [[s sv]|], (last_opt l') as [[s' sv']|]; cbn in Hn; try contradiction.
      - destruct Hn as [Hn1 Hn2]. cbn in Hn1, Hn2. subst sv'.
        apply sim_if; [apply overlaps_sim; [apply Hn1|exact Hr]| |]; intros _.
        + apply adjust_remove_sim; [apply Hn1|exact Hr].
        + apply sim_ret. exact I.
      - apply sim_ret. exact I. }
    intros _ _ _. eapply sim_bind; [apply sim_get|]. intros m1 m1' Hm1.
    rewrite (len_sim m1 m1' Hm1). apply remove_loop_sim; assumption.
  Qed.

  (** [insert]: needs the invariant on the half-open side, because the two
      loops test different things once the new range has grown *)
  Lemma cands_sim r r' l l' : Rr r r' -> Rm l l' ->
    osim Rm (filter_o (fun e => ri_touches cmp st (fst e) r) l)
            (Ret (filter (fun e => r_touches cmp' (fst e) r') l')).
  Proof.
    intros Hr Hl. induction Hl as [|e e' l l' He Hl IH]; cbn; [constructor|].
    rewrite (touches_sim _ _ r r' (proj1 (proj1 He)) Hr). cbn.
    destruct (filter_o _ l) as [x| |]; cbn in IH; try contradiction. cbn.
    destruct (r_touches cmp' (fst e') r'); [constructor; assumption|exact IH].
  Qed.

  Lemma range_from_split (A B : rmap K' V) x :
    (forall a, In a A -> ltb cmp' (r_start (fst a)) (r_start x) = true) ->
    (forall b, In b B -> leb cmp' (r_start x) (r_start (fst b)) = true) ->
    bt_range (cmp_start cmp') (Included x) Unbounded (A ++ B) = Ret B.
  Proof.
    intros HA HB. unfold bt_range. cbn [bad_bounds]. f_equal.
    rewrite take_while_all by reflexivity. rewrite drop_while_app, drop_while_none; [reflexivity| |].
    - intros b Hb. specialize (HB b Hb). cbn. unfold cmp_start.
      destruct (cmp' (r_start (fst b)) (r_start x)) eqn:E; auto. ord.
    - intros a Ha. specialize (HA a Ha). cbn. unfold cmp_start.
      destruct (cmp' (r_start (fst a)) (r_start x)) eqn:E; auto; ord.
  Qed.

  (** what one adjustment in the half-open loop does *)
  Lemma adjust_shape {veq0 : V -> V -> bool} v end0 A b bv T new' :
    WFq veq0 ((b, bv) :: T) ->
    (forall a, In a A -> ltb cmp' (r_start (fst a)) (r_start new') = true) ->
    starts_from (cmp := cmp') ((b, bv) :: T) (r_start new') ->
    leb cmp' (r_start new') (r_start end0) = true ->
    (eqb cmp' (r_start end0) (r_end new') = true \/
     (ltb cmp' (r_start end0) (r_end new') = true /\
      forall x, In x ((b, bv) :: T) -> leb cmp' (r_end new') (r_start (fst x)) = true)) ->
    leb cmp' (r_start b) (r_start end0) = true ->
    eqb cmp' (r_start b) (r_end new') && negb (veqb bv v) = false ->
    exists new1 B1,
    rm_adjust_touching_ranges_for_insert cmp' veqb b bv new' v (A ++ (b, bv) :: T) = (Ret new1, A ++ B1) /\
    WFq veq0 B1 /\ r_start new1 = r_start new' /\ starts_from (cmp := cmp') B1 (r_start new') /\
    (eqb cmp' (r_start end0) (r_end new1) = true \/
     (ltb cmp' (r_start end0) (r_end new1) = true /\
      forall t, In t B1 -> leb cmp' (r_end new1) (r_start (fst t)) = true)).
  Proof.
    intros HW HA HB Hle Hi Ele Ebrk.
    assert (Hsb : leb cmp' (r_start new') (r_start b) = true) by (apply (HB (b, bv)); left; reflexivity).
    pose proof HW as HW0. apply WF_cons in HW0 as (Hb & HWT & HbT). cbn in Hb.
    assert (HAb : forall a, In a A -> ltb cmp' (r_start (fst a)) (r_start b) = true).
    { intros a Ha. specialize (HA a Ha). ord. }
    assert (HTs : starts_from (cmp := cmp') T (r_start new'))
        by (intros t Ht; apply HB; right; exact Ht).
      unfold rm_adjust_touching_ranges_for_insert. destruct (veqb bv v) eqn:Ev.
      - unfold bind, modify, ret. rewrite (bt_remove_split' HO) by exact HAb.
        eexists. exists T. split; [reflexivity|]. cbn [r_start r_end].
        assert (Es : kmin cmp' (r_start new') (r_start b) = r_start new').
        { unfold kmin. destruct (ltb cmp' (r_start b) (r_start new')) eqn:E; [exfalso; ord|reflexivity]. }
        rewrite Es. splits; auto. unfold kmax.
        destruct (ltb cmp' (r_end b) (r_end new')) eqn:E.
        + destruct Hi as [Hi|[Hi1 Hi2]]; [left; exact Hi|]. exfalso.
          specialize (Hi2 (b, bv) (or_introl eq_refl)). cbn in Hi2. ord.
        + destruct Hi as [Hi|[Hi1 Hi2]].
          * destruct (eqb cmp' (r_start end0) (r_end b)) eqn:E3; [left; reflexivity|right].
            split; [ord|]. intros t Ht. apply (HbT t Ht).
          * exfalso. specialize (Hi2 (b, bv) (or_introl eq_refl)). cbn in Hi2. ord.
      - rewrite andb_true_r in Ebrk.
        assert (Hend : eqb cmp' (r_start end0) (r_end new') = true).
        { destruct Hi as [Hi|[Hi1 Hi2]]; [exact Hi|]. exfalso.
          specialize (Hi2 (b, bv) (or_introl eq_refl)). cbn in Hi2. ord. }
        assert (Eov : r_overlaps cmp' new' b = true).
        { unfold r_overlaps, kmax, kmin.
          destruct (ltb cmp' (r_start b) (r_start new')) eqn:X1;
            destruct (ltb cmp' (r_end b) (r_end new')) eqn:X2; ord. }
        rewrite Eov. unfold bind at 1, modify at 1. rewrite (bt_remove_split' HO) by exact HAb.
        assert (E3 : ltb cmp' (r_start b) (r_start new') = false) by ord. rewrite E3.
        unfold bind at 1, ret at 1. unfold gtb.
        destruct (ltb cmp' (r_end new') (r_end b)) eqn:E4.
        + unfold bind at 1, modify at 1, ret at 1. rewrite (bt_insert_split HO A T); cbn [r_start].
          2:{ intros a Ha. specialize (HAb a Ha). ord. }
          2:{ intros t Ht. destruct (HbT t Ht) as [H1 _]. cbn in H1. ord. }
          exists new', ((mkR (r_end new') (r_end b), bv) :: T). splits; auto.
          * apply WF_cons. splits; auto.
          * intros t [<-|Ht]; [cbn; ord|auto].
        + unfold bind at 1, ret at 1, ret at 1. exists new', T. splits; auto.
  Qed.

  Lemma insert_loop_sim {veq0 : V -> V -> bool} v e0 end0 : cmp' (hi (ri_start e0)) (r_start end0) = Eq ->
    forall fuel A B m new new',
    Rn new new' -> Rm m (A ++ B) -> WFq veq0 B ->
    (forall a, In a A -> ltb cmp' (r_start (fst a)) (r_start new') = true) ->
    starts_from (cmp := cmp') B (r_start new') ->
    leb cmp' (r_start new') (r_start end0) = true ->
    (eqb cmp' (r_start end0) (r_end new') = true \/
     (ltb cmp' (r_start end0) (r_end new') = true /\
      forall b, In b B -> leb cmp' (r_end new') (r_start (fst b)) = true)) ->
    res Rn (im_insert_loop cmp veqb st fuel new v e0 m)
           (rm_insert_loop cmp' veqb fuel new' v end0 (A ++ B)).
  Proof.
    intros He0. induction fuel as [|fuel IH]; intros A B m new new' Hn Hm HW HA HB Hle Hi.
    { split; [exact I|exact Hm]. }
    cbn [im_insert_loop rm_insert_loop]. unfold bind at 1, get at 1, bind at 1, lift at 1.
    unfold bind at 3, get at 1, bind at 3, lift at 2.
    rewrite (range_incl HO A B new' end0 HA HB Hle).
    assert (HR : osim Rm (bt_range (cmpi_start cmp) (Included new) Unbounded m)
                   (bt_range (cmp_start cmp') (Included new') Unbounded (A ++ B))).
    { apply bt_range_sim; [exact Hm|reflexivity| |reflexivity].
      intros e e' He. cbn. rewrite (start_sim _ _ new new' (proj1 (proj1 He)) (proj1 Hn)). reflexivity. }
    rewrite (range_from_split A B new' HA HB) in HR.
    destruct (bt_range (cmpi_start cmp) (Included new) Unbounded m) as [l| |]; cbn in HR;
      try contradiction.
    destruct B as [|[b bv] T].
    { inversion HR; subst. split; [exact Hn|exact Hm]. }
    inversion HR as [|[x xv] [b0 bv0] l0 T0 [Hx Hxv] Hl]; subst. cbn in Hx, Hxv. subst xv.
    cbn [it_next fst take_while].
    assert (Hsb : leb cmp' (r_start new') (r_start b) = true) by (apply (HB (b, bv)); left; reflexivity).
    (* the break condition of the inclusive loop *)
    assert (Hbrk : (if gtb cmp (ri_start x) (ri_start e0)
                    then omap (fun latest => gtb cmp (ri_start x) latest
                                 || (eqb cmp (ri_start x) latest && negb (veqb bv v)))
                              (step_o (add_one st (ri_start e0)))
                    else Ret false) =
                   Ret (ltb cmp' (r_start end0) (r_start b)
                        || (eqb cmp' (r_start b) (r_start end0) && negb (veqb bv v)))).
    { destruct Hx as [[X1 X2] _]. unfold gtb. destruct (ltb cmp (ri_start e0) (ri_start x)) eqn:E.
      - destruct (cut_succ _ _ _ _ _ HC _ _ E) as (s & Hs & H1 & H2). rewrite Hs. cbn.
        rewrite lo_lt, lo_eq. f_equal.
        assert (E1 : ltb cmp' (lo s) (lo (ri_start x)) = ltb cmp' (r_start end0) (r_start b)) by ord.
        assert (E2 : eqb cmp' (lo (ri_start x)) (lo s) = eqb cmp' (r_start b) (r_start end0)) by ord.
        rewrite E1, E2. reflexivity.
      - rewrite lohi_le in E. f_equal.
        assert (E1 : ltb cmp' (r_start end0) (r_start b) = false) by ord.
        assert (E2 : eqb cmp' (r_start b) (r_start end0) = false) by ord.
        rewrite E1, E2. reflexivity. }
    unfold bind at 1, lift at 1. rewrite Hbrk. clear Hbrk.
    destruct (leb cmp' (r_start b) (r_start end0)) eqn:Ele.
    2:{ assert (E1 : ltb cmp' (r_start end0) (r_start b) = true) by ord. rewrite E1. cbn.
        split; [exact Hn|exact Hm]. }
    assert (E1 : ltb cmp' (r_start end0) (r_start b) = false) by ord. rewrite E1. cbn [orb it_next fst].
    assert (E2 : eqb cmp' (r_start b) (r_start end0) = eqb cmp' (r_start b) (r_end new')).
    { destruct Hi as [Hi|[Hi1 Hi2]]; [ord|].
      specialize (Hi2 (b, bv) (or_introl eq_refl)). cbn in Hi2. exfalso. ord. }
    rewrite E2. destruct (eqb cmp' (r_start b) (r_end new') && negb (veqb bv v)) eqn:Ebrk.
    { cbn. split; [exact Hn|exact Hm]. }
    (* one step of adjustment, simulated *)
    destruct (adjust_insert_sim x b bv new new' v Hx Hn m (A ++ (b, bv) :: T) Hm) as [S1 S2].
    unfold bind at 1. unfold bind at 1.
    destruct (adjust_shape v end0 A b bv T new' HW HA HB Hle Hi Ele Ebrk)
      as (new1 & B1 & Q1 & Q2 & Q3 & Q4 & Q5).
    rewrite Q1 in *. cbn [fst snd] in S1, S2.
    destruct (im_adjust_touching_ranges_for_insert cmp veqb st x bv new v m) as [[n1| |] m1];
      cbn in S1, S2; try contradiction.
    apply IH; auto; rewrite ?Q3; auto.
  Qed.

  Lemma bind_Ret {S A B} (c : M S A) (f : A -> M S B) s a s' : c s = (Ret a, s') -> bind c f s = f a s'.
  Proof. intros H. unfold bind. rewrite H. reflexivity. Qed.

  Lemma insert_any_sim r r' v m m' : Rn r r' -> Rm m m' -> WW m' ->
    res U (im_insert cmp veqb st r v m) (rm_insert cmp' veqb r' v m').
  Proof.
    intros Hr Hm HW. unfold im_insert, rm_insert.
    pose proof (start_end_sim r r' r r' (proj1 Hr) (proj1 Hr)) as E. unfold assert_. rewrite E.
    destruct (ltb cmp' (r_start r') (r_end r')) eqn:Hv.
    2:{ split; [reflexivity|exact Hm]. }
    destruct (phase1_any HO (veqb := veqb) m' r' v HW Hv) as (L & HR & n1' & A & B & H1 & H2).
    destruct H2 as (P1 & P2 & P3 & P4 & P5 & _).
    rewrite (bind_Ret (ret tt) _ m tt m eq_refl), (bind_Ret (ret tt) _ m' tt m' eq_refl).
    rewrite (bind_Ret get _ m m m eq_refl), (bind_Ret get _ m' m' m' eq_refl).
    pose proof (before_sim r r' m m' (proj1 Hr) Hm) as Hb. rewrite HR in Hb. rewrite HR.
    destruct (bt_range (cmpi_start cmp) Unbounded (Included r) m) as [l| |]; cbn in Hb; try contradiction.
    rewrite (bind_Ret (lift (Ret l)) _ m l m eq_refl), (bind_Ret (lift (Ret L)) _ m' L m' eq_refl).
    pose proof (cands_sim r r' _ _ (proj1 Hr) (firstn_sim 2 _ _ (rev_sim l L Hb))) as Hc.
    destruct (filter_o (fun e => ri_touches cmp st (fst e) r) (firstn 2 (rev l))) as [c| |];
      unfold osim in Hc; try contradiction.
    rewrite (bind_Ret (lift (Ret c)) _ m c m eq_refl).
    assert (Hadj : msim Rn
      match c with
      | [] => ret r
      | [(s, sv)] => im_adjust_touching_ranges_for_insert cmp veqb st s sv r v
      | _ :: (s, sv) :: _ => im_adjust_touching_ranges_for_insert cmp veqb st s sv r v
      end
      match filter (fun e => r_touches cmp' (fst e) r') (firstn 2 (rev L)) with
      | [] => ret r'
      | [(s, sv)] => rm_adjust_touching_ranges_for_insert cmp' veqb s sv r' v
      | _ :: (s, sv) :: _ => rm_adjust_touching_ranges_for_insert cmp' veqb s sv r' v
      end).
    { destruct Hc as [|[s sv] [s' sv'] c c' [Hs Hsv] Hc]; [apply sim_ret; exact Hr|].
      cbn in Hs, Hsv. subst sv'.
      destruct Hc as [|[t tv] [t' tv'] c c' [Ht Htv] Hc]; [apply adjust_insert_sim; assumption|].
      cbn in Ht, Htv. subst tv'. apply adjust_insert_sim; assumption. }
    destruct (Hadj m m' Hm) as [S1 S2]. rewrite H1 in S1, S2. cbn [fst snd] in S1, S2.
    rewrite (bind_Ret _ _ m' n1' (A ++ B) H1).
    match type of S1 with osim _ (fst ?X) _ => destruct X as [[n1| |] m1] eqn:H3 end;
      cbn in S1, S2; try contradiction.
    rewrite (bind_Ret _ _ m n1 m1 H3).
    rewrite (bind_Ret get _ m1 m1 m1 eq_refl), (bind_Ret get _ (A ++ B) (A ++ B) (A ++ B) eq_refl).
    rewrite (len_sim _ _ S2).
    apply WF_app in P1 as (W1 & W2 & W3).
    destruct (insert_loop_sim v (incl (ri_end n1) (ri_end n1)) (mkR (r_end n1') (r_end n1'))
                (proj2 (proj1 S1)) (length (A ++ B) + 2) A B m1 n1 n1' S1 S2 W2
                (lefts_lt HO A n1' W1 P2) P3) as [T1 T2].
    { cbn. ord. }
    { left. cbn. ord. }
    unfold bind. 
    destruct (im_insert_loop _ _ _ _ _ _ _ m1) as [[n2| |] m2],
      (rm_insert_loop _ _ _ _ _ _ (A ++ B)) as [[n2'| |] m2']; cbn in T1, T2; try contradiction; try (split; [exact T1|exact T2]).
    split; [exact I|]. apply bt_insert_sim; assumption.
  Qed.

  Lemma WF_WW m : WF m -> WW m.
  Proof.
    intros [H1 H2]. split; [|exact H2]. clear H2.
    induction H1 as [|a l H IH HF]; constructor; auto.
    eapply Forall_impl; [|exact HF]. intros b [Hb _]. split; [exact Hb|reflexivity].
  Qed.
  Lemma insert_sim (HV : PartialEquiv veqb) r r' v m m' : Rn r r' -> Rm m m' -> WF m' ->
    res U (im_insert cmp veqb st r v m) (rm_insert cmp' veqb r' v m').
  Proof. intros H1 H2 H3. apply insert_any_sim; auto using WF_WW. Qed.

  (** ** Histories *)
  Definition encr (r : rangei K) : range K' := mkR (lo (ri_start r)) (hi (ri_end r)).
  Definition ence (e : rangei K * V) : range K' * V := (encr (fst e), snd e).
  Definition enc_op (o : op (rangei K) V) : op (range K') V :=
    match o with
    | OInsert r v => OInsert (encr r) v
    | ORemove r => ORemove (encr r)
    | OClear => OClear
    | OExtend l => OExtend (map ence l)
    end.
  Lemma encr_Rr r : Rr r (encr r).
  Proof. split; apply (ord_refl _ HO). Qed.
  Lemma encr_Rn r : ri_exhausted r = false -> Rn r (encr r).
  Proof. intros H. split; [apply encr_Rr|exact H]. Qed.

  Lemma extend_any_sim l : forall m m', Rm m m' -> WW m' ->
    forallb (fun e => negb (ri_exhausted (fst e))) l = true ->
    res U (im_extend cmp veqb st l m) (rm_extend cmp' veqb (map ence l) m').
  Proof.
    unfold im_extend, rm_extend.
    induction l as [|[r v] l IH]; intros m m' Hm HW Hf; cbn [map for_each ence fst snd].
    - split; [exact I|exact Hm].
    - cbn in Hf. apply andb_prop in Hf as [Hf1 Hf2]. apply negb_true_iff in Hf1.
      destruct (insert_any_sim r (encr r) v m m' (encr_Rn r Hf1) Hm HW) as [S1 S2].
      assert (HW1 : WW (snd (rm_insert cmp' veqb (encr r) v m'))).
      { apply (exec_any HO (OInsert (encr r) v) m' HW). }
      unfold bind at 1. unfold bind at 1.
      destruct (im_insert cmp veqb st r v m) as [[[]| |] m1],
        (rm_insert cmp' veqb (encr r) v m') as [[[]| |] m1']; cbn in S1, S2, HW1; try contradiction.
      + apply IH; assumption.
      + split; assumption.
      + split; assumption.
  Qed.
  Lemma exec_any_sim o m m' : Rm m m' -> WW m' -> fresh_op o = true ->
    res U (im_exec cmp veqb st o m) (rm_exec cmp' veqb (enc_op o) m').
  Proof.
    intros Hm HW Hf. destruct o as [r v|r| |l]; cbn [im_exec rm_exec enc_op].
    - apply insert_any_sim; auto. apply encr_Rn. cbn in Hf. apply negb_true_iff. exact Hf.
    - apply remove_sim; [apply encr_Rr|exact Hm].
    - split; [exact I|constructor].
    - apply extend_any_sim; assumption.
  Qed.
  Lemma run_from_any_sim ops : forall m m', fresh_ops ops -> Rm m m' -> WW m' ->
    Rm (run_ops (im_exec cmp veqb st) ops m) (run_ops (rm_exec cmp' veqb) (map enc_op ops) m') /\
    WW (run_ops (rm_exec cmp' veqb) (map enc_op ops) m').
  Proof.
    unfold fresh_ops. induction ops as [|o ops IH]; intros m m' Hf Hm HW; cbn; [auto|].
    cbn in Hf. apply andb_prop in Hf as [Hf1 Hf2].
    apply IH; [exact Hf2| |].
    - apply exec_any_sim; assumption.
    - apply (exec_any HO); exact HW.
  Qed.
  Lemma run_any_sim ops : fresh_ops ops ->
    Rm (im_run cmp veqb st ops) (rm_run cmp' veqb (map enc_op ops)).
  Proof. intros Hf. apply run_from_any_sim; [exact Hf|constructor|apply WF_nil]. Qed.

  Lemma exec_sim (HV : PartialEquiv veqb) o m m' : Rm m m' -> WF m' -> fresh_op o = true ->
    res U (im_exec cmp veqb st o m) (rm_exec cmp' veqb (enc_op o) m').
  Proof. intros H1 H2 H3. apply exec_any_sim; auto using WF_WW. Qed.
  Lemma run_sim (HV : PartialEquiv veqb) ops : fresh_ops ops ->
    Rm (im_run cmp veqb st ops) (rm_run cmp' veqb (map enc_op ops)).
  Proof. apply run_any_sim. Qed.

  (** the described functions correspond *)
  Lemma valid_sim r : valid_rangei cmp r = valid_range cmp' (encr r).
  Proof.
    unfold valid_rangei, valid_range, encr. cbn [r_start r_end]. rewrite lohi_le. ord.
  Qed.
  Lemma in_sim r k : in_rangei cmp r k = in_range cmp' (encr r) (lo k).
  Proof.
    unfold in_rangei, in_range, encr. cbn [r_start r_end].
    rewrite (lo_lt k (ri_start r)), (lohi_le k (ri_end r)). ord.
  Qed.
  Notation ispec1 := (spec_op (valid_rangei cmp) (in_rangei cmp)).
  Notation rspec1 := (spec_op (valid_range cmp') (in_range cmp')).
  Lemma put_all_sim l : forall (f : K -> option V) (g : K' -> option V),
    (forall k, f k = g (lo k)) ->
    forall k, put_all (valid_rangei cmp) (in_rangei cmp) l f k =
              put_all (valid_range cmp') (in_range cmp') (map ence l) g (lo k).
  Proof.
    induction l as [|[r v] l IH]; intros f g H k; cbn; [apply H|].
    rewrite valid_sim. destruct (valid_range cmp' (encr r)); [|apply H].
    apply IH. intros k'. unfold put. rewrite in_sim, H. reflexivity.
  Qed.
  Lemma spec_op_sim o (f : K -> option V) (g : K' -> option V) : (forall k, f k = g (lo k)) ->
    forall k, ispec1 f o k = rspec1 g (enc_op o) (lo k).
  Proof.
    intros H k. destruct o as [r v|r| |l]; cbn.
    - rewrite valid_sim. destruct (valid_range cmp' (encr r)); [|apply H].
      unfold put. rewrite in_sim, H. reflexivity.
    - rewrite valid_sim. destruct (valid_range cmp' (encr r)); [|apply H].
      unfold del. rewrite in_sim, H. reflexivity.
    - reflexivity.
    - apply put_all_sim. exact H.
  Qed.
  Lemma spec_fold_sim ops : forall (f : K -> option V) (g : K' -> option V), (forall k, f k = g (lo k)) ->
    forall k, fold_left ispec1 ops f k = fold_left rspec1 (map enc_op ops) g (lo k).
  Proof.
    induction ops as [|o ops IH]; intros f g H k; cbn; [apply H|].
    apply IH. intros k'. apply spec_op_sim. exact H.
  Qed.
  Lemma spec_run_sim (ops : list (op (rangei K) V)) k :
    spec_run (valid_rangei cmp) (in_rangei cmp) ops k =
    spec_run (valid_range cmp') (in_range cmp') (map enc_op ops) (lo k).
  Proof. apply spec_fold_sim. reflexivity. Qed.

End Sim.
