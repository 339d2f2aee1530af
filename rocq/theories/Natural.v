(** [RangeMap] observes its keys only through their order and its values only
    through [==]: relabelling both along an embedding commutes with every
    method. *)
From Coq Require Import List Bool.
From Verif Require Import Order Outcome BTree Ranges History Spec MapModel ListLemmas.
Import ListNotations.

Section Natural.
  Context {K K' V V' : Type} {cmp : K -> K -> comparison} {cmp' : K' -> K' -> comparison}.
  Context {veqb : V -> V -> bool} {veqb' : V' -> V' -> bool} (f : K -> K') (g : V -> V').
  Context (Hf : forall a b, cmp' (f a) (f b) = cmp a b).
  Context (Hg : forall a b, veqb' (g a) (g b) = veqb a b).

  Definition fr (r : range K) : range K' := mkR (f (r_start r)) (f (r_end r)).
  Definition fe (e : range K * V) : range K' * V' := (fr (fst e), g (snd e)).
  Definition fop (o : op (range K) V) : op (range K') V' :=
    match o with
    | OInsert r v => OInsert (fr r) (g v)
    | ORemove r => ORemove (fr r)
    | OClear => OClear
    | OExtend l => OExtend (map fe l)
    end.
  Definition fres {A B} (F : A -> B) (x : outcome A * rmap K V) : outcome B * rmap K' V' :=
    (omap F (fst x), map fe (snd x)).
  Definition hom {A B} (F : A -> B) (c : M (rmap K V) A) (c' : M (rmap K' V') B) : Prop :=
    forall m, c' (map fe m) = fres F (c m).
  Notation id := (fun x : unit => x).

  Lemma hom_ret {A B} (F : A -> B) a : hom F (ret a) (ret (F a)).
  Proof. intros m. reflexivity. Qed.
  Lemma hom_bind {A B C D} (F : A -> B) (G : C -> D) c c' h h' :
    hom F c c' -> (forall a, hom G (h a) (h' (F a))) -> hom G (bind c h) (bind c' h').
  Proof.
    intros H1 H2 m. unfold bind. rewrite H1. unfold fres. destruct (c m) as [[a|p|] m1]; cbn; [|reflexivity|reflexivity].
    apply H2.
  Qed.
  Lemma hom_get : hom (map fe) get get.
  Proof. intros m. reflexivity. Qed.
  Lemma hom_modify h h' : (forall m, h' (map fe m) = map fe (h m)) -> hom id (modify h) (modify h').
  Proof. intros H m. unfold modify, fres. cbn. rewrite H. reflexivity. Qed.
  Lemma hom_lift {A B} (F : A -> B) o o' : o' = omap F o -> hom F (lift o) (lift o').
  Proof. intros -> m. reflexivity. Qed.
  Lemma hom_if {A B} (F : A -> B) (b b' : bool) c d c' d' :
    b' = b -> hom F c c' -> hom F d d' -> hom F (if b then c else d) (if b' then c' else d').
  Proof. intros -> H1 H2. destruct b; assumption. Qed.
  Lemma hom_nofuel {A B} (F : A -> B) : hom F nofuel nofuel.
  Proof. intros m. reflexivity. Qed.
  Lemma hom_assert b b' : b' = b -> hom id (assert_ b) (assert_ b').
  Proof. intros ->. destruct b; intros m; reflexivity. Qed.

  (** ** Comparisons *)
  Lemma n_ltb a b : ltb cmp' (f a) (f b) = ltb cmp a b.
  Proof. unfold ltb. rewrite Hf. reflexivity. Qed.
  Lemma n_leb a b : leb cmp' (f a) (f b) = leb cmp a b.
  Proof. unfold leb. rewrite Hf. reflexivity. Qed.
  Lemma n_gtb a b : gtb cmp' (f a) (f b) = gtb cmp a b.
  Proof. apply n_ltb. Qed.
  Lemma n_geb a b : geb cmp' (f a) (f b) = geb cmp a b.
  Proof. apply n_leb. Qed.
  Lemma n_eqb a b : eqb cmp' (f a) (f b) = eqb cmp a b.
  Proof. unfold eqb. rewrite Hf. reflexivity. Qed.
  Lemma n_kmin a b : kmin cmp' (f a) (f b) = f (kmin cmp a b).
  Proof. unfold kmin. rewrite n_ltb. destruct (ltb cmp b a); reflexivity. Qed.
  Lemma n_kmax a b : kmax cmp' (f a) (f b) = f (kmax cmp a b).
  Proof. unfold kmax. rewrite n_ltb. destruct (ltb cmp b a); reflexivity. Qed.
  Lemma n_start a b : cmp_start cmp' (fr a) (fr b) = cmp_start cmp a b.
  Proof. apply Hf. Qed.
  Lemma n_end a b : cmp_end cmp' (fr a) (fr b) = cmp_end cmp a b.
  Proof. apply Hf. Qed.
  Lemma n_contains r k : r_contains cmp' (fr r) (f k) = r_contains cmp r k.
  Proof. unfold r_contains. cbn. rewrite ?n_leb, ?n_ltb, ?n_geb. reflexivity. Qed.
  Lemma n_overlaps a b : r_overlaps cmp' (fr a) (fr b) = r_overlaps cmp a b.
  Proof. unfold r_overlaps. cbn. rewrite ?n_kmin, ?n_kmax, ?n_leb, ?n_ltb, ?n_geb. reflexivity. Qed.
  Lemma n_touches a b : r_touches cmp' (fr a) (fr b) = r_touches cmp a b.
  Proof. unfold r_touches. cbn. rewrite ?n_kmin, ?n_kmax, ?n_leb, ?n_ltb, ?n_geb. reflexivity. Qed.

  (** ** BTreeMap *)
  Lemma n_bt_insert k v m :
    bt_insert (cmp_start cmp') (fr k) (g v) (map fe m) = map fe (bt_insert (cmp_start cmp) k v m).
  Proof.
    induction m as [|[k' v'] m IH]; [reflexivity|]. cbn [map bt_insert fe fst snd]. rewrite n_start.
    destruct (cmp_start cmp k k'); cbn; rewrite ?IH; reflexivity.
  Qed.
  Lemma n_bt_remove k m :
    bt_remove (cmp_start cmp') (fr k) (map fe m) = map fe (bt_remove (cmp_start cmp) k m).
  Proof.
    induction m as [|[k' v'] m IH]; [reflexivity|]. cbn [map bt_remove fe fst snd]. rewrite n_start.
    destruct (cmp_start cmp k k'); cbn; rewrite ?IH; reflexivity.
  Qed.
  Definition fb (b : bound (range K)) : bound (range K') :=
    match b with Unbounded => Unbounded | Included q => Included (fr q) | Excluded q => Excluded (fr q) end.
  Lemma n_take p p' (m : rmap K V) : (forall e, p' (fe e) = p e) ->
    take_while p' (map fe m) = map fe (take_while p m).
  Proof. intros H. induction m as [|e m IH]; [reflexivity|]. cbn. rewrite H, IH. destruct (p e); reflexivity. Qed.
  Lemma n_drop p p' (m : rmap K V) : (forall e, p' (fe e) = p e) ->
    drop_while p' (map fe m) = map fe (drop_while p m).
  Proof. intros H. induction m as [|e m IH]; [reflexivity|]. cbn. rewrite H, IH. destruct (p e); reflexivity. Qed.
  Lemma n_range c c' lo hi m : (forall a b, c' (fr a) (fr b) = c a b) ->
    bt_range c' (fb lo) (fb hi) (map fe m) = omap (map fe) (bt_range c lo hi m).
  Proof.
    intros Hc. unfold bt_range.
    assert (E : bad_bounds c' (fb lo) (fb hi) = bad_bounds c lo hi)
      by (destruct lo, hi; cbn; rewrite ?Hc; reflexivity).
    rewrite E. destruct (bad_bounds c lo hi); [reflexivity|]. cbn. f_equal.
    rewrite (n_drop (fun e => below c lo (fst e)))
      by (intros e; destruct lo; cbn; rewrite ?Hc; reflexivity).
    apply n_take. intros e. destruct hi; cbn; rewrite ?Hc; reflexivity.
  Qed.
  Lemma n_filter p p' (m : rmap K V) : (forall e, p' (fe e) = p e) ->
    filter p' (map fe m) = map fe (filter p m).
  Proof. intros H. induction m as [|e m IH]; [reflexivity|]. cbn. rewrite H, IH. destruct (p e); reflexivity. Qed.
  Lemma n_last (m : rmap K V) : last_opt (map fe m) = option_map fe (last_opt m).
  Proof. unfold last_opt, it_next_back. rewrite <- map_rev. destruct (rev m); reflexivity. Qed.

  (** ** Updates *)
  Lemma hom_insert_piece r v :
    hom id (modify (bt_insert (cmp_start cmp) r v)) (modify (bt_insert (cmp_start cmp') (fr r) (g v))).
  Proof. apply hom_modify. intros m. apply n_bt_insert. Qed.
  Lemma hom_remove_piece r :
    hom id (modify (bt_remove (cmp_start cmp) r)) (modify (bt_remove (cmp_start cmp') (fr r))).
  Proof. apply hom_modify. intros m. apply n_bt_remove. Qed.

  Lemma n_adjust_insert s sv r v :
    hom fr (rm_adjust_touching_ranges_for_insert cmp veqb s sv r v)
           (rm_adjust_touching_ranges_for_insert cmp' veqb' (fr s) (g sv) (fr r) (g v)).
  Proof.
    unfold rm_adjust_touching_ranges_for_insert. apply hom_if; [apply Hg| |].
    - cbn [fr r_start r_end]. rewrite n_kmin, n_kmax.
      eapply hom_bind; [apply hom_remove_piece|]. intros _.
      exact (hom_ret fr (mkR (kmin cmp (r_start r) (r_start s)) (kmax cmp (r_end r) (r_end s)))).
    - apply hom_if; [apply n_overlaps| |apply hom_ret].
      eapply hom_bind; [apply hom_remove_piece|]. intros _.
      eapply hom_bind; [apply hom_if; [apply n_ltb| |apply (hom_ret id tt)]|].
      { exact (hom_insert_piece (mkR (r_start s) (r_start r)) sv). }
      intros _. eapply hom_bind; [apply hom_if; [apply n_gtb| |apply (hom_ret id tt)]|].
      { exact (hom_insert_piece (mkR (r_end r) (r_end s)) sv). }
      intros _. apply hom_ret.
  Qed.
  Lemma n_insert_loop fuel : forall r v e,
    hom fr (rm_insert_loop cmp veqb fuel r v e) (rm_insert_loop cmp' veqb' fuel (fr r) (g v) (fr e)).
  Proof.
    induction fuel as [|fuel IH]; intros r v e; cbn [rm_insert_loop]; [apply hom_nofuel|].
    eapply hom_bind; [apply hom_get|]. intros m.
    eapply hom_bind; [apply hom_lift, (n_range (cmp_start cmp) _ (Included r) (Included e)), n_start|].
    intros [|[s sv] l]; cbn [map it_next fst fe snd]; [apply hom_ret|].
    apply hom_if; [|apply hom_ret|].
    - rewrite Hg. f_equal. apply n_eqb.
    - eapply hom_bind; [apply n_adjust_insert|]. intros new'. apply IH.
  Qed.
  Lemma n_insert r v : hom id (rm_insert cmp veqb r v) (rm_insert cmp' veqb' (fr r) (g v)).
  Proof.
    unfold rm_insert. eapply hom_bind; [apply hom_assert, n_ltb|]. intros _.
    eapply hom_bind; [apply hom_get|]. intros m.
    eapply hom_bind; [apply hom_lift, (n_range (cmp_start cmp) _ Unbounded (Included r)), n_start|].
    intros l. eapply hom_bind.
    - rewrite <- map_rev, firstn_map.
      rewrite (n_filter (fun e => r_touches cmp (fst e) r)) by (intros e; apply n_touches).
      destruct (filter (fun e => r_touches cmp (fst e) r) (firstn 2 (rev l))) as [|[a av] [|[b bv] l']];
        cbn [map fe fst snd]; [apply (hom_ret fr)|apply n_adjust_insert|apply n_adjust_insert].
    - intros new1. eapply hom_bind; [apply hom_get|]. intros m1. rewrite map_length.
      eapply hom_bind; [apply (n_insert_loop _ new1 v (mkR (r_end new1) (r_end new1)))|].
      intros new2. apply hom_insert_piece.
  Qed.
  Lemma n_adjust_remove s sv r :
    hom id (rm_adjust_overlapping_ranges_for_remove cmp s sv r)
           (rm_adjust_overlapping_ranges_for_remove cmp' (fr s) (g sv) (fr r)).
  Proof.
    unfold rm_adjust_overlapping_ranges_for_remove.
    eapply hom_bind; [apply hom_remove_piece|]. intros _.
    eapply hom_bind; [apply hom_if; [apply n_ltb| |apply (hom_ret id tt)]|].
    { exact (hom_insert_piece (mkR (r_start s) (r_start r)) sv). }
    intros _. apply hom_if; [apply n_gtb| |apply (hom_ret id tt)].
    exact (hom_insert_piece (mkR (r_end r) (r_end s)) sv).
  Qed.
  Lemma n_remove_loop fuel : forall r e,
    hom id (rm_remove_loop cmp fuel r e) (rm_remove_loop cmp' fuel (fr r) (fr e)).
  Proof.
    induction fuel as [|fuel IH]; intros r e; cbn [rm_remove_loop]; [apply hom_nofuel|].
    eapply hom_bind; [apply hom_get|]. intros m.
    eapply hom_bind; [apply hom_lift, (n_range (cmp_start cmp) _ (Excluded r) (Excluded e)), n_start|].
    intros [|[s sv] l]; cbn [map it_next fst fe snd]; [apply (hom_ret id tt)|].
    eapply hom_bind; [apply n_adjust_remove|]. intros _. apply IH.
  Qed.
  Lemma n_remove r : hom id (rm_remove cmp r) (rm_remove cmp' (fr r)).
  Proof.
    unfold rm_remove. eapply hom_bind; [apply hom_assert, n_ltb|]. intros _.
    eapply hom_bind; [apply hom_get|]. intros m.
    eapply hom_bind; [apply hom_lift, (n_range (cmp_start cmp) _ Unbounded (Included r)), n_start|].
    intros l. eapply hom_bind.
    - rewrite n_last. destruct (last_opt l) as [[s sv]|]; cbn [option_map fe fst snd]; [|apply (hom_ret id tt)].
      apply hom_if; [apply n_overlaps|apply n_adjust_remove|apply (hom_ret id tt)].
    - intros _. eapply hom_bind; [apply hom_get|]. intros m1. rewrite map_length.
      apply (n_remove_loop _ r (mkR (r_end r) (r_end r))).
  Qed.
  Lemma n_extend l : hom id (rm_extend cmp veqb l) (rm_extend cmp' veqb' (map fe l)).
  Proof.
    unfold rm_extend. induction l as [|e l IH]; cbn [map for_each]; [apply (hom_ret id tt)|].
    eapply hom_bind; [apply n_insert|]. intros _. exact IH.
  Qed.
  Lemma n_exec o : hom id (rm_exec cmp veqb o) (rm_exec cmp' veqb' (fop o)).
  Proof.
    destruct o as [r v|r| |l]; cbn [rm_exec fop].
    - apply n_insert.
    - apply n_remove.
    - apply hom_modify. reflexivity.
    - apply n_extend.
  Qed.
  Lemma n_run ops : rm_run cmp' veqb' (map fop ops) = map fe (rm_run cmp veqb ops).
  Proof.
    unfold rm_run, run_ops. change (@rm_new K' V') with (map fe (@rm_new K V)). generalize (@rm_new K V).
    induction ops as [|o ops IH]; intros m; cbn [map fold_left]; [reflexivity|].
    rewrite n_exec. apply IH.
  Qed.

  (** ** Queries *)
  Lemma n_get_key_value m k :
    rm_get_key_value cmp' (map fe m) (f k) = omap (option_map fe) (rm_get_key_value cmp m k).
  Proof.
    unfold rm_get_key_value.
    pose proof (n_range (cmp_start cmp) (cmp_start cmp') Unbounded (Included (mkR k k)) m n_start) as E.
    cbn [fb] in E. unfold fr at 1 in E. cbn [r_start r_end] in E. rewrite E.
    destruct (bt_range (cmp_start cmp) Unbounded (Included (mkR k k)) m) as [l|p|]; cbn; [|reflexivity|reflexivity].
    rewrite n_last. destruct (last_opt l) as [[s sv]|]; cbn; [|reflexivity]. rewrite n_contains.
    destruct (r_contains cmp s k); reflexivity.
  Qed.
  Lemma n_get m k : rm_get cmp' (map fe m) (f k) = omap (option_map g) (rm_get cmp m k).
  Proof.
    unfold rm_get. rewrite n_get_key_value. destruct (rm_get_key_value cmp m k) as [[[r v]|]|p|]; reflexivity.
  Qed.
  Definition fov (o : overlapping K V) : overlapping K' V' :=
    mkOverlapping (fr (ov_query o)) (map fe (ov_iter o)).
  Lemma n_overlapping m q : rm_overlapping cmp' (map fe m) (fr q) = omap fov (rm_overlapping cmp m q).
  Proof.
    unfold rm_overlapping.
    pose proof (n_range (cmp_end cmp) (cmp_end cmp') (Excluded (mkR (r_start q) (r_start q))) Unbounded m n_end) as E.
    cbn [fb] in E. unfold fr at 1 in E. cbn [r_start r_end] in E. cbn [fr r_start]. rewrite E.
    destruct (bt_range _ _ _ m) as [l|p|]; reflexivity.
  Qed.
  Lemma n_ov_step d o :
    both (ov_next cmp') (ov_next_back cmp') d (fov o) =
    (option_map fe (fst (both (ov_next cmp) (ov_next_back cmp) d o)),
     fov (snd (both (ov_next cmp) (ov_next_back cmp) d o))).
  Proof.
    destruct o as [q l]. destruct d; cbn [both].
    - destruct l as [|[s sv] l]; unfold ov_next; cbn; [reflexivity|]. rewrite n_ltb.
      destruct (ltb cmp (r_start s) (r_end q)); reflexivity.
    - unfold ov_next_back. cbn [fov ov_iter ov_query]. rewrite <- map_rev.
      assert (E : forall rl, ov_back_loop cmp' (fr q) (map fe rl) =
                    (option_map fe (fst (ov_back_loop cmp q rl)), map fe (snd (ov_back_loop cmp q rl)))).
      { induction rl as [|[s sv] rl IH]; [reflexivity|]. cbn. rewrite n_ltb.
        destruct (ltb cmp (r_start s) (r_end q)); [reflexivity|exact IH]. }
      rewrite E. destruct (ov_back_loop cmp q (rev l)) as [x rl]. cbn. unfold fov. cbn. rewrite map_rev. reflexivity.
  Qed.
  Definition fgp (x : gaps K V) : gaps K' V' :=
    mkGaps (f (gp_candidate_start x)) (f (gp_query_end x)) (map fe (gp_iter x)).
  Lemma n_gaps m q : rm_gaps cmp' (map fe m) (fr q) = omap fgp (rm_gaps cmp m q).
  Proof. unfold rm_gaps. rewrite n_overlapping. destruct (rm_overlapping cmp m q); reflexivity. Qed.
  Lemma n_gp_next x : gp_next cmp' (fgp x) = (option_map fr (fst (gp_next cmp x)), fgp (snd (gp_next cmp x))).
  Proof.
    destruct x as [c q l]. unfold gp_next. cbn [fgp gp_candidate_start gp_query_end gp_iter].
    assert (E : forall l c, gp_loop cmp' (f c) (f q) (map fe l) =
      (option_map fr (fst (fst (gp_loop cmp c q l))), f (snd (fst (gp_loop cmp c q l))), map fe (snd (gp_loop cmp c q l)))).
    { clear l c. induction l as [|[o ov] l IH]; intros c; [reflexivity|]. cbn. rewrite n_leb, n_ltb.
      destruct (leb cmp q (r_start o)); [reflexivity|]. destruct (ltb cmp c (r_start o)); [reflexivity|]. apply IH. }
    rewrite E. destruct (gp_loop cmp c q l) as [[[gap|] cand] l']; cbn; [reflexivity|].
    rewrite n_ltb. destruct (ltb cmp cand q); reflexivity.
  Qed.
  Lemma n_eq m1 m2 : rm_eqb cmp' veqb' (map fe m1) (map fe m2) = rm_eqb cmp veqb m1 m2.
  Proof.
    unfold rm_eqb, rm_iter. revert m2. induction m1 as [|[r v] m1 IH]; intros [|[s w] m2]; cbn; try reflexivity.
    rewrite IH, Hg. unfold r_eqb. cbn. rewrite !n_eqb. reflexivity.
  Qed.
End Natural.
