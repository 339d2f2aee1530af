(** [RangeInclusiveMap] touches its keys only through their order and the step
    functions: a map over [K] is followed step by step by the map over [K'],
    unless a step function over [K] panics. *)
From Coq Require Import List Bool.
From Verif Require Import Order Outcome BTree Ranges History Spec MapModel IMapModel ListLemmas IterFacts Natural Cross.
Import ListNotations.

Section INatural.
  Context {K K' V V' : Type} {cmp : K -> K -> comparison} {cmp' : K' -> K' -> comparison}.
  Context {st : stepfns K} {st' : stepfns K'}.
  Context {veqb : V -> V -> bool} {veqb' : V' -> V' -> bool} (f : K -> K') (g : V -> V').
  Context (Hf : forall a b, cmp' (f a) (f b) = cmp a b).
  Context (Hg : forall a b, veqb' (g a) (g b) = veqb a b).
  Context (Hadd : forall a, add_one st a = None \/ add_one st' (f a) = option_map f (add_one st a)).
  Context (Hsub : forall a, sub_one st a = None \/ sub_one st' (f a) = option_map f (sub_one st a)).
  Notation fr := (fri f).
  Notation fe := (fei f g).
  Notation id := (fun x : unit => x).

  (** unless the left side stops in a step function *)
  Definition uo {A B} (F : A -> B) (o : outcome A) (o' : outcome B) : Prop := o = Panicked PStep \/ o' = omap F o.
  Definition hom {A B} (F : A -> B) (c : M (imap K V) A) (c' : M (imap K' V') B) : Prop :=
    forall m, fst (c m) = Panicked PStep \/ c' (map fe m) = (omap F (fst (c m)), map fe (snd (c m))).

  Lemma hom_ret {A B} (F : A -> B) a : hom F (ret a) (ret (F a)).
  Proof. intros m. right. reflexivity. Qed.
  Lemma hom_bind {A B C D} (F : A -> B) (G : C -> D) c c' h h' :
    hom F c c' -> (forall a, hom G (h a) (h' (F a))) -> hom G (bind c h) (bind c' h').
  Proof.
    intros H1 H2 m. unfold bind. destruct (H1 m) as [H|H].
    - destruct (c m) as [o m1]. cbn in H. subst o. left. reflexivity.
    - rewrite H. destruct (c m) as [[a|p|] m1]; cbn; [apply H2|right; reflexivity|right; reflexivity].
  Qed.
  Lemma hom_get : hom (map fe) get get.
  Proof. intros m. right. reflexivity. Qed.
  Lemma hom_modify h h' : (forall m, h' (map fe m) = map fe (h m)) -> hom id (modify h) (modify h').
  Proof. intros H m. right. unfold modify. cbn. rewrite H. reflexivity. Qed.
  Lemma hom_lift {A B} (F : A -> B) o o' : uo F o o' -> hom F (lift o) (lift o').
  Proof. intros [-> | ->] m; [left|right]; reflexivity. Qed.
  Lemma hom_if {A B} (F : A -> B) (b b' : bool) c d c' d' :
    b' = b -> hom F c c' -> hom F d d' -> hom F (if b then c else d) (if b' then c' else d').
  Proof. intros -> H1 H2. destruct b; assumption. Qed.
  Lemma hom_nofuel {A B} (F : A -> B) : hom F nofuel nofuel.
  Proof. intros m. right. reflexivity. Qed.
  Lemma hom_assert b b' : b' = b -> hom id (assert_ b) (assert_ b').
  Proof. intros ->. destruct b; intros m; right; reflexivity. Qed.
  Lemma uo_add a : uo f (step_o (add_one st a)) (step_o (add_one st' (f a))).
  Proof. destruct (Hadd a) as [-> | ->]; [left; reflexivity|right]. destruct (add_one st a); reflexivity. Qed.
  Lemma uo_sub a : uo f (step_o (sub_one st a)) (step_o (sub_one st' (f a))).
  Proof. destruct (Hsub a) as [-> | ->]; [left; reflexivity|right]. destruct (sub_one st a); reflexivity. Qed.
  Lemma uo_map {A B C D} (F : A -> B) (G : C -> D) h h' o o' :
    (forall a, h' (F a) = G (h a)) -> uo F o o' -> uo G (omap h o) (omap h' o').
  Proof. intros H [-> | ->]; [left; reflexivity|right]. destruct o; cbn; rewrite ?H; reflexivity. Qed.

  (** ** Comparisons *)
  Notation n_ltb := (n_ltb f Hf).
  Notation n_leb := (n_leb f Hf).
  Notation n_eqb := (n_eqb f Hf).
  Notation n_kmin := (n_kmin f Hf).
  Notation n_kmax := (n_kmax f Hf).
  Lemma n_gtb a b : gtb cmp' (f a) (f b) = gtb cmp a b.
  Proof. apply n_ltb. Qed.
  Lemma n_istart a b : cmpi_start cmp' (fr a) (fr b) = cmpi_start cmp a b.
  Proof. apply Hf. Qed.
  Lemma n_iend a b : cmpi_end cmp' (fr a) (fr b) = cmpi_end cmp a b.
  Proof. apply Hf. Qed.
  Lemma n_icontains r k : ri_contains cmp' (fr r) (f k) = ri_contains cmp r k.
  Proof. unfold ri_contains. cbn. rewrite ?n_leb, ?n_ltb. reflexivity. Qed.
  Lemma n_ioverlaps a b : ri_overlaps cmp' (fr a) (fr b) = ri_overlaps cmp a b.
  Proof. unfold ri_overlaps. cbn. rewrite ?n_kmin, ?n_kmax, ?n_leb. reflexivity. Qed.
  Lemma n_itouches a b : uo (fun x => x) (ri_touches cmp st a b) (ri_touches cmp' st' (fr a) (fr b)).
  Proof.
    unfold ri_touches. cbn. rewrite n_kmin, n_kmax, n_ltb. destruct (ltb cmp _ _).
    - destruct (uo_add (kmin cmp (ri_end a) (ri_end b))) as [E|E]; rewrite E; [left; reflexivity|right].
      destruct (step_o (add_one st (kmin cmp (ri_end a) (ri_end b)))); cbn; rewrite ?n_leb; reflexivity.
    - right. cbn. rewrite n_leb. reflexivity.
  Qed.

  (** ** BTreeMap *)
  Lemma n_ibt_insert k v m :
    bt_insert (cmpi_start cmp') (fr k) (g v) (map fe m) = map fe (bt_insert (cmpi_start cmp) k v m).
  Proof.
    induction m as [|[k' v'] m IH]; [reflexivity|]. cbn [map bt_insert fei fst snd]. rewrite n_istart.
    destruct (cmpi_start cmp k k'); cbn; rewrite ?IH; reflexivity.
  Qed.
  Lemma n_ibt_remove k m :
    bt_remove (cmpi_start cmp') (fr k) (map fe m) = map fe (bt_remove (cmpi_start cmp) k m).
  Proof.
    induction m as [|[k' v'] m IH]; [reflexivity|]. cbn [map bt_remove fei fst snd]. rewrite n_istart.
    destruct (cmpi_start cmp k k'); cbn; rewrite ?IH; reflexivity.
  Qed.
  Definition fbi (b : bound (rangei K)) : bound (rangei K') :=
    match b with Unbounded => Unbounded | Included q => Included (fr q) | Excluded q => Excluded (fr q) end.
  Lemma n_itake p p' (m : imap K V) : (forall e, p' (fe e) = p e) ->
    take_while p' (map fe m) = map fe (take_while p m).
  Proof. intros H. induction m as [|e m IH]; [reflexivity|]. cbn. rewrite H, IH. destruct (p e); reflexivity. Qed.
  Lemma n_idrop p p' (m : imap K V) : (forall e, p' (fe e) = p e) ->
    drop_while p' (map fe m) = map fe (drop_while p m).
  Proof. intros H. induction m as [|e m IH]; [reflexivity|]. cbn. rewrite H, IH. destruct (p e); reflexivity. Qed.
  Lemma n_irange c c' lo hi m : (forall a b, c' (fr a) (fr b) = c a b) ->
    bt_range c' (fbi lo) (fbi hi) (map fe m) = omap (map fe) (bt_range c lo hi m).
  Proof.
    intros Hc. unfold bt_range.
    assert (E : bad_bounds c' (fbi lo) (fbi hi) = bad_bounds c lo hi)
      by (destruct lo, hi; cbn; rewrite ?Hc; reflexivity).
    rewrite E. destruct (bad_bounds c lo hi); [reflexivity|]. cbn. f_equal.
    rewrite (n_idrop (fun e => below c lo (fst e)))
      by (intros e; destruct lo; cbn; rewrite ?Hc; reflexivity).
    apply n_itake. intros e. destruct hi; cbn; rewrite ?Hc; reflexivity.
  Qed.
  Lemma hom_range lo hi m : hom (map fe) (lift (bt_range (cmpi_start cmp) lo hi m))
    (lift (bt_range (cmpi_start cmp') (fbi lo) (fbi hi) (map fe m))).
  Proof. apply hom_lift. right. apply n_irange, n_istart. Qed.
  Lemma n_ifilter r (l : list (rangei K * V)) :
    uo (map fe) (filter_o (fun e => ri_touches cmp st (fst e) r) l)
      (filter_o (fun e => ri_touches cmp' st' (fst e) (fr r)) (map fe l)).
  Proof.
    induction l as [|e l IH]; [right; reflexivity|]. cbn [filter_o map].
    destruct (n_itouches (fst e) r) as [E|E]; [rewrite E; left; reflexivity|].
    change (fst (fe e)) with (fr (fst e)). rewrite E.
    destruct (ri_touches cmp st (fst e) r) as [b|p|]; cbn; [|right; reflexivity|right; reflexivity].
    destruct IH as [IH|IH]; rewrite IH; [left; reflexivity|right].
    destruct (filter_o _ l); cbn; [destruct b|..]; reflexivity.
  Qed.
  Lemma n_ilast (m : imap K V) : last_opt (map fe m) = option_map fe (last_opt m).
  Proof. unfold last_opt, it_next_back. rewrite <- map_rev. destruct (rev m); reflexivity. Qed.

  (** ** Updates *)
  Lemma hom_iput r v :
    hom id (modify (bt_insert (cmpi_start cmp) r v)) (modify (bt_insert (cmpi_start cmp') (fr r) (g v))).
  Proof. apply hom_modify. intros m. apply n_ibt_insert. Qed.
  Lemma hom_itake r :
    hom id (modify (bt_remove (cmpi_start cmp) r)) (modify (bt_remove (cmpi_start cmp') (fr r))).
  Proof. apply hom_modify. intros m. apply n_ibt_remove. Qed.
  Lemma hom_left s r v :
    hom id (if ltb cmp (ri_start s) (ri_start r)
            then bind (lift (step_o (sub_one st (ri_start r)))) (fun p => modify (bt_insert (cmpi_start cmp) (incl (ri_start s) p) v))
            else ret tt)
           (if ltb cmp' (ri_start (fr s)) (ri_start (fr r))
            then bind (lift (step_o (sub_one st' (ri_start (fr r)))))
                   (fun p => modify (bt_insert (cmpi_start cmp') (incl (ri_start (fr s)) p) (g v)))
            else ret tt).
  Proof.
    apply hom_if; [apply n_ltb| |apply (hom_ret id tt)]. eapply hom_bind; [apply hom_lift, uo_sub|].
    intros p. exact (hom_iput (incl (ri_start s) p) v).
  Qed.
  Lemma hom_right s r v :
    hom id (if gtb cmp (ri_end s) (ri_end r)
            then bind (lift (step_o (add_one st (ri_end r)))) (fun p => modify (bt_insert (cmpi_start cmp) (incl p (ri_end s)) v))
            else ret tt)
           (if gtb cmp' (ri_end (fr s)) (ri_end (fr r))
            then bind (lift (step_o (add_one st' (ri_end (fr r)))))
                   (fun p => modify (bt_insert (cmpi_start cmp') (incl p (ri_end (fr s))) (g v)))
            else ret tt).
  Proof.
    apply hom_if; [apply n_gtb| |apply (hom_ret id tt)]. eapply hom_bind; [apply hom_lift, uo_add|].
    intros p. exact (hom_iput (incl p (ri_end s)) v).
  Qed.

  Lemma n_iadjust_insert s sv r v :
    hom fr (im_adjust_touching_ranges_for_insert cmp veqb st s sv r v)
           (im_adjust_touching_ranges_for_insert cmp' veqb' st' (fr s) (g sv) (fr r) (g v)).
  Proof.
    unfold im_adjust_touching_ranges_for_insert. apply hom_if; [apply Hg| |].
    - cbn [fri ri_start ri_end]. rewrite n_kmin, n_kmax.
      eapply hom_bind; [apply hom_itake|]. intros _.
      exact (hom_ret fr (incl (kmin cmp (ri_start r) (ri_start s)) (kmax cmp (ri_end r) (ri_end s)))).
    - apply hom_if; [apply n_ioverlaps| |apply hom_ret].
      eapply hom_bind; [apply hom_itake|]. intros _.
      eapply hom_bind; [apply hom_left|]. intros _.
      eapply hom_bind; [apply hom_right|]. intros _. apply hom_ret.
  Qed.
  Lemma n_iinsert_loop fuel : forall r v e,
    hom fr (im_insert_loop cmp veqb st fuel r v e) (im_insert_loop cmp' veqb' st' fuel (fr r) (g v) (fr e)).
  Proof.
    induction fuel as [|fuel IH]; intros r v e; cbn [im_insert_loop]; [apply hom_nofuel|].
    eapply hom_bind; [apply hom_get|]. intros m.
    eapply hom_bind; [apply (hom_range (Included r) Unbounded)|].
    intros [|[s sv] l]; cbn [map it_next fst fei snd]; [apply hom_ret|].
    eapply (hom_bind (fun b : bool => b)).
    - apply hom_lift. cbn [fri ri_start]. rewrite n_gtb. destruct (gtb cmp (ri_start s) (ri_start e)); [|right; reflexivity].
      eapply uo_map; [|apply uo_add]. intros k. cbn. rewrite n_gtb, n_eqb, Hg. reflexivity.
    - intros [|]; [apply hom_ret|]. eapply hom_bind; [apply n_iadjust_insert|]. intros r'. apply IH.
  Qed.
  Lemma n_iinsert r v : hom id (im_insert cmp veqb st r v) (im_insert cmp' veqb' st' (fr r) (g v)).
  Proof.
    unfold im_insert. eapply hom_bind; [apply hom_assert, n_leb|]. intros _.
    eapply hom_bind; [apply hom_get|]. intros m.
    eapply hom_bind; [apply (hom_range Unbounded (Included r))|]. intros l.
    eapply (hom_bind (map fe)).
    { apply hom_lift. rewrite <- map_rev, firstn_map. apply n_ifilter. }
    intros cands. eapply (hom_bind fr).
    { destruct cands as [|[a av] [|[b bv] l']]; cbn [map fei fst snd]; [apply (hom_ret fr)|apply n_iadjust_insert|apply n_iadjust_insert]. }
    intros new1. eapply hom_bind; [apply hom_get|]. intros m1. rewrite map_length.
    eapply hom_bind; [apply (n_iinsert_loop _ new1 v (incl (ri_end new1) (ri_end new1)))|].
    intros new2. apply hom_iput.
  Qed.
  Lemma n_iadjust_remove s sv r :
    hom id (im_adjust_overlapping_ranges_for_remove cmp st s sv r)
           (im_adjust_overlapping_ranges_for_remove cmp' st' (fr s) (g sv) (fr r)).
  Proof.
    unfold im_adjust_overlapping_ranges_for_remove.
    eapply hom_bind; [apply hom_itake|]. intros _.
    eapply hom_bind; [apply hom_left|]. intros _. apply hom_right.
  Qed.
  Lemma n_iremove_loop fuel : forall r e,
    hom id (im_remove_loop cmp st fuel r e) (im_remove_loop (V := V') cmp' st' fuel (fr r) (fr e)).
  Proof.
    induction fuel as [|fuel IH]; intros r e; cbn [im_remove_loop]; [apply hom_nofuel|].
    eapply hom_bind; [apply hom_get|]. intros m.
    eapply hom_bind; [apply (hom_range (Excluded r) (Included e))|].
    intros [|[s sv] l]; cbn [map it_next fst fei snd]; [apply (hom_ret id tt)|].
    eapply hom_bind; [apply n_iadjust_remove|]. intros _. apply IH.
  Qed.
  Lemma n_iremove r : hom id (im_remove cmp st r) (im_remove (V := V') cmp' st' (fr r)).
  Proof.
    unfold im_remove. eapply hom_bind; [apply hom_assert, n_leb|]. intros _.
    eapply hom_bind; [apply hom_get|]. intros m.
    eapply hom_bind; [apply (hom_range Unbounded (Included r))|]. intros l.
    eapply (hom_bind id).
    - rewrite n_ilast. destruct (last_opt l) as [[s sv]|]; cbn [option_map fei fst snd]; [|apply (hom_ret id tt)].
      apply hom_if; [apply n_ioverlaps|apply n_iadjust_remove|apply (hom_ret id tt)].
    - intros _. eapply hom_bind; [apply hom_get|]. intros m1. rewrite map_length.
      apply (n_iremove_loop _ r (incl (ri_end r) (ri_end r))).
  Qed.
  Lemma n_iextend l : hom id (im_extend cmp veqb st l) (im_extend cmp' veqb' st' (map fe l)).
  Proof.
    unfold im_extend. induction l as [|e l IH]; cbn [map for_each]; [apply (hom_ret id tt)|].
    eapply hom_bind; [apply n_iinsert|]. intros _. exact IH.
  Qed.
  Lemma n_iexec o : hom id (im_exec cmp veqb st o) (im_exec cmp' veqb' st' (fopi f g o)).
  Proof.
    destruct o as [r v|r| |l]; cbn [im_exec fopi].
    - apply n_iinsert.
    - apply n_iremove.
    - apply hom_modify. reflexivity.
    - apply n_iextend.
  Qed.

  (** ** Queries: no step functions, except in [Gaps::next] *)
  Lemma n_iget_key_value (m : imap K V) k :
    im_get_key_value cmp' (map fe m) (f k) = omap (option_map fe) (im_get_key_value cmp m k).
  Proof.
    unfold im_get_key_value.
    pose proof (n_irange (cmpi_start cmp) (cmpi_start cmp') Unbounded (Included (incl k k)) m n_istart) as E.
    cbn [fbi] in E. change (fr (incl k k)) with (incl (f k) (f k)) in E. rewrite E.
    destruct (bt_range (cmpi_start cmp) Unbounded (Included (incl k k)) m) as [l|p|]; cbn; [|reflexivity|reflexivity].
    rewrite n_ilast. destruct (last_opt l) as [[s sv]|]; cbn; [|reflexivity]. rewrite n_icontains.
    destruct (ri_contains cmp s k); reflexivity.
  Qed.
  Lemma n_iget (m : imap K V) k : im_get cmp' (map fe m) (f k) = omap (option_map g) (im_get cmp m k).
  Proof. unfold im_get. rewrite n_iget_key_value. destruct (im_get_key_value cmp m k) as [[[]|]| |]; reflexivity. Qed.
  Definition fgpi (x : gapsi K V) : gapsi K' V' :=
    mkGapsI (gpi_needs_plus_one x) (f (gpi_candidate_start x)) (f (gpi_query_end x)) (map fe (gpi_iter x)).
  Lemma n_igaps (m : imap K V) q : im_gaps cmp' (map fe m) (fr q) = omap fgpi (im_gaps cmp m q).
  Proof.
    unfold im_gaps, im_overlapping.
    pose proof (n_irange (cmpi_end cmp) (cmpi_end cmp') (Included (incl (ri_start q) (ri_start q))) Unbounded m n_iend) as E.
    cbn [fbi] in E. change (fr (incl (ri_start q) (ri_start q))) with (incl (ri_start (fr q)) (ri_start (fr q))) in E. rewrite E.
    destruct (bt_range (cmpi_end cmp) _ _ m); reflexivity.
  Qed.
  Lemma n_igaps_loop qend l : forall needs cand,
    fst (fst (fst (gpi_loop cmp st needs cand qend l))) = Panicked PStep \/
    gpi_loop cmp' st' needs (f cand) (f qend) (map fe l) =
      match gpi_loop cmp st needs cand qend l with
      | (o, n, c, l') => (omap (option_map fr) o, n, f c, map fe l')
      end.
  Proof.
    induction l as [|[o ov] l IH]; intros needs cand; [right; reflexivity|].
    cbn [map gpi_loop fei fst snd fri ri_start ri_end]. rewrite n_ltb.
    destruct (ltb cmp qend (ri_start o)); [right; reflexivity|].
    assert (H : uo f (if needs then step_o (add_one st cand) else Ret cand)
                    (if needs then step_o (add_one st' (f cand)) else Ret (f cand))).
    { destruct needs; [apply uo_add|right; reflexivity]. }
    destruct H as [-> | ->]; [left; reflexivity|].
    destruct (if needs then step_o (add_one st cand) else Ret cand) as [cur|p|]; cbn [omap obind];
      [|right; reflexivity|right; reflexivity].
    rewrite n_ltb. destruct (ltb cmp cur (ri_start o)); [|apply IH].
    destruct (uo_sub (ri_start o)) as [E|E]; rewrite E; [left; reflexivity|right].
    destruct (step_o (sub_one st (ri_start o))); reflexivity.
  Qed.
  Lemma n_igaps_next x :
    fst (gpi_next cmp st x) = Panicked PStep \/
    gpi_next cmp' st' (fgpi x) = (omap (option_map fr) (fst (gpi_next cmp st x)), fgpi (snd (gpi_next cmp st x))).
  Proof.
    destruct x as [n c q l]. unfold gpi_next, fgpi. cbn [gpi_needs_plus_one gpi_candidate_start gpi_query_end gpi_iter].
    pose proof (n_igaps_loop q l n c) as H.
    destruct (gpi_loop cmp st n c q l) as [[[o n'] c'] l'] eqn:E. cbn [fst] in H.
    destruct H as [-> | ->]; [left; reflexivity|].
    destruct o as [[r|]|p|]; cbn [omap obind option_map]; [right; reflexivity| |right; reflexivity|right; reflexivity].
    rewrite n_ltb, n_leb. destruct n'; cbn [fst snd].
    - destruct (ltb cmp c' q); [|right; reflexivity].
      destruct (uo_add c') as [E'|E']; rewrite E'; [left; reflexivity|right].
      destruct (step_o (add_one st c')); reflexivity.
    - destruct (leb cmp c' q); right; reflexivity.
  Qed.
  Lemma n_igaps_nexts n : forall x,
    (exists xs, nexts_m (gpi_next cmp st) n x = map Ret xs) ->
    nexts_m (gpi_next cmp' st') n (fgpi x) = map (omap (option_map fr)) (nexts_m (gpi_next cmp st) n x).
  Proof.
    induction n as [|n IH]; intros x [xs Hx]; [reflexivity|].
    cbn [nexts_m] in *. destruct (n_igaps_next x) as [E|E].
    - exfalso. destruct (gpi_next cmp st x) as [o x']. cbn in *. subst o. destruct xs; discriminate Hx.
    - rewrite E. destruct (gpi_next cmp st x) as [o x']. cbn [fst snd map] in *. f_equal. apply IH.
      destruct xs as [|y xs]; [discriminate Hx|]. injection Hx as _ Hx. exists xs. exact Hx.
  Qed.
End INatural.
