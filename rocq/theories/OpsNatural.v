(** The union and intersection iterators (OpsModel.v) touch their ranges only
    through the traits' methods: they commute with a relabelling of the ranges
    under which those correspond.  Then, for both kinds of sets, [|], [&] and
    set expressions. *)
From Coq Require Import List Bool.
From Verif Require Import Order Outcome BTree Ranges History Spec OpsModel MapModel IMapModel SetModel ISetModel
  ListLemmas IterFacts Natural Cross INatural SetFacts IMapProps ISetProps ExhaustedAny ISetAny.
Import ListNotations.

(** ** Computations over related states *)
Section Hom.
  Context {S S' : Type} (FS : S -> S').
  Definition homs {A B} (F : A -> B) (c : M S A) (c' : M S' B) : Prop :=
    forall s, c' (FS s) = (omap F (fst (c s)), FS (snd (c s))).
  Lemma homs_ret {A B} (F : A -> B) a : homs F (ret a) (ret (F a)).
  Proof. intros s. reflexivity. Qed.
  Lemma homs_bind {A B C D} (F : A -> B) (H : C -> D) c c' h h' :
    homs F c c' -> (forall a, homs H (h a) (h' (F a))) -> homs H (bind c h) (bind c' h').
  Proof.
    intros H1 H2 s. unfold bind. rewrite H1. destruct (c s) as [[a|p|] s1]; cbn; [apply H2|reflexivity|reflexivity].
  Qed.
  Lemma homs_get : homs FS get get.
  Proof. intros s. reflexivity. Qed.
  Lemma homs_nofuel {A B} (F : A -> B) : homs F nofuel nofuel.
  Proof. intros s. reflexivity. Qed.
  Lemma homs_drain {A B} (F : A -> B) next next' n : homs (option_map F) next next' ->
    homs (map F) (drain next n) (drain next' n).
  Proof.
    intros H. induction n as [|n IH]; [apply homs_nofuel|]. cbn [drain].
    apply (homs_bind (option_map F)); [exact H|]. intros [a|]; cbn [option_map]; [|apply (homs_ret (map F) [])].
    apply (homs_bind (map F)); [exact IH|]. intros l. apply (homs_ret (map F) (a :: l)).
  Qed.
End Hom.

Section Generic.
  Context {R R' I I' : Type} (F : R -> R') (G : I -> I').
  Context (inext : I -> option R * I) (inext' : I' -> option R' * I') (ilen : I -> nat) (ilen' : I' -> nat).
  Context (os oe : R -> R -> comparison) (os' oe' : R' -> R' -> comparison).
  Context (mg : R -> R -> bool * R) (mg' : R' -> R' -> bool * R').
  Context (ix : R -> R -> option R) (ix' : R' -> R' -> option R').
  Context (Hn : forall i, inext' (G i) = (option_map F (fst (inext i)), G (snd (inext i)))).
  Context (Hl : forall i, ilen' (G i) = ilen i).
  Context (Hs : forall a b, os' (F a) (F b) = os a b) (He : forall a b, oe' (F a) (F b) = oe a b).
  Context (Hm : forall a b, mg' (F a) (F b) = (fst (mg a b), F (snd (mg a b)))).
  Context (Hx : forall a b, ix' (F a) (F b) = option_map F (ix a b)).

  Definition fpk (p : peekable I R) : peekable I' R' := mkPeek (G (pk_iter p)) (option_map (option_map F) (pk_peeked p)).
  Definition fpair (u : pair_iter R I) : pair_iter R' I' := mkPair (fpk (op_left u)) (fpk (op_right u)).
  Lemma nt_new i j : op_new (G i) (G j) = fpair (op_new i j).
  Proof. reflexivity. Qed.
  Lemma nt_peek p : pk_peek inext' (fpk p) = (option_map F (fst (pk_peek inext p)), fpk (snd (pk_peek inext p))).
  Proof.
    unfold pk_peek. destruct p as [i [o|]]; cbn [fpk pk_peeked pk_iter option_map]; [reflexivity|].
    rewrite Hn. destruct (inext i) as [o i']. reflexivity.
  Qed.
  Lemma nt_pnext p : pk_next inext' (fpk p) = (option_map F (fst (pk_next inext p)), fpk (snd (pk_next inext p))).
  Proof.
    unfold pk_next. destruct p as [i [o|]]; cbn [fpk pk_peeked pk_iter option_map]; [reflexivity|].
    rewrite Hn. destruct (inext i) as [o i']. reflexivity.
  Qed.
  Lemma nt_len p : pk_len ilen' (fpk p) = pk_len ilen p.
  Proof. unfold pk_len. destruct p as [i [[o|]|]]; cbn; rewrite Hl; reflexivity. Qed.
  Notation hom := (homs fpair).
  Lemma nt_peek_left : hom (option_map F) (peek_left inext) (peek_left inext').
  Proof. intros u. unfold peek_left, fpair at 1. cbn [op_left op_right fpair]. rewrite nt_peek. destruct (pk_peek inext (op_left u)). reflexivity. Qed.
  Lemma nt_peek_right : hom (option_map F) (peek_right inext) (peek_right inext').
  Proof. intros u. unfold peek_right, fpair at 1. cbn [op_left op_right fpair]. rewrite nt_peek. destruct (pk_peek inext (op_right u)). reflexivity. Qed.
  Lemma nt_next_left : hom (option_map F) (next_left inext) (next_left inext').
  Proof. intros u. unfold next_left, fpair at 1. cbn [op_left op_right fpair]. rewrite nt_pnext. destruct (pk_next inext (op_left u)). reflexivity. Qed.
  Lemma nt_next_right : hom (option_map F) (next_right inext) (next_right inext').
  Proof. intros u. unfold next_right, fpair at 1. cbn [op_left op_right fpair]. rewrite nt_pnext. destruct (pk_next inext (op_right u)). reflexivity. Qed.
  Notation F2 := (fun x : bool * R => (fst x, F (snd x))).
  Lemma nt_join peek next peek' next' r : hom (option_map F) peek peek' -> hom (option_map F) next next' ->
    hom F2 (un_join mg peek next r) (un_join mg' peek' next' (F r)).
  Proof.
    intros H1 H2. unfold un_join. apply (homs_bind fpair (option_map F)); [exact H1|]. intros [x|]; cbn [option_map].
    - rewrite Hm. destruct (mg r x) as [[|] r']; cbn [fst snd].
      + apply (homs_bind fpair (option_map F)); [exact H2|]. intros _. apply (homs_ret fpair F2 (true, r')).
      + apply (homs_ret fpair F2 (false, r')).
    - apply (homs_ret fpair F2 (false, r)).
  Qed.
  Lemma nt_un_loop n : forall r, hom F (un_loop inext mg n r) (un_loop inext' mg' n (F r)).
  Proof.
    induction n as [|n IH]; intros r; [apply homs_nofuel|]. cbn [un_loop].
    apply (homs_bind fpair F2); [apply nt_join; [apply nt_peek_left|apply nt_next_left]|].
    intros [[|] x]; cbn [fst snd]; [apply IH|].
    apply (homs_bind fpair F2); [apply nt_join; [apply nt_peek_right|apply nt_next_right]|].
    intros [[|] y]; cbn [fst snd]; [apply IH|apply homs_ret].
  Qed.
  Lemma nt_unwrap o : hom F (unwrap o) (unwrap (option_map F o)).
  Proof. destruct o; intros u; reflexivity. Qed.
  Lemma nt_un_next : hom (option_map F) (un_next inext ilen os mg) (un_next inext' ilen' os' mg').
  Proof.
    assert (A : forall next next', hom (option_map F) next next' ->
      hom (option_map F) (o <- next ;; r <- unwrap o ;; ret (Some r))%M (o <- next' ;; r <- unwrap o ;; ret (Some r))%M).
    { intros next next' H. apply (homs_bind fpair (option_map F)); [exact H|]. intros o.
      apply (homs_bind fpair F); [apply nt_unwrap|]. intros r. apply (homs_ret fpair (option_map F) (Some r)). }
    unfold un_next. apply (homs_bind fpair (option_map F)); [apply nt_peek_left|]. intros l.
    apply (homs_bind fpair (option_map F)); [apply nt_peek_right|]. intros r.
    apply (homs_bind fpair (option_map F)).
    - destruct l as [l|], r as [r|]; cbn [option_map].
      + rewrite Hs. destruct (os l r); apply A; first [apply nt_next_left|apply nt_next_right].
      + apply A, nt_next_left.
      + apply A, nt_next_right.
      + apply (homs_ret fpair (option_map F) None).
    - intros [x|]; cbn [option_map]; [|apply (homs_ret fpair (option_map F) None)].
      apply (homs_bind fpair fpair); [apply homs_get|]. intros u.
      change (pk_len ilen' (op_left (fpair u))) with (pk_len ilen' (fpk (op_left u))).
      change (pk_len ilen' (op_right (fpair u))) with (pk_len ilen' (fpk (op_right u))). rewrite !nt_len.
      apply (homs_bind fpair F); [apply nt_un_loop|]. intros y. apply (homs_ret fpair (option_map F) (Some y)).
  Qed.
  Lemma nt_in_loop n : hom (option_map F) (in_loop inext oe ix n) (in_loop inext' oe' ix' n).
  Proof.
    induction n as [|n IH]; [apply homs_nofuel|]. cbn [in_loop].
    apply (homs_bind fpair (option_map F)); [apply nt_peek_left|]. intros l.
    apply (homs_bind fpair (option_map F)); [apply nt_peek_right|]. intros r.
    destruct l as [l|], r as [r|]; cbn [option_map]; try apply (homs_ret fpair (option_map F) None).
    apply (homs_bind fpair (option_map F)).
    - rewrite He. destruct (oe l r); first [apply nt_next_left|apply nt_next_right].
    - intros _. rewrite Hx. destruct (ix l r) as [i|]; cbn [option_map]; [apply (homs_ret fpair (option_map F) (Some i))|exact IH].
  Qed.
  Lemma nt_in_next : hom (option_map F) (in_next inext ilen oe ix) (in_next inext' ilen' oe' ix').
  Proof.
    unfold in_next. apply (homs_bind fpair fpair); [apply homs_get|]. intros u.
    change (pk_len ilen' (op_left (fpair u))) with (pk_len ilen' (fpk (op_left u))).
    change (pk_len ilen' (op_right (fpair u))) with (pk_len ilen' (fpk (op_right u))). rewrite !nt_len. apply nt_in_loop.
  Qed.
End Generic.

(** ** Relabelling programs over sets *)
Section Prog.
  Context {R R' : Type} (F : R -> R').
  Definition fsop (o : sop R) : sop R' :=
    match o with
    | SInsert r => SInsert (F r)
    | SRemove r => SRemove (F r)
    | SClear => SClear
    | SExtend l => SExtend (map F l)
    end.
  Fixpoint fsexp (x : sexp R) : sexp R' :=
    match x with
    | XNew => XNew
    | XOp y o => XOp (fsexp y) (fsop o)
    | XOr y z => XOr (fsexp y) (fsexp z)
    | XAnd y z => XAnd (fsexp y) (fsexp z)
    end.
End Prog.

(** successive calls of [next] *)
Lemma homs_nexts {S S' A B} (FS : S -> S') (F : A -> B) next next' n : homs FS (option_map F) next next' ->
  forall s, nexts_m next' n (FS s) = map (omap (option_map F)) (nexts_m next n s).
Proof.
  intros H. induction n as [|n IH]; intros s; [reflexivity|]. cbn [nexts_m]. rewrite H.
  destruct (next s) as [o s']. cbn. rewrite IH. reflexivity.
Qed.

(** ** [RangeSet] *)
Section RS.
  Context {K K' : Type} {cmp : K -> K -> comparison} {cmp' : K' -> K' -> comparison} (f : K -> K').
  Context (Hf : forall a b, cmp' (f a) (f b) = cmp a b).
  Notation idu := (fun u : unit => u).
  Notation fr := (fr f).
  Notation fe := (fe f idu).
  Notation fs := (map fe).
  Lemma n_rs_iter_next i : rs_iter_next (fs i) = (option_map fr (fst (rs_iter_next i)), fs (snd (rs_iter_next i))).
  Proof. unfold rs_iter_next. destruct i as [|[r []] i]; reflexivity. Qed.
  Lemma n_r_merge a b : r_merge cmp' (fr a) (fr b) = (fst (r_merge cmp a b), fr (snd (r_merge cmp a b))).
  Proof.
    unfold r_merge. change (r_start (fr b)) with (f (r_start b)). rewrite (n_contains f Hf).
    destruct (r_contains cmp a (r_start b)); [|reflexivity]. cbn. rewrite (n_gtb f Hf).
    destruct (gtb cmp (r_end b) (r_end a)); reflexivity.
  Qed.
  Lemma n_r_intersect a b : r_intersect cmp' (fr a) (fr b) = option_map fr (r_intersect cmp a b).
  Proof.
    unfold r_intersect. cbn. rewrite (n_kmax f Hf), (n_kmin f Hf), (n_geb f Hf). destruct (geb _ _ _); reflexivity.
  Qed.
  Notation hom := (homs (fpair fr fs)).
  Lemma n_rs_union_next : hom (option_map fr) (rs_union_next cmp) (rs_union_next cmp').
  Proof.
    unfold rs_union_next. apply nt_un_next.
    - apply n_rs_iter_next.
    - intros i. apply map_length.
    - intros a b. apply Hf.
    - apply n_r_merge.
  Qed.
  Lemma n_rs_intersection_next : hom (option_map fr) (rs_intersection_next cmp) (rs_intersection_next cmp').
  Proof.
    unfold rs_intersection_next. apply nt_in_next.
    - apply n_rs_iter_next.
    - intros i. apply map_length.
    - intros a b. apply Hf.
    - apply n_r_intersect.
  Qed.
  Lemma n_rs_union a b : rs_union (fs a) (fs b) = fpair fr fs (rs_union a b).
  Proof. reflexivity. Qed.
  Lemma n_rs_insert r s : rs_insert cmp' (fr r) (fs s) =
    (fst (rs_insert cmp r s), fs (snd (rs_insert cmp r s))).
  Proof.
    unfold rs_insert.
    rewrite (n_insert (cmp := cmp) (veqb := unit_eqb) (veqb' := unit_eqb) f idu Hf (fun _ _ => eq_refl) r tt s).
    unfold fres. f_equal. destruct (fst _) as [[]| |]; reflexivity.
  Qed.
  Lemma n_rs_extend l : forall s, rs_extend cmp' (map fr l) (fs s) =
    (fst (rs_extend cmp l s), fs (snd (rs_extend cmp l s))).
  Proof.
    unfold rs_extend. induction l as [|r l IH]; intros s; cbn [map for_each]; [reflexivity|]. unfold bind.
    rewrite n_rs_insert. destruct (rs_insert cmp r s) as [[u|p|] s1]; cbn [fst snd]; [apply IH|reflexivity|reflexivity].
  Qed.
  Lemma n_rs_from_iter l : rs_from_iter cmp' (map fr l) = omap fs (rs_from_iter cmp l).
  Proof.
    unfold rs_from_iter. change (@rs_new K') with (fs (@rs_new K)). rewrite n_rs_extend.
    destruct (rs_extend cmp l rs_new) as [[u|p|] s]; reflexivity.
  Qed.
  Lemma n_rs_exec o s : rs_exec cmp' (fsop fr o) (fs s) = (fst (rs_exec cmp o s), fs (snd (rs_exec cmp o s))).
  Proof.
    destruct o as [r|r| |l]; cbn [rs_exec fsop].
    - apply n_rs_insert.
    - unfold rs_remove.
      rewrite (n_remove (cmp := cmp) f idu Hf r s).
      unfold fres. f_equal. destruct (fst _) as [[]| |]; reflexivity.
    - reflexivity.
    - apply n_rs_extend.
  Qed.
  Lemma n_rs_run ops : rs_run cmp' (map (fsop fr) ops) = fs (rs_run cmp ops).
  Proof.
    unfold rs_run, run_ops. change (@rs_new K') with (fs (@rs_new K)). generalize (@rs_new K).
    induction ops as [|o ops IH]; intros m; cbn [map fold_left]; [reflexivity|]. rewrite n_rs_exec. apply IH.
  Qed.
  Lemma n_rs_bitor a b : rs_bitor cmp' (fs a) (fs b) = omap fs (rs_bitor cmp a b).
  Proof.
    unfold rs_bitor. rewrite n_rs_union.
    replace (rs_len (fs a) + rs_len (fs b) + 1) with (rs_len a + rs_len b + 1)
      by (unfold rs_len, rm_len; rewrite !map_length; reflexivity).
    rewrite (homs_drain _ fr _ _ _ n_rs_union_next). cbn [fst].
    destruct (fst (drain (rs_union_next cmp) _ _)) as [l|p|]; cbn; [apply n_rs_from_iter|reflexivity|reflexivity].
  Qed.
  Lemma n_rs_bitand a b : rs_bitand cmp' (fs a) (fs b) = omap fs (rs_bitand cmp a b).
  Proof.
    unfold rs_bitand. change (rs_intersection (fs a) (fs b)) with (fpair fr fs (rs_intersection a b)).
    replace (rs_len (fs a) + rs_len (fs b) + 1) with (rs_len a + rs_len b + 1)
      by (unfold rs_len, rm_len; rewrite !map_length; reflexivity).
    rewrite (homs_drain _ fr _ _ _ n_rs_intersection_next). cbn [fst].
    destruct (fst (drain (rs_intersection_next cmp) _ _)) as [l|p|]; cbn; [apply n_rs_from_iter|reflexivity|reflexivity].
  Qed.
  Lemma n_rs_eval x : rs_eval cmp' (fsexp fr x) = omap fs (rs_eval cmp x).
  Proof.
    induction x as [|x IH o|x IHx y IHy|x IHx y IHy]; cbn [rs_eval fsexp].
    - reflexivity.
    - rewrite IH. destruct (rs_eval cmp x) as [s|p|]; cbn; [|reflexivity|reflexivity]. rewrite n_rs_exec. reflexivity.
    - rewrite IHx. destruct (rs_eval cmp x) as [s|p|]; cbn; [|reflexivity|reflexivity].
      rewrite IHy. destruct (rs_eval cmp y) as [t|p|]; cbn; [|reflexivity|reflexivity]. apply n_rs_bitor.
    - rewrite IHx. destruct (rs_eval cmp x) as [s|p|]; cbn; [|reflexivity|reflexivity].
      rewrite IHy. destruct (rs_eval cmp y) as [t|p|]; cbn; [|reflexivity|reflexivity]. apply n_rs_bitand.
  Qed.
End RS.

(** ** [RangeInclusiveSet]: unless a step function over [K] panics *)
Section IS.
  Context {K K' : Type} {cmp : K -> K -> comparison} {cmp' : K' -> K' -> comparison} (f : K -> K').
  Context {st : stepfns K} {st' : stepfns K'}.
  Context (Hf : forall a b, cmp' (f a) (f b) = cmp a b).
  Context (Hadd : forall a, add_one st a = None \/ add_one st' (f a) = option_map f (add_one st a)).
  Context (Hsub : forall a, sub_one st a = None \/ sub_one st' (f a) = option_map f (sub_one st a)).
  Notation idu := (fun u : unit => u).
  Notation fr := (fri f).
  Notation fe := (fei f idu).
  Notation fs := (map fe).
  Lemma n_is_iter_next i : is_iter_next (fs i) = (option_map fr (fst (is_iter_next i)), fs (snd (is_iter_next i))).
  Proof. unfold is_iter_next. destruct i as [|[r []] i]; reflexivity. Qed.
  Lemma n_ri_merge a b : ri_merge cmp' (fr a) (fr b) = (fst (ri_merge cmp a b), fr (snd (ri_merge cmp a b))).
  Proof.
    unfold ri_merge. change (ri_start (fr b)) with (f (ri_start b)). rewrite (n_icontains f Hf).
    destruct (ri_contains cmp a (ri_start b)); [|reflexivity]. cbn. rewrite (Natural.n_gtb f Hf).
    destruct (gtb cmp (ri_end b) (ri_end a)); reflexivity.
  Qed.
  Lemma n_ri_intersect a b : ri_intersect cmp' (fr a) (fr b) = option_map fr (ri_intersect cmp a b).
  Proof.
    unfold ri_intersect. cbn. rewrite (n_kmax f Hf), (n_kmin f Hf), (Natural.n_gtb f Hf). destruct (gtb _ _ _); reflexivity.
  Qed.
  Notation hom := (homs (fpair fr fs)).
  Lemma n_is_union_next : hom (option_map fr) (is_union_next cmp) (is_union_next cmp').
  Proof.
    unfold is_union_next. apply nt_un_next.
    - apply n_is_iter_next.
    - intros i. apply map_length.
    - intros a b. apply Hf.
    - apply n_ri_merge.
  Qed.
  Lemma n_is_intersection_next : hom (option_map fr) (is_intersection_next cmp) (is_intersection_next cmp').
  Proof.
    unfold is_intersection_next. apply nt_in_next.
    - apply n_is_iter_next.
    - intros i. apply map_length.
    - intros a b. apply Hf.
    - apply n_ri_intersect.
  Qed.
  Notation step_panic o := (o = Panicked PStep).
  Lemma n_is_insert r s : step_panic (fst (is_insert cmp st r s)) \/
    is_insert cmp' st' (fr r) (fs s) = (fst (is_insert cmp st r s), fs (snd (is_insert cmp st r s))).
  Proof.
    unfold is_insert.
    destruct (n_iinsert (cmp := cmp) (veqb := unit_eqb) (veqb' := unit_eqb) f idu Hf (fun _ _ => eq_refl) Hadd Hsub r tt s)
      as [H|H]; [left; exact H|right]. rewrite H. f_equal. destruct (fst _) as [[]| |]; reflexivity.
  Qed.
  Lemma n_is_extend l : forall s, step_panic (fst (is_extend cmp st l s)) \/
    is_extend cmp' st' (map fr l) (fs s) = (fst (is_extend cmp st l s), fs (snd (is_extend cmp st l s))).
  Proof.
    unfold is_extend. induction l as [|r l IH]; intros s; cbn [map for_each]; [right; reflexivity|]. unfold bind.
    destruct (n_is_insert r s) as [H|H].
    - left. destruct (is_insert cmp st r s) as [o s1]. cbn in H. subst o. reflexivity.
    - rewrite H. destruct (is_insert cmp st r s) as [[u|p|] s1]; cbn [fst snd]; [apply IH|right; reflexivity|right; reflexivity].
  Qed.
  Lemma n_is_from_iter l : step_panic (is_from_iter cmp st l) \/
    is_from_iter cmp' st' (map fr l) = omap fs (is_from_iter cmp st l).
  Proof.
    unfold is_from_iter. change (@is_new K') with (fs (@is_new K)).
    destruct (n_is_extend l is_new) as [H|H].
    - left. destruct (is_extend cmp st l is_new) as [o s]. cbn in H. subst o. reflexivity.
    - right. rewrite H. destruct (is_extend cmp st l is_new) as [[u|p|] s]; reflexivity.
  Qed.
  Lemma n_is_exec o s : step_panic (fst (is_exec cmp st o s)) \/
    is_exec cmp' st' (fsop fr o) (fs s) = (fst (is_exec cmp st o s), fs (snd (is_exec cmp st o s))).
  Proof.
    destruct o as [r|r| |l]; cbn [is_exec fsop].
    - apply n_is_insert.
    - unfold is_remove.
      destruct (n_iremove (cmp := cmp) f idu Hf Hadd Hsub r s) as [H|H]; [left; exact H|right].
      rewrite H. f_equal. destruct (fst _) as [[]| |]; reflexivity.
    - right. reflexivity.
    - apply n_is_extend.
  Qed.
  Lemma n_is_bitor a b : step_panic (is_bitor cmp st a b) \/
    is_bitor cmp' st' (fs a) (fs b) = omap fs (is_bitor cmp st a b).
  Proof.
    unfold is_bitor. change (is_union (fs a) (fs b)) with (fpair fr fs (is_union a b)).
    replace (is_len (fs a) + is_len (fs b) + 1) with (is_len a + is_len b + 1)
      by (unfold is_len, im_len; rewrite !map_length; reflexivity).
    rewrite (homs_drain _ fr _ _ _ n_is_union_next). cbn [fst].
    destruct (fst (drain (is_union_next cmp) _ _)) as [l|p|]; cbn; [apply n_is_from_iter|right; reflexivity|right; reflexivity].
  Qed.
  Lemma n_is_bitand a b : step_panic (is_bitand cmp st a b) \/
    is_bitand cmp' st' (fs a) (fs b) = omap fs (is_bitand cmp st a b).
  Proof.
    unfold is_bitand. change (is_intersection (fs a) (fs b)) with (fpair fr fs (is_intersection a b)).
    replace (is_len (fs a) + is_len (fs b) + 1) with (is_len a + is_len b + 1)
      by (unfold is_len, im_len; rewrite !map_length; reflexivity).
    rewrite (homs_drain _ fr _ _ _ n_is_intersection_next). cbn [fst].
    destruct (fst (drain (is_intersection_next cmp) _ _)) as [l|p|]; cbn; [apply n_is_from_iter|right; reflexivity|right; reflexivity].
  Qed.

  (** *** with lawful steps no call stops in a step function *)
  Context (HO : TotalOrd cmp) (HS : StepLaws cmp st).
  Lemma exec_no_step o ops : fst (is_exec cmp st o (is_run cmp st ops)) = Ret tt \/
    fst (is_exec cmp st o (is_run cmp st ops)) = Panicked PAssert.
  Proof.
    rewrite iexec_to_op, irun_to_ops. generalize (to_ops ops). clear ops. intros ops.
    destruct (to_op o) as [r v|r| |l]; cbn [im_exec].
    - pose proof (any_insert HO HS unit_per ops r v) as H. destruct (valid_rangei cmp r); rewrite H; auto.
    - pose proof (any_remove HO HS unit_per ops r) as H. destruct (valid_rangei cmp r); rewrite H; auto.
    - left. reflexivity.
    - assert (X : exists g b, l = g ++ b /\ (forall e, In e g -> valid_rangei cmp (fst e) = true) /\
        match b with [] => True | e :: _ => valid_rangei cmp (fst e) = false end).
      { clear. induction l as [|e l (g & b & -> & Hg & Hb)]; [exists [], []; repeat split; contradiction|].
        destruct (valid_rangei cmp (fst e)) eqn:E.
        - exists (e :: g), b. split; [reflexivity|]. split; [|exact Hb]. intros x [<-|Hx]; auto.
        - exists [], (e :: g ++ b). split; [reflexivity|]. split; [contradiction|exact E]. }
      destruct X as (g & b & -> & Hg & Hb). rewrite (any_extend HO HS unit_per g ops b Hg Hb). destruct b; auto.
  Qed.
  Lemma n_is_run ops : is_run cmp' st' (map (fsop fr) ops) = fs (is_run cmp st ops).
  Proof.
    induction ops as [|o ops IH] using rev_ind; [reflexivity|]. rewrite map_app. cbn [map].
    rewrite !isrun_snoc, IH. destruct (n_is_exec o (is_run cmp st ops)) as [H|H].
    - exfalso. destruct (exec_no_step o ops); congruence.
    - rewrite H. reflexivity.
  Qed.
  Lemma n_is_outcome ops o : fst (is_exec cmp' st' (fsop fr o) (is_run cmp' st' (map (fsop fr) ops))) =
    fst (is_exec cmp st o (is_run cmp st ops)).
  Proof.
    rewrite n_is_run. destruct (n_is_exec o (is_run cmp st ops)) as [H|H].
    - exfalso. destruct (exec_no_step o ops); congruence.
    - rewrite H. reflexivity.
  Qed.
  Lemma n_is_eval x : is_eval cmp' st' (fsexp fr x) = omap fs (is_eval cmp st x).
  Proof.
    induction x as [|x IH o|x IHx y IHy|x IHx y IHy]; cbn [is_eval fsexp].
    - reflexivity.
    - rewrite IH. destruct (anys_eval HO HS x) as (ops & _ & -> & _). cbn.
      destruct (n_is_exec o (is_run cmp st ops)) as [H|H].
      + exfalso. destruct (exec_no_step o ops); congruence.
      + rewrite H. reflexivity.
    - rewrite IHx, IHy. destruct (anys_eval HO HS x) as (a & _ & -> & _), (anys_eval HO HS y) as (b & _ & -> & _). cbn.
      destruct (anys_bitor HO HS a b) as (c & _ & E & _).
      destruct (n_is_bitor (is_run cmp st a) (is_run cmp st b)) as [H|H]; [congruence|exact H].
    - rewrite IHx, IHy. destruct (anys_eval HO HS x) as (a & _ & -> & _), (anys_eval HO HS y) as (b & _ & -> & _). cbn.
      destruct (anys_bitand HO HS a b) as (c & _ & E & _).
      destruct (n_is_bitand (is_run cmp st a) (is_run cmp st b)) as [H|H]; [congruence|exact H].
  Qed.
End IS.
