(** Programs that build maps and sets out of each other, over step functions
    that are lawful among some of the keys. *)
From Coq Require Import List Bool Sorted.
From Verif Require Import Order Outcome BTree Ranges History Spec SpecStep SpecProg MapModel IMapModel OpsModel SetModel ISetModel
  FuzzModel ProgModel ListLemmas Natural Cross INatural IMapProps SetFacts ISetProps Exhausted ExhaustedAny ExhaustedSet OpsNatural
  ProgFacts ProgAny StepPanic StepPanicSet ProgPanic StepSub.
Import ListNotations.

(** ** Relabelling *)
Section Relabel.
  Context {R R' V : Type} (F : R -> R').
  Definition fmop (o : op R V) : op R' V :=
    match o with
    | OInsert r v => OInsert (F r) v
    | ORemove r => ORemove (F r)
    | OClear => OClear
    | OExtend l => OExtend (map (fun e => (F (fst e), snd e)) l)
    end.
  Fixpoint fm (x : mprog R V) : mprog R' V :=
    match x with
    | PNew => PNew
    | PCall m o => PCall (fm m) (fmop o)
    | PExtend m m' => PExtend (fm m) (fm m')
    | PMinus m s => PMinus (fm m) (fq s)
    | PFill m outer v => PFill (fm m) (F outer) v
    | PPaint s v => PPaint (fq s) v
    | PApply g m => PApply g (fm m)
    end
  with fq (x : sprog R V) : sprog R' V :=
    match x with
    | QNew => QNew
    | QCall s o => QCall (fq s) (fsop F o)
    | QOr s s' => QOr (fq s) (fq s')
    | QAnd s s' => QAnd (fq s) (fq s')
    | QExtend s s' => QExtend (fq s) (fq s')
    | QMinus s s' => QMinus (fq s) (fq s')
    | QGaps s outer => QGaps (fq s) (F outer)
    | QWhere p m => QWhere p (fm m)
    | QFree m outer => QFree (fm m) (F outer)
    end.
End Relabel.

Section Natural.
  Context {K K' V : Type} {cmp : K -> K -> comparison} {cmp' : K' -> K' -> comparison} (f : K -> K') {veqb : V -> V -> bool}.
  Context {st : stepfns K} {st' : stepfns K'}.
  Context (Hf : forall a b, cmp' (f a) (f b) = cmp a b).
  Context (Hadd : forall a, add_one st a = None \/ add_one st' (f a) = option_map f (add_one st a)).
  Context (Hsub : forall a, sub_one st a = None \/ sub_one st' (f a) = option_map f (sub_one st a)).
  Notation fr := (fri f).
  Notation idm W := (fun w : W => w).
  Notation fe W := (fei f (idm W)).

  Lemma uo_bind {A B C D} (F : A -> B) (G : C -> D) o o' h h' :
    uo F o o' -> (forall a, uo G (h a) (h' (F a))) -> uo G (obind o h) (obind o' h').
  Proof. intros [-> | ->] H; [left; reflexivity|]. destruct o as [a|p|]; cbn; [apply H|right; reflexivity|right; reflexivity]. Qed.
  Lemma uo_after {W} (c : M (imap K W) unit) c' m : INatural.hom f (idm W) (fun u => u) c c' ->
    uo (map (fe W)) (state_after c m) (state_after c' (map (fe W) m)).
  Proof.
    intros H. unfold state_after. destruct (H m) as [E|E].
    - left. destruct (c m) as [o m']. cbn in E. subst o. reflexivity.
    - right. rewrite E. destruct (c m) as [[u|p|] m']; reflexivity.
  Qed.
  Lemma p_extend l (m : imap K V) : uo (map (fe V)) (state_after (im_extend cmp veqb st l) m)
    (state_after (im_extend cmp' veqb st' (map (fe V) l)) (map (fe V) m)).
  Proof. apply uo_after. exact (n_iextend (cmp := cmp) (veqb := veqb) f (idm V) Hf (fun _ _ => eq_refl) Hadd Hsub l). Qed.
  Lemma p_removes {W} l (m : imap K W) : uo (map (fe W)) (state_after (for_each (im_remove cmp st) l) m)
    (state_after (for_each (im_remove cmp' st') (map fr l)) (map (fe W) m)).
  Proof.
    apply uo_after. induction l as [|r l IH]; cbn [map for_each]; [exact (INatural.hom_ret f (idm W) (fun u => u) tt)|].
    eapply INatural.hom_bind; [exact (n_iremove (cmp := cmp) f (idm W) Hf Hadd Hsub r)|]. intros _. exact IH.
  Qed.
  Lemma p_collect l : uo (map (fe V)) (im_from_iter cmp veqb st l) (im_from_iter cmp' veqb st' (map (fe V) l)).
  Proof.
    unfold im_from_iter, uo.
    destruct (n_iextend (cmp := cmp) (veqb := veqb) f (idm V) Hf (fun _ _ => eq_refl) Hadd Hsub l im_new) as [E|E].
    - left. destruct (im_extend cmp veqb st l im_new) as [o m']. cbn in E. subst o. reflexivity.
    - right. change (@im_new K' V) with (map (fe V) (@im_new K V)). rewrite E.
      destruct (im_extend cmp veqb st l im_new) as [[u|p|] m']; reflexivity.
  Qed.
  Lemma p_sextend l (s : iset K) : uo (map (fe unit)) (state_after (is_extend cmp st l) s)
    (state_after (is_extend cmp' st' (map fr l)) (map (fe unit) s)).
  Proof.
    unfold state_after, uo. destruct (n_is_extend f Hf Hadd Hsub l s) as [E|E].
    - left. destruct (is_extend cmp st l s) as [o m']. cbn in E. subst o. reflexivity.
    - right. rewrite E. destruct (is_extend cmp st l s) as [[u|p|] m']; reflexivity.
  Qed.
  Lemma p_drain {W} n : forall g : gapsi K W,
    fst (drain (gpi_next cmp st) n g) = Panicked PStep \/
    fst (drain (gpi_next cmp' st') n (fgpi f (idm W) g)) = omap (map fr) (fst (drain (gpi_next cmp st) n g)).
  Proof.
    induction n as [|n IH]; intros g; cbn [drain]; [right; reflexivity|]. unfold bind.
    destruct (n_igaps_next (cmp := cmp) f (idm W) Hf Hadd Hsub g) as [E|E].
    - left. destruct (gpi_next cmp st g) as [o g']. cbn in E. subst o. reflexivity.
    - rewrite E. destruct (gpi_next cmp st g) as [[[r|]|p|] g']; cbn [fst snd omap obind option_map]; try (right; reflexivity).
      specialize (IH g'). destruct (drain (gpi_next cmp st) n g') as [o1 s1], (drain (gpi_next cmp' st') n (fgpi f (idm W) g')) as [o2 s2].
      cbn [fst] in *. destruct IH as [-> | ->]; [left; reflexivity|right]. destruct o1; reflexivity.
  Qed.
  Lemma p_gaps {W} (m : imap K W) outer :
    uo (map fr) (im_all_gaps cmp st m outer) (im_all_gaps cmp' st' (map (fe W) m) (fr outer)).
  Proof.
    unfold im_all_gaps. rewrite (n_igaps (cmp := cmp) f (idm W) Hf), map_length. unfold uo.
    destruct (im_gaps cmp m outer) as [g|p|]; cbn; [apply p_drain|right; reflexivity|right; reflexivity].
  Qed.

  Context (HO : TotalOrd cmp) (HS : StepLaws cmp st) (HV : PartialEquiv veqb).
  Lemma same_steps : panics_more st st.
  Proof. intros x. auto. Qed.
  Lemma exec_no_step' o ops : fst (im_exec cmp veqb st o (im_run cmp veqb st ops)) <> Panicked PStep.
  Proof.
    destruct o as [r v|r| |l]; cbn [im_exec].
    - pose proof (any_insert HO HS HV ops r v) as H. destruct (valid_rangei cmp r); rewrite H; discriminate.
    - pose proof (any_remove HO HS HV ops r) as H. destruct (valid_rangei cmp r); rewrite H; discriminate.
    - discriminate.
    - assert (X : exists g b, l = g ++ b /\ (forall e, In e g -> valid_rangei cmp (fst e) = true) /\
        match b with [] => True | e :: _ => valid_rangei cmp (fst e) = false end).
      { clear. induction l as [|e l (g & b & -> & Hg & Hb)]; [exists [], []; repeat split; contradiction|].
        destruct (valid_rangei cmp (fst e)) eqn:E.
        - exists (e :: g), b. split; [reflexivity|]. split; [|exact Hb]. intros x [<-|Hx]; auto.
        - exists [], (e :: g ++ b). split; [reflexivity|]. split; [contradiction|exact E]. }
      destruct X as (g & b & -> & Hg & Hb). rewrite (any_extend HO HS HV g ops b Hg Hb). destruct b; discriminate.
  Qed.
  Lemma fmop_fopi o : fmop fr o = fopi f (idm V) o.
  Proof. destruct o; reflexivity. Qed.
  Lemma entries_fst {W} (m : imap K W) : map fst (map (fe W) m) = map fr (map fst m).
  Proof. rewrite !map_map. reflexivity. Qed.
  Lemma painted (v : V) l : map (fun r => (r, v)) (map fr l) = map (fe V) (map (fun r => (r, v)) l).
  Proof. rewrite !map_map. reflexivity. Qed.
  Lemma where_fe p (m : imap K V) : map fst (filter (fun e => p (snd e)) (map (fe V) m)) = map fr (map fst (filter (fun e => p (snd e)) m)).
  Proof. induction m as [|[r v] m IH]; [reflexivity|]. cbn. destruct (p v); cbn; rewrite IH; reflexivity. Qed.
  Notation nm x := (uo (map (fe V)) (imrun cmp veqb st x) (imrun cmp' veqb st' (fm fr x))).
  Notation ns x := (uo (map (fe unit)) (isrun cmp veqb st x) (isrun cmp' veqb st' (fq fr x))).
  Lemma n_prog : (forall x : mprog (rangei K) V, nm x) /\ (forall x : sprog (rangei K) V, ns x).
  Proof.
    apply (prog_mut (rangei K) V (fun x => nm x) (fun x => ns x));
      cbn [imrun isrun fm fq]; fold (imrun cmp veqb st); fold (isrun cmp veqb st);
      fold (imrun cmp' veqb st'); fold (isrun cmp' veqb st'); fold (@fm (rangei K) (rangei K') V fr); fold (@fq (rangei K) (rangei K') V fr).
    - right. reflexivity.
    - intros m [E|E] o; [left; rewrite E; reflexivity|].
      destruct (proj1 (prog_upto same_steps HO HS HV) m) as [H|(ops & H)]; [left; rewrite H; reflexivity|right].
      rewrite E, H. cbn. rewrite fmop_fopi. f_equal.
      destruct (n_iexec (cmp := cmp) (veqb := veqb) f (idm V) Hf (fun _ _ => eq_refl) Hadd Hsub o (im_run cmp veqb st ops)) as [X|X].
      + destruct (exec_no_step' o ops X).
      + rewrite X. reflexivity.
    - intros m IH m' IH'. eapply uo_bind; [exact IH|]. intros a. eapply uo_bind; [exact IH'|]. intros b. apply p_extend.
    - intros m IH m' IH'. eapply uo_bind; [exact IH|]. intros a. eapply uo_bind; [exact IH'|]. intros b.
      unfold is_into_iter, im_into_iter. rewrite entries_fst. apply p_removes.
    - intros m IH outer v. eapply uo_bind; [exact IH|]. intros a. eapply uo_bind; [apply p_gaps|]. intros b. rewrite painted. apply p_extend.
    - intros s IH v. eapply uo_bind; [exact IH|]. intros a. unfold is_into_iter, im_into_iter. rewrite entries_fst, painted. apply p_collect.
    - intros g m IH. eapply uo_bind; [exact IH|]. intros a. unfold im_into_iter.
      replace (map (fun e => (fst e, g (snd e))) (map (fe V) a)) with (map (fe V) (map (fun e => (fst e, g (snd e))) a))
        by (rewrite !map_map; reflexivity). apply p_collect.
    - right. reflexivity.
    - intros s [E|E] o; [left; rewrite E; reflexivity|].
      destruct (proj2 (prog_upto same_steps HO HS HV) s) as [H|(ops & H)]; [left; rewrite H; reflexivity|right].
      rewrite E, H. cbn. f_equal. destruct (n_is_exec f Hf Hadd Hsub o (is_run cmp st ops)) as [X|X].
      + exfalso. destruct (exec_no_step (cmp := cmp) (st := st) HO HS o ops); congruence.
      + rewrite X. reflexivity.
    - intros m IH m' IH'. eapply uo_bind; [exact IH|]. intros a. eapply uo_bind; [exact IH'|]. intros b. exact (n_is_bitor f Hf Hadd Hsub a b).
    - intros m IH m' IH'. eapply uo_bind; [exact IH|]. intros a. eapply uo_bind; [exact IH'|]. intros b. exact (n_is_bitand f Hf Hadd Hsub a b).
    - intros m IH m' IH'. eapply uo_bind; [exact IH|]. intros a. eapply uo_bind; [exact IH'|]. intros b.
      unfold is_into_iter, im_into_iter. rewrite entries_fst. apply p_sextend.
    - intros m IH m' IH'. eapply uo_bind; [exact IH|]. intros a. eapply uo_bind; [exact IH'|]. intros b.
      unfold is_into_iter, im_into_iter. rewrite entries_fst. exact (p_removes _ _).
    - intros s IH outer. eapply uo_bind; [exact IH|]. intros a. eapply uo_bind; [exact (p_gaps a outer)|]. intros b. exact (n_is_from_iter f Hf Hadd Hsub b).
    - intros p m IH. eapply uo_bind; [exact IH|]. intros a. unfold im_into_iter. rewrite where_fe. exact (n_is_from_iter f Hf Hadd Hsub _).
    - intros m IH outer. eapply uo_bind; [exact IH|]. intros a. eapply uo_bind; [apply p_gaps|]. intros b. exact (n_is_from_iter f Hf Hadd Hsub b).
  Qed.
End Natural.

(** ** Keys in use *)
Section Sub.
  Context {K V : Type} {cmp : K -> K -> comparison} {veqb : V -> V -> bool} {st : stepfns K} (P : K -> bool).
  Context (HO : TotalOrd cmp) (HP : lawful_on cmp st P) (HV : PartialEquiv veqb).
  Notation fr := (fri (val P)).
  Notation kc := (kcmp (cmp := cmp) P).
  Notation valid := (valid_rangei cmp).
  Notation covers := (in_rangei cmp).
  Notation mval := (SpecProg.mval (V := V) valid covers).
  Notation sval := (SpecProg.sval (V := V) valid covers).
  Notation kmval := (SpecProg.mval (V := V) (valid_rangei kc) (in_rangei kc)).
  Notation ksval := (SpecProg.sval (V := V) (valid_rangei kc) (in_rangei kc)).

  Lemma lift_prog :
    (forall x : mprog (rangei K) V, mprog_on P x -> exists x', fm fr x' = x) /\
    (forall x : sprog (rangei K) V, sprog_on P x -> exists x', fq fr x' = x).
  Proof.
    apply (prog_mut (rangei K) V (fun x => mprog_on P x -> exists x', fm fr x' = x) (fun x => sprog_on P x -> exists x', fq fr x' = x));
      cbn [mprog_on sprog_on]; fold (@mprog_on K V P); fold (@sprog_on K V P).
    - exists PNew. reflexivity.
    - intros m IH o [H H']. destruct (IH H) as [a <-]. destruct (lift_op (V := V) P o H') as [b <-]. exists (PCall a b). cbn. rewrite fmop_fopi. reflexivity.
    - intros m IH m' IH' [H H']. destruct (IH H) as [a <-], (IH' H') as [b <-]. exists (PExtend a b). reflexivity.
    - intros m IH m' IH' [H H']. destruct (IH H) as [a <-], (IH' H') as [b <-]. exists (PMinus a b). reflexivity.
    - intros m IH o v [H H']. destruct (IH H) as [a <-], (lift_range P o H') as [b <-]. exists (PFill a b v). reflexivity.
    - intros m IH v H. destruct (IH H) as [a <-]. exists (PPaint a v). reflexivity.
    - intros g m IH H. destruct (IH H) as [a <-]. exists (PApply g a). reflexivity.
    - exists QNew. reflexivity.
    - intros m IH o [H H']. destruct (IH H) as [a <-], (lift_sop P o H') as [b <-]. exists (QCall a b). reflexivity.
    - intros m IH m' IH' [H H']. destruct (IH H) as [a <-], (IH' H') as [b <-]. exists (QOr a b). reflexivity.
    - intros m IH m' IH' [H H']. destruct (IH H) as [a <-], (IH' H') as [b <-]. exists (QAnd a b). reflexivity.
    - intros m IH m' IH' [H H']. destruct (IH H) as [a <-], (IH' H') as [b <-]. exists (QExtend a b). reflexivity.
    - intros m IH m' IH' [H H']. destruct (IH H) as [a <-], (IH' H') as [b <-]. exists (QMinus a b). reflexivity.
    - intros m IH o [H H']. destruct (IH H) as [a <-], (lift_range P o H') as [b <-]. exists (QGaps a b). reflexivity.
    - intros p m IH H. destruct (IH H) as [a <-]. exists (QWhere p a). reflexivity.
    - intros m IH o [H H']. destruct (IH H) as [a <-], (lift_range P o H') as [b <-]. exists (QFree a b). reflexivity.
  Qed.
  Lemma sub_spec_op (g : key P -> option V) (h : K -> option V) o : (forall k, h (val P k) = g k) ->
    forall k, spec_op valid covers h (fmop fr o) (val P k) = spec_op (valid_rangei kc) (in_rangei kc) g o k.
  Proof.
    intros H. destruct o as [r v|r| |l]; intros k; cbn [spec_op fmop].
    - change (valid (fr r)) with (valid_rangei kc r). destruct (valid_rangei kc r); [|apply H]. unfold put.
      change (covers (fr r) (val P k)) with (in_rangei kc r k). rewrite H. reflexivity.
    - change (valid (fr r)) with (valid_rangei kc r). destruct (valid_rangei kc r); [|apply H]. unfold del.
      change (covers (fr r) (val P k)) with (in_rangei kc r k). rewrite H. reflexivity.
    - reflexivity.
    - revert g h H. induction l as [|[r v] l IH]; intros g h H; [apply H|]. cbn [map put_all fst snd].
      change (valid (fr r)) with (valid_rangei kc r). destruct (valid_rangei kc r); [|apply H]. apply IH. intros k'. unfold put.
      change (covers (fr r) (val P k')) with (in_rangei kc r k'). rewrite H. reflexivity.
  Qed.
  Lemma sub_meaning :
    (forall (x : mprog (rangei (key P)) V) k, mval (fm fr x) (val P k) = kmval x k) /\
    (forall (x : sprog (rangei (key P)) V) k, sval (fq fr x) (val P k) = ksval x k).
  Proof.
    apply (prog_mut (rangei (key P)) V (fun x => forall k, mval (fm fr x) (val P k) = kmval x k)
      (fun x => forall k, sval (fq fr x) (val P k) = ksval x k));
      cbn [fm fq SpecProg.mval SpecProg.sval]; fold (SpecProg.mval (V := V) valid covers); fold (SpecProg.sval (V := V) valid covers);
      fold (SpecProg.mval (V := V) (valid_rangei kc) (in_rangei kc)); fold (SpecProg.sval (V := V) (valid_rangei kc) (in_rangei kc));
      fold (@fm (rangei (key P)) (rangei K) V fr); fold (@fq (rangei (key P)) (rangei K) V fr);
      intros; repeat match goal with H : forall k, _ = _ |- _ => first [rewrite H | fail 1] end; try reflexivity.
    - apply sub_spec_op. assumption.
    - apply mem_fsop. assumption.
  Qed.
  Lemma sub_respects :
    (forall x : mprog (rangei (key P)) V, mrespects veqb (fm fr x) -> mrespects veqb x) /\
    (forall x : sprog (rangei (key P)) V, srespects veqb (fq fr x) -> srespects veqb x).
  Proof.
    apply (prog_mut (rangei (key P)) V (fun x => mrespects veqb (fm fr x) -> mrespects veqb x)
      (fun x => srespects veqb (fq fr x) -> srespects veqb x)); cbn; intros; intuition.
  Qed.
  Lemma fresh_fmop (o : op (rangei (key P)) V) : fresh_op (fmop fr o) = fresh_op o.
  Proof. destruct o as [r v|r| |l]; try reflexivity. cbn. induction l as [|e l IH]; [reflexivity|]. cbn. rewrite IH. reflexivity. Qed.
  Lemma sub_progfresh :
    (forall x : mprog (rangei (key P)) V, mfresh (fm fr x) = mfresh x) /\
    (forall x : sprog (rangei (key P)) V, sfresh (fq fr x) = sfresh x).
  Proof.
    apply (prog_mut (rangei (key P)) V (fun x => mfresh (fm fr x) = mfresh x) (fun x => sfresh (fq fr x) = sfresh x));
      cbn [fm fq mfresh sfresh]; fold (@mfresh K V); fold (@sfresh K V); fold (@mfresh (key P) V); fold (@sfresh (key P) V);
      fold (@fm (rangei (key P)) (rangei K) V fr); fold (@fq (rangei (key P)) (rangei K) V fr); intros; try reflexivity; try congruence.
    - rewrite fresh_fmop. congruence.
    - rewrite fresh_fsop. congruence.
  Qed.
  (** *** what follows *)
  Notation run := (im_run cmp veqb st).
  Notation srun' := (is_run cmp st).
  Notation spec := (spec_run (V := V) valid covers).
  Notation mem := (mem_run valid covers).
  Notation fop := (fopi (val P) (fun v : V => v)).
  Lemma fop_on o : op_on P (fop o).
  Proof.
    destruct o as [r v|r| |l]; cbn; try apply fr_on; [exact I|]. intros e He.
    apply in_map_iff in He as (x & <- & _). apply fr_on.
  Qed.
  Lemma fops_fresh ops : fresh_ops ops -> fresh_ops (map fop ops).
  Proof.
    unfold fresh_ops. rewrite !forallb_forall. intros H o Ho. apply in_map_iff in Ho as (o' & <- & Ho).
    rewrite <- fmop_fopi, fresh_fmop. auto.
  Qed.
  Lemma fsops_fresh ops : fresh_sops ops -> fresh_sops (map (fsop fr) ops).
  Proof.
    unfold fresh_sops. rewrite !forallb_forall. intros H o Ho. apply in_map_iff in Ho as (o' & <- & Ho). rewrite fresh_fsop. auto.
  Qed.
  Lemma on_prog_ops ops x : imrun kc veqb (kst (st := st) P) x = Ret (im_run kc veqb (kst (st := st) P) ops) ->
    (forall k, same_opt veqb (spec_run (valid_rangei kc) (in_rangei kc) ops k) (kmval x k)) ->
    ops_on P (map fop ops) /\ imrun cmp veqb st (fm fr x) = Ret (run (map fop ops)) /\
    forall k, P k = true -> same_opt veqb (spec (map fop ops) k) (mval (fm fr x) k).
  Proof.
    intros E H. split; [|split].
    - intros o Ho. apply in_map_iff in Ho as (o' & <- & _). apply fop_on.
    - destruct (proj1 (n_prog (val P) (kcmp_val P) (kadd P) (ksub P) (korder P HO) (klaws P HP) HV) x) as [X|X]; [congruence|].
      rewrite X, E. cbn. f_equal. symmetry. apply (sub_run P HO HP HV).
    - intros k Hk. destruct (within_in P k Hk) as (z & _ & <-). rewrite (proj1 sub_meaning), <- (sub_spec P). apply H.
  Qed.
  Lemma on_sprog_ops ops x : isrun kc veqb (kst (st := st) P) x = Ret (is_run kc (kst (st := st) P) ops) ->
    (forall k, mem_run (valid_rangei kc) (in_rangei kc) ops k = ksval x k) ->
    sops_on P (map (fsop fr) ops) /\ isrun cmp veqb st (fq fr x) = Ret (srun' (map (fsop fr) ops)) /\
    forall k, P k = true -> mem (map (fsop fr) ops) k = sval (fq fr x) k.
  Proof.
    intros E H. split; [|split].
    - intros o Ho. apply in_map_iff in Ho as (o' & <- & _). apply fsop_on.
    - destruct (proj2 (n_prog (val P) (kcmp_val P) (kadd P) (ksub P) (korder P HO) (klaws P HP) HV) x) as [X|X]; [congruence|].
      rewrite X, E. cbn. f_equal. symmetry.
      apply (n_is_run (val P) (kcmp_val P) (kadd P) (ksub P) (korder P HO) (klaws P HP)).
    - intros k Hk. destruct (within_in P k Hk) as (z & _ & <-). rewrite (proj2 sub_meaning), mem_fsops. apply H.
  Qed.
  Lemma on_mprog x : mprog_on P x -> mrespects veqb x -> exists ops,
    ops_on P ops /\ (mfresh x = true -> fresh_ops ops) /\ imrun cmp veqb st x = Ret (run ops) /\
    forall k, P k = true -> same_opt veqb (spec ops k) (mval x k).
  Proof.
    intros H Hr. destruct (proj1 lift_prog x H) as [y <-]. apply (proj1 sub_respects) in Hr. rewrite (proj1 sub_progfresh).
    destruct (mfresh y) eqn:F.
    - destruct (proj1 (iprog_ok (korder P HO) (klaws P HP) HV) y Hr F) as (ops & Fo & E & M).
      destruct (on_prog_ops ops y E M) as (A & B & C). exists (map fop ops). auto using fops_fresh.
    - destruct (proj1 (iprog_any (korder P HO) (klaws P HP) HV) y Hr) as (ops & E & M).
      destruct (on_prog_ops ops y E M) as (A & B & C). exists (map fop ops). split; [exact A|]. split; [discriminate|]. auto.
  Qed.
  Lemma on_sprog x : sprog_on P x -> srespects veqb x -> exists ops,
    sops_on P ops /\ (sfresh x = true -> fresh_sops ops) /\ isrun cmp veqb st x = Ret (srun' ops) /\
    forall k, P k = true -> mem ops k = sval x k.
  Proof.
    intros H Hr. destruct (proj2 lift_prog x H) as [y <-]. apply (proj2 sub_respects) in Hr. rewrite (proj2 sub_progfresh).
    destruct (sfresh y) eqn:F.
    - destruct (proj2 (iprog_ok (korder P HO) (klaws P HP) HV) y Hr F) as (ops & Fo & E & M).
      destruct (on_sprog_ops ops y E M) as (A & B & C). exists (map (fsop fr) ops). auto using fsops_fresh.
    - destruct (proj2 (iprog_any (korder P HO) (klaws P HP) HV) y Hr) as (ops & E & M).
      destruct (on_sprog_ops ops y E M) as (A & B & C). exists (map (fsop fr) ops). split; [exact A|]. split; [discriminate|]. auto.
  Qed.
End Sub.
