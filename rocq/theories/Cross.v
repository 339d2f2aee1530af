(** [RangeMap] and [RangeInclusiveMap] over integer-like keys: the half-open
    map holding [s..e+1] and the inclusive map holding [s..=e]. *)
From Coq Require Import List Bool ZArith Lia.
From Verif Require Import Order Outcome BTree Ranges History Spec MapModel IMapModel ListLemmas
  Instances MapProofs MapRemove MapFacts MapIter MapMore MapProps ISim Cuts IFacts IMapProps Natural.
Import ListNotations.
Local Open Scope Z_scope.

Section Cross.
  Context {K V : Type} {cmp : K -> K -> comparison} {st : stepfns K} {veqb : V -> V -> bool} (f : K -> Z).
  Context (Hc : forall a b, cmp a b = (f a ?= f b)).
  Context (Hs : forall a b, f a < f b -> exists s, add_one st a = Some s /\ f s = f a + 1).
  Context (Hp : forall a b, f b < f a -> exists p, sub_one st a = Some p /\ f p = f a - 1).
  Context (HV : PartialEquiv veqb).
  Notation lo := f.
  Notation hi := (fun k => f k + 1).
  Notation HC := (int_cuts cmp st f Hc Hs Hp).
  Notation enc_op := (@enc_op K Z V lo hi).
  Notation fop := (@fop K Z V V f (fun v => v)).
  Notation fe := (@fe K Z V V f (fun v => v)).
  Let Hf : forall a b, Z.compare (f a) (f b) = cmp a b := fun a b => eq_sym (Hc a b).
  Let Hg : forall a b : V, veqb a b = veqb a b := fun a b => eq_refl.

  Lemma corr_enc r ri : same_keys f r ri -> encr (lo := lo) (hi := hi) ri = fr f r.
  Proof. intros (H1 & H2 & H3). unfold encr, fr. rewrite H1, H2. reflexivity. Qed.
  Lemma corr_enc_op o oi : same_call f o oi -> enc_op oi = fop o /\ fresh_op oi = true.
  Proof.
    destruct o as [r v|r| |l], oi as [ri vi|ri| |li]; cbn; try contradiction.
    - intros (H & ->). rewrite (corr_enc _ _ H). split; [reflexivity|]. destruct H as (_ & _ & ->). reflexivity.
    - intros H. rewrite (corr_enc _ _ H). auto.
    - auto.
    - intros H. split; [f_equal|]; induction H as [|[r v] [ri vi] l li H HF IH]; cbn; auto; destruct H as (H & Hv); cbn in *; subst.
      + rewrite IH. unfold ence, fe. cbn. rewrite (corr_enc _ _ H). reflexivity.
      + destruct H as (_ & _ & ->). exact IH.
  Qed.
  Lemma corr_enc_ops ops iops : Forall2 (same_call f) ops iops ->
    map enc_op iops = map fop ops /\ fresh_ops iops.
  Proof.
    unfold fresh_ops. induction 1 as [|o oi ops iops H HF [IH1 IH2]]; cbn; [auto|].
    apply corr_enc_op in H as [-> ->]. rewrite IH1. auto.
  Qed.
  Lemma cross_run ops iops : Forall2 (same_call f) ops iops ->
    Rm (cmp' := Z.compare) (lo := lo) (hi := hi) (im_run cmp veqb st iops) (map fe (rm_run cmp veqb ops)).
  Proof.
    intros H. apply corr_enc_ops in H as [H1 H2].
    rewrite <- (n_run f (fun v => v) Hf Hg ops), <- H1. apply (run_sim HC Z_order HV). exact H2.
  Qed.
  Lemma cross_entries ops iops : Forall2 (same_call f) ops iops ->
    Forall2 (same_entry f) (rm_iter (rm_run cmp veqb ops)) (im_iter (im_run cmp veqb st iops)).
  Proof.
    intros H. apply cross_run in H. unfold rm_iter, im_iter. revert H. generalize (rm_run cmp veqb ops) as m.
    generalize (im_run cmp veqb st iops) as mi. induction mi as [|ei mi IH]; intros [|e m] H; inversion H; subst; constructor.
    - destruct H3 as (((H1 & H2) & H3) & H4). cbn in *. apply Z.compare_eq in H1, H2.
      unfold same_entry, same_keys. auto.
    - apply IH. assumption.
  Qed.
  Lemma cross_outcome ops iops o oi : Forall2 (same_call f) ops iops -> same_call f o oi ->
    fst (rm_exec cmp veqb o (rm_run cmp veqb ops)) = fst (im_exec cmp veqb st oi (im_run cmp veqb st iops)).
  Proof.
    intros H Ho. pose proof (cross_run _ _ H) as HR. apply corr_enc_op in Ho as [Ho1 Ho2].
    assert (HO : TotalOrd cmp) by exact (cuts_order HC Z_order).
    assert (HW : WF (cmp := Z.compare) (veqb := veqb) (map fe (rm_run cmp veqb ops))).
    { rewrite <- (n_run f (fun v => v) Hf Hg ops). apply (run_WF Z_order HV). }
    destruct (exec_sim HC Z_order HV oi _ _ HR HW Ho2) as [HS _]. rewrite Ho1 in HS.
    rewrite (n_exec f (fun v => v) Hf Hg o (rm_run cmp veqb ops)) in HS. unfold fres in HS. cbn [fst] in HS.
    destruct (fst (rm_exec cmp veqb o (rm_run cmp veqb ops))) as [[]|p|],
      (fst (im_exec cmp veqb st oi (im_run cmp veqb st iops))) as [[]|p'|]; cbn in HS; try contradiction; congruence.
  Qed.
  Lemma cross_get ops iops k : Forall2 (same_call f) ops iops ->
    rm_get cmp (rm_run cmp veqb ops) k = im_get cmp (im_run cmp veqb st iops) k.
  Proof.
    intros H. assert (HO : TotalOrd cmp) by exact (cuts_order HC Z_order).
    pose proof (corr_enc_ops _ _ H) as [_ Hfr].
    rewrite (get_ok HO _ k (run_WF HO HV ops)), (get_iok HC Z_order _ k (run_iWF HC Z_order HV iops Hfr)). f_equal.
    rewrite (lki_sim HC Z_order _ _ k (cross_run _ _ H)).
    induction (rm_run cmp veqb ops) as [|[r v] m IH]; [reflexivity|]. cbn.
    rewrite <- IH, (n_contains f Hf). reflexivity.
  Qed.
End Cross.

(** Relabelling the keys and values of a [RangeInclusiveMap]. *)
Section INatural.
  Context {K K' V V' : Type} (f : K -> K') (g : V -> V').

  Definition fri (r : rangei K) : rangei K' := mkRI (f (ri_start r)) (f (ri_end r)) (ri_exhausted r).
  Definition fei (e : rangei K * V) : rangei K' * V' := (fri (fst e), g (snd e)).
  Definition fopi (o : op (rangei K) V) : op (rangei K') V' :=
    match o with
    | OInsert r v => OInsert (fri r) (g v)
    | ORemove r => ORemove (fri r)
    | OClear => OClear
    | OExtend l => OExtend (map fei l)
    end.
End INatural.
