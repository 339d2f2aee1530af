(** Programs that build maps and sets out of each other, over step functions that
    sometimes panic. *)
From Coq Require Import List Bool Sorting.Sorted.
From Verif Require Import Order Outcome BTree Ranges History Spec SpecStep SpecProg MapModel IMapModel OpsModel SetModel ISetModel
  FuzzModel CrashModel ProgModel ListLemmas IMapProps SetFacts ISetProps Exhausted ExhaustedAny ExhaustedSet CrashAny ProgFacts ProgAny
  StepPanic StepPanicSet.
Import ListNotations.

(** [o'] is [o], or the computation stopped in a step function *)
Definition upto {A} (o' o : outcome A) : Prop := o' = o \/ o' = Panicked PStep.
Lemma upto_bind {A B} (o' o : outcome A) (f' f : A -> outcome B) :
  upto o' o -> (forall a, upto (f' a) (f a)) -> upto (obind o' f') (obind o f).
Proof. intros [->| ->] H; [destruct o; cbn; [apply H|left; reflexivity|left; reflexivity]|right; reflexivity]. Qed.
Lemma upto_after {S} (c' c : M S unit) s :
  c' s = c s \/ fst (c' s) = Panicked PStep -> upto (state_after c' s) (state_after c s).
Proof.
  unfold state_after. intros [->|H]; [left; reflexivity|right]. destruct (c' s) as [o s']. cbn in H. rewrite H. reflexivity.
Qed.
Lemma upto_for_each {S A} (f' f : A -> M S unit) l :
  (forall a s, f' a s = f a s \/ fst (f' a s) = Panicked PStep) ->
  forall s, for_each f' l s = for_each f l s \/ fst (for_each f' l s) = Panicked PStep.
Proof.
  intros H. induction l as [|a l IH]; intros s; cbn [for_each]; [left; reflexivity|]. unfold bind.
  destruct (H a s) as [->|E].
  - destruct (f a s) as [[[]|p|] s']; [apply IH|left; reflexivity|left; reflexivity].
  - right. destruct (f' a s) as [o s']. cbn in E. rewrite E. reflexivity.
Qed.
Lemma upto_drain {S A} (nx' nx : M S (option A)) n :
  (forall s, nx' s = nx s \/ fst (nx' s) = Panicked PStep) ->
  forall s, upto (fst (drain nx' n s)) (fst (drain nx n s)).
Proof.
  intros H. induction n as [|n IH]; intros s; cbn [drain]; [left; reflexivity|]. unfold bind.
  destruct (H s) as [->|E].
  - destruct (nx s) as [[[a|]|p|] s']; try (left; reflexivity).
    specialize (IH s'). unfold upto in *. destruct (drain nx' n s') as [o1 s1], (drain nx n s') as [o2 s2]. cbn [fst] in *.
    destruct IH as [->| ->]; [left; destruct o2; reflexivity|right; reflexivity].
  - right. destruct (nx' s) as [o s']. cbn in E. rewrite E. reflexivity.
Qed.

Section PanickingPrograms.
  Context {K V : Type} {cmp : K -> K -> comparison} {veqb : V -> V -> bool} {st pst : stepfns K}.
  Context (HP : panics_more st pst).
  Notation Ha := (fun x => proj1 (HP x)).
  Notation Hb := (fun x => proj2 (HP x)).

  Lemma u_exec {W} (weqb : W -> W -> bool) o m :
    im_exec cmp weqb pst o m = im_exec cmp weqb st o m \/ fst (im_exec cmp weqb pst o m) = Panicked PStep.
  Proof. destruct (sp_call (cmp := cmp) (veqb := weqb) Ha Hb o m) as [H|(x & H & _)]; [left; exact H|right; rewrite H; reflexivity]. Qed.
  Lemma u_extend l m : upto (state_after (im_extend cmp veqb pst l) m) (state_after (im_extend cmp veqb st l) m).
  Proof. apply upto_after. exact (u_exec veqb (OExtend l) m). Qed.
  Lemma u_removes {W} l (m : imap K W) :
    upto (state_after (for_each (im_remove cmp pst) l) m) (state_after (for_each (im_remove cmp st) l) m).
  Proof. apply upto_after, upto_for_each. intros r s. exact (u_exec (fun _ _ => true) (ORemove r) s). Qed.
  Lemma u_sextend l s : upto (state_after (is_extend cmp pst l) s) (state_after (is_extend cmp st l) s).
  Proof. apply upto_after, upto_for_each. intros r s'. exact (u_exec unit_eqb (OInsert r tt) s'). Qed.
  Lemma u_collect l : upto (im_from_iter cmp veqb pst l) (im_from_iter cmp veqb st l).
  Proof.
    unfold im_from_iter. destruct (u_exec veqb (OExtend l) im_new) as [H|H]; cbn [im_exec] in H; [rewrite H; left; reflexivity|].
    right. destruct (im_extend cmp veqb pst l im_new) as [o s]. cbn in H. rewrite H. reflexivity.
  Qed.
  Lemma u_scollect l : upto (is_from_iter cmp pst l) (is_from_iter cmp st l).
  Proof. exact (sps_from_iter HP l). Qed.
  Lemma u_gaps {W} (m : imap K W) outer : upto (im_all_gaps cmp pst m outer) (im_all_gaps cmp st m outer).
  Proof. unfold im_all_gaps. apply upto_bind; [left; reflexivity|]. intros g. apply upto_drain. exact (sp_gaps Ha Hb). Qed.
  Lemma u_sgaps s outer : upto (is_all_gaps cmp pst s outer) (is_all_gaps cmp st s outer).
  Proof. exact (u_gaps s outer). Qed.

  (** no update in [l] is stopped *)
  Definition quiet (l : list (mprog (rangei K) V * op (rangei K) V + sprog (rangei K) V * sop (rangei K))) : Prop :=
    (forall y o m, In (inl (y, o)) l -> imrun cmp veqb pst y = Ret m -> fst (im_exec cmp veqb pst o m) <> Panicked PStep) /\
    (forall y o s, In (inr (y, o)) l -> isrun cmp veqb pst y = Ret s -> fst (is_exec cmp pst o s) <> Panicked PStep).
  Lemma quiet_app l1 l2 : quiet (l1 ++ l2) -> quiet l1 /\ quiet l2.
  Proof.
    intros [H1 H2]. split; (split; intros y o m Hin; [apply H1|apply H2]; apply in_or_app; auto).
  Qed.
  Lemma prog_quiet :
    (forall x, quiet (mprog_calls x) -> upto (imrun cmp veqb pst x) (imrun cmp veqb st x)) /\
    (forall x, quiet (sprog_calls x) -> upto (isrun cmp veqb pst x) (isrun cmp veqb st x)).
  Proof.
    apply (prog_mut (rangei K) V (fun x => quiet (mprog_calls x) -> upto (imrun cmp veqb pst x) (imrun cmp veqb st x))
      (fun x => quiet (sprog_calls x) -> upto (isrun cmp veqb pst x) (isrun cmp veqb st x)));
      cbn [imrun isrun mprog_calls sprog_calls]; fold (imrun cmp veqb pst); fold (isrun cmp veqb pst);
      fold (imrun cmp veqb st); fold (isrun cmp veqb st).
    - left. reflexivity.
    - intros m IH o H. apply quiet_app in H as [Hm [Ho _]]. destruct (IH Hm) as [E|E]; [|right; rewrite E; reflexivity].
      left. specialize (Ho m o). rewrite <- E. destruct (imrun cmp veqb pst m) as [a|p|]; [|reflexivity|reflexivity]. cbn. f_equal.
      destruct (u_exec veqb o a) as [->|X]; [reflexivity|destruct (Ho a (or_introl eq_refl) eq_refl X)].
    - intros m IH m' IH' H. apply quiet_app in H as [H H']. apply upto_bind; [auto|]. intros a. apply upto_bind; [auto|]. intros b. apply u_extend.
    - intros m IH m' IH' H. apply quiet_app in H as [H H']. apply upto_bind; [auto|]. intros a. apply upto_bind; [auto|]. intros b. apply u_removes.
    - intros m IH outer v H. apply upto_bind; [auto|]. intros a. apply upto_bind; [apply u_gaps|]. intros b. apply u_extend.
    - intros s IH v H. apply upto_bind; [auto|]. intros a. apply u_collect.
    - intros g m IH H. apply upto_bind; [auto|]. intros a. apply u_collect.
    - left. reflexivity.
    - intros s IH o H. apply quiet_app in H as [Hs [_ Ho]]. destruct (IH Hs) as [E|E]; [|right; rewrite E; reflexivity].
      left. specialize (Ho s o). rewrite <- E. destruct (isrun cmp veqb pst s) as [a|p|]; [|reflexivity|reflexivity]. cbn. f_equal.
      destruct (sps_call (cmp := cmp) HP o a) as [->|(s' & X & _)]; [reflexivity|]. destruct (Ho a (or_introl eq_refl) eq_refl). rewrite X. reflexivity.
    - intros m IH m' IH' H. apply quiet_app in H as [H H']. apply upto_bind; [auto|]. intros a. apply upto_bind; [auto|]. intros b. exact (sps_bitor HP _ _).
    - intros m IH m' IH' H. apply quiet_app in H as [H H']. apply upto_bind; [auto|]. intros a. apply upto_bind; [auto|]. intros b. exact (sps_bitand HP _ _).
    - intros m IH m' IH' H. apply quiet_app in H as [H H']. apply upto_bind; [auto|]. intros a. apply upto_bind; [auto|]. intros b. apply u_sextend.
    - intros m IH m' IH' H. apply quiet_app in H as [H H']. apply upto_bind; [auto|]. intros a. apply upto_bind; [auto|]. intros b. exact (u_removes _ _).
    - intros s IH outer H. apply upto_bind; [auto|]. intros a. apply upto_bind; [apply u_sgaps|]. intros b. apply u_scollect.
    - intros p m IH H. apply upto_bind; [auto|]. intros a. apply u_scollect.
    - intros m IH outer H. apply upto_bind; [auto|]. intros a. apply upto_bind; [apply u_gaps|]. intros b. apply u_scollect.
  Qed.

  Context (HO : TotalOrd cmp) (HS : StepLaws cmp st) (HV : PartialEquiv veqb).
  Notation run := (im_run cmp veqb st).
  Notation srun' := (is_run cmp st).
  Notation valid := (valid_rangei cmp).
  Lemma u_step ops o : exists ops', snd (im_exec cmp veqb pst o (run ops)) = run ops'.
  Proof.
    destruct (sp_call (cmp := cmp) (veqb := veqb) Ha Hb o (run ops)) as [-> | (x & -> & Hin)].
    - exists (ops ++ [o]). rewrite irun_app. reflexivity.
    - exact (icrash_reachable HO HS HV ops o x Hin).
  Qed.

  Notation Rm o := (o = Panicked PStep \/ exists ops, o = Ret (run ops)).
  Notation Rs o := (o = Panicked PStep \/ exists ops, o = Ret (srun' ops)).
  Lemma Rm_upto o' o : upto o' o -> (exists ops, o = Ret (run ops)) -> Rm o'.
  Proof. intros [->| ->]; auto. Qed.
  Lemma Rs_upto o' o : upto o' o -> (exists ops, o = Ret (srun' ops)) -> Rs o'.
  Proof. intros [->| ->]; auto. Qed.
  Lemma map_valid ops : forall e, In e (im_into_iter (run ops)) -> valid (fst e) = true.
  Proof. intros [r v] Hin. apply (proj2 (ExhaustedAny.any_valid HO HS HV ops) r v Hin). Qed.

  Lemma prog_upto : (forall x, Rm (imrun cmp veqb pst x)) /\ (forall x, Rs (isrun cmp veqb pst x)).
  Proof.
    apply (prog_mut (rangei K) V (fun x => Rm (imrun cmp veqb pst x)) (fun x => Rs (isrun cmp veqb pst x)));
      cbn [imrun isrun]; fold (imrun cmp veqb pst); fold (isrun cmp veqb pst).
    - right. exists []. reflexivity.
    - intros m [->|(a & ->)] o; [left; reflexivity|right]. cbn. destruct (u_step a o) as (b & ->). exists b. reflexivity.
    - intros m [->|(a & ->)] m' H; [left; reflexivity|]. cbn [obind]. destruct H as [->|(b & ->)]; [left; reflexivity|]. cbn [obind].
      eapply Rm_upto; [apply u_extend|]. rewrite (iextend_list' HO HS HV a) by apply map_valid. eauto.
    - intros m [->|(a & ->)] s H; [left; reflexivity|]. cbn [obind]. destruct H as [->|(b & ->)]; [left; reflexivity|]. cbn [obind].
      eapply Rm_upto; [apply u_removes|]. rewrite (iremove_list' HO HS HV a) by apply (iranges_valid' HO HS b). eauto.
    - intros m [->|(a & ->)] outer v; [left; reflexivity|]. cbn [obind].
      destruct (iall_gaps' HO HS HV a outer) as (gs & G1 & _ & G2).
      destruct (u_gaps (run a) outer) as [E|E]; rewrite E; [rewrite G1|left; reflexivity]. cbn [obind].
      eapply Rm_upto; [apply u_extend|]. rewrite (iextend_list' HO HS HV a); [eauto|].
      intros e He. apply in_map_iff in He as (r & <- & Hin). apply (proj1 G2), Hin.
    - intros s [->|(b & ->)] v; [left; reflexivity|]. cbn [obind]. eapply Rm_upto; [apply u_collect|].
      rewrite (icollect_list' HO HS HV); [eauto|]. intros e He. apply in_map_iff in He as (r & <- & Hin). apply (iranges_valid' HO HS b), Hin.
    - intros g m [->|(b & ->)]; [left; reflexivity|]. cbn [obind]. eapply Rm_upto; [apply u_collect|].
      rewrite (icollect_list' HO HS HV); [eauto|]. intros e He. apply in_map_iff in He as (e' & <- & Hin). exact (map_valid b e' Hin).
    - right. exists []. reflexivity.
    - intros s [->|(a & ->)] o; [left; reflexivity|right]. cbn. destruct (sps_step HP HO HS a o) as (b & ->). exists b. reflexivity.
    - intros s [->|(a & ->)] s' H; [left; reflexivity|]. cbn [obind]. destruct H as [->|(b & ->)]; [left; reflexivity|]. cbn [obind].
      eapply Rs_upto; [exact (sps_bitor HP _ _)|]. destruct (xs_bitor HO HS a b) as (c & -> & _). eauto.
    - intros s [->|(a & ->)] s' H; [left; reflexivity|]. cbn [obind]. destruct H as [->|(b & ->)]; [left; reflexivity|]. cbn [obind].
      eapply Rs_upto; [exact (sps_bitand HP _ _)|]. destruct (xs_bitand HO HS a b) as (c & -> & _). eauto.
    - intros s [->|(a & ->)] s' H; [left; reflexivity|]. cbn [obind]. destruct H as [->|(b & ->)]; [left; reflexivity|]. cbn [obind].
      eapply Rs_upto; [apply u_sextend|]. rewrite (isextend_list' HO HS a) by apply (iranges_valid' HO HS b). eauto.
    - intros s [->|(a & ->)] s' H; [left; reflexivity|]. cbn [obind]. destruct H as [->|(b & ->)]; [left; reflexivity|]. cbn [obind].
      eapply Rs_upto; [exact (u_removes _ _)|].
      exists (a ++ map SRemove (map fst (is_into_iter (srun' b)))). exact (isremove_list' HO HS a _ (iranges_valid' HO HS b)).
    - intros s [->|(a & ->)] outer; [left; reflexivity|]. cbn [obind].
      destruct (isall_gaps' HO HS a outer) as (gs & G1 & _ & G2 & _).
      destruct (u_sgaps (srun' a) outer) as [E|E]; rewrite E; [rewrite G1|left; reflexivity]. cbn [obind].
      eapply Rs_upto; [apply u_scollect|]. rewrite (proj1 (iscollect_list' HO HS gs (fun r Hr => proj2 (G2 r Hr)))). eauto.
    - intros p m [->|(b & ->)]; [left; reflexivity|]. cbn [obind]. eapply Rs_upto; [apply u_scollect|].
      rewrite (proj1 (iscollect_list' HO HS _ ltac:(intros r Hr; apply in_map_iff in Hr as (e & <- & He); apply filter_In in He as [He _]; exact (map_valid b e He)))). eauto.
    - intros m [->|(a & ->)] outer; [left; reflexivity|]. cbn [obind].
      destruct (iall_gaps' HO HS HV a outer) as (gs & G1 & _ & G2).
      destruct (u_gaps (run a) outer) as [E|E]; rewrite E; [rewrite G1|left; reflexivity]. cbn [obind].
      eapply Rs_upto; [apply u_scollect|]. rewrite (proj1 (iscollect_list' HO HS gs (fun r Hr => proj1 (proj2 (proj1 G2 r Hr))))). eauto.
  Qed.
End PanickingPrograms.
