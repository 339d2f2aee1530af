(** Programs over integers make the same collections with half-open and with
    inclusive ranges (C91). *)
From Coq Require Import List Bool Sorting.Sorted Lia ZArith.
From Verif Require Import Order Outcome BTree Ranges History Spec MapModel IMapModel OpsModel SetModel ISetModel FuzzModel
  ListLemmas IterFacts MapProofs MapRemove MapFacts MapIter MapMore MapProps OpsProofs SetFacts SetProps FuzzFacts
  ISim Cuts IFacts IMapProps ISetProps SpecProg ProgModel ProgFacts StepModel StepFacts Instances Cross CrossMore.
Import ListNotations.
Local Open Scope Z_scope.

Section Prog.
  Context {K V : Type} {cmp : K -> K -> comparison} {veqb : V -> V -> bool} {st : stepfns K} (f : K -> Z).
  Context (Hc : forall a b, cmp a b = (f a ?= f b)).
  Context (Hs : forall a b, f a < f b -> exists s, add_one st a = Some s /\ f s = f a + 1).
  Context (Hp : forall a b, f b < f a -> exists p, sub_one st a = Some p /\ f p = f a - 1).
  Context (HV : PartialEquiv veqb).
  Let HO : TotalOrd cmp := proj1 (steps_of_index cmp st f Hc Hs Hp).
  Let HS : StepLaws cmp st := proj2 (steps_of_index cmp st f Hc Hs Hp).
  Notation run := (rm_run cmp veqb).
  Notation irun := (im_run cmp veqb st).
  Notation srun' := (rs_run cmp).
  Notation isrun' := (is_run cmp st).
  Notation mem := (mem_run (valid_range cmp) (in_range cmp)).
  Notation imem := (mem_run (valid_rangei cmp) (in_rangei cmp)).
  Notation same := (same_keys f).
  Notation samec := (Forall2 (same_call (V := V) f)).

  Definition mpair (x : mprog (range K) V) (xi : mprog (rangei K) V) : Prop := exists a b,
    samec a b /\ mrun cmp veqb x = Ret (run a) /\ imrun cmp veqb st xi = Ret (irun b).
  Definition spair (x : sprog (range K) V) (xi : sprog (rangei K) V) : Prop := exists a b,
    fresh_sops b /\ srun cmp veqb x = Ret (srun' a) /\ isrun cmp veqb st xi = Ret (isrun' b) /\ forall k, mem a k = imem b k.

  Lemma pair_ranges a b : fresh_sops b -> (forall k, mem a k = imem b k) ->
    Forall2 same (map fst (rs_into_iter (srun' a))) (map fst (is_into_iter (isrun' b))).
  Proof.
    intros Hf E. exact (runs_agree f Hc Hs (mem a) (imem b) _ _ E (srun_runs HO a) (isrun_runs HO HS b Hf)).
  Qed.
  Lemma pair_exists l li k : Forall2 same l li ->
    existsb (fun r => in_range cmp r k) l = existsb (fun r => in_rangei cmp r k) li.
  Proof.
    induction 1 as [|r ri l li H HF IH]; cbn; [reflexivity|]. rewrite (same_covers f Hc _ _ k H), IH. reflexivity.
  Qed.
  Lemma pair_gaps a b outer outeri : samec a b -> same outer outeri -> exists gs gsi,
    rm_all_gaps cmp (run a) outer = Ret gs /\ im_all_gaps cmp st (irun b) outeri = Ret gsi /\
    (forall r, In r gs -> valid_range cmp r = true) /\
    (forall r, In r gsi -> valid_rangei cmp r = true /\ ri_exhausted r = false) /\ Forall2 same gs gsi.
  Proof.
    intros H Ho. pose proof (same_fresh f _ _ H) as Hf.
    destruct (all_gaps HO HV a outer) as (gs & E1 & _ & A1 & A2 & A3).
    destruct (iall_gaps HO HS HV b outeri Hf) as (gsi & E2 & _ & B1 & B2 & B3).
    exists gs, gsi. splits; auto.
    - intros r Hr. apply (A1 r Hr).
    - intros r Hr. split; apply (B1 r Hr).
    - apply (runs_agree f Hc Hs (fun k => in_range cmp outer k && match spec_run (valid_range cmp) (in_range cmp) a k with Some _ => false | None => true end)
                      (fun k => in_rangei cmp outeri k && match spec_run (valid_rangei cmp) (in_rangei cmp) b k with Some _ => false | None => true end)).
      + intros k. rewrite (same_covers f Hc _ _ k Ho), (same_spec f Hc _ _ H). reflexivity.
      + refine (conj _ (conj A2 _)); [intros r Hr; apply (A1 r Hr)|].
        intros k. rewrite A3. destruct (in_range cmp outer k), (spec_run (valid_range cmp) (in_range cmp) a k); cbn; intuition discriminate.
      + refine (conj _ (conj B2 _)); [intros r Hr; split; apply (B1 r Hr)|].
        intros k. rewrite B3. destruct (in_rangei cmp outeri k), (spec_run (valid_rangei cmp) (in_rangei cmp) b k); cbn; intuition discriminate.
  Qed.
  Lemma ins_same l li : Forall2 (same_entry (V := V) f) l li ->
    samec (map (fun e => OInsert (fst e) (snd e)) l) (map (fun e => OInsert (fst e) (snd e)) li).
  Proof. induction 1 as [|e ei l li [H1 H2] HF IH]; cbn; constructor; auto. split; auto. Qed.
  Lemma rem_same l li : Forall2 same l li -> samec (map ORemove l) (map ORemove li).
  Proof. induction 1; cbn; constructor; auto. Qed.
  Lemma paint_same l li v : Forall2 same l li ->
    Forall2 (same_entry (V := V) f) (map (fun r => (r, v)) l) (map (fun r => (r, v)) li).
  Proof. induction 1; cbn; constructor; auto. split; auto. Qed.
  Lemma map_same (g gi : V -> V) l li : (forall v, g v = gi v) -> Forall2 (same_entry (V := V) f) l li ->
    Forall2 (same_entry (V := V) f) (map (fun e => (fst e, g (snd e))) l) (map (fun e => (fst e, gi (snd e))) li).
  Proof.
    intros Hg. induction 1 as [|e ei l li [X1 X2] XF IHX]; cbn; constructor; auto. split; [exact X1|]. cbn. rewrite X2. apply Hg.
  Qed.
  (** the set made of corresponding valid ranges *)
  Lemma collect_pair l li : (forall r, In r l -> valid_range cmp r = true) ->
    (forall r, In r li -> valid_rangei cmp r = true /\ ri_exhausted r = false) -> Forall2 same l li -> exists a b,
    fresh_sops b /\ rs_from_iter cmp l = Ret (srun' a) /\ is_from_iter cmp st li = Ret (isrun' b) /\ forall k, mem a k = imem b k.
  Proof.
    intros H1 H2 H3. destruct (iscollect_list HO HS li H2) as (F & E & M).
    do 2 eexists. refine (conj F (conj (scollect_list HO l H1) (conj E _))). intros k. rewrite M, mem_all_valid by exact H1.
    apply pair_exists, H3.
  Qed.

  Ltac prog := cbn [mrun srun imrun isrun]; fold (mrun cmp veqb); fold (srun cmp veqb);
    fold (imrun cmp veqb st); fold (isrun cmp veqb st).
  Lemma prog_same : (forall x xi, same_mprog f x xi -> mpair x xi) /\ (forall x xi, same_sprog f x xi -> spair x xi).
  Proof.
    apply (prog_mut (range K) V (fun x => forall xi, same_mprog f x xi -> mpair x xi) (fun x => forall xi, same_sprog f x xi -> spair x xi)).
    - intros [] H; cbn in H; try contradiction. exists [], []. splits; auto.
    - intros m IH o [|mi oi| | | | |] H; cbn in H; try contradiction. destruct H as [H Ho].
      destruct (IH _ H) as (a & b & Hab & A & B). exists (a ++ [o]), (b ++ [oi]). splits.
      + apply Forall2_app; [exact Hab|]. constructor; [exact Ho|constructor].
      + prog. rewrite A. unfold omap. cbn. rewrite run_snoc. reflexivity.
      + prog. rewrite B. unfold omap. cbn. rewrite irun_app. reflexivity.
    - intros m IH m' IH' [| |mi mi'| | | |] H; cbn in H; try contradiction. destruct H as [H H'].
      destruct (IH _ H) as (a & b & Hab & A & B), (IH' _ H') as (a' & b' & Hab' & A' & B').
      pose proof (same_fresh f _ _ Hab) as F. pose proof (same_fresh f _ _ Hab') as F'.
      destruct (iter_valid_ascending HO HV a') as [_ Hv]. destruct (iiter_valid_ascending HO HS HV b' F') as [_ Hvi].
      destruct (iextend_list HO HS HV b (im_into_iter (irun b')) F) as [_ E]; [intros [r v] Hin; apply (Hvi r v Hin)|].
      do 2 eexists. splits; [| |prog; rewrite B, B'; exact E].
      + apply Forall2_app; [exact Hab|]. apply ins_same. exact (cross_entries f Hc Hs Hp HV _ _ Hab').
      + prog. rewrite A, A'. cbn [obind]. apply (extend_list HO HV). intros [r v] Hin. apply (Hv r v Hin).
    - intros m IH s IH' [| | |mi si| | |] H; cbn in H; try contradiction. destruct H as [H H'].
      destruct (IH _ H) as (a & b & Hab & A & B), (IH' _ H') as (a' & b' & F' & A' & B' & Hm).
      destruct (iremove_list HO HS HV b (map fst (is_into_iter (isrun' b'))) (same_fresh f _ _ Hab)) as [_ E]; [apply (iranges_valid HO HS), F'|].
      do 2 eexists. splits; [| |prog; rewrite B, B'; exact E].
      + apply Forall2_app; [exact Hab|]. apply rem_same, (pair_ranges a' b' F' Hm).
      + prog. rewrite A, A'. cbn [obind]. apply (remove_list HO HV), (ranges_valid HO).
    - intros m IH outer v [| | | |mi outeri vi| |] H; cbn in H; try contradiction. destruct H as (H & Ho & <-).
      destruct (IH _ H) as (a & b & Hab & A & B). destruct (pair_gaps a b outer outeri Hab Ho) as (gs & gsi & G1 & G2 & G3 & G4 & G5).
      destruct (iextend_list HO HS HV b (map (fun r => (r, v)) gsi) (same_fresh f _ _ Hab)) as [_ E].
      { intros e He. apply in_map_iff in He as (r & <- & Hr). apply G4, Hr. }
      do 2 eexists. splits; [| |prog; rewrite B; cbn [obind]; rewrite G2; exact E].
      + apply Forall2_app; [exact Hab|]. apply ins_same, paint_same, G5.
      + prog. rewrite A. cbn [obind]. rewrite G1. cbn [obind]. apply (extend_list HO HV).
        intros e He. apply in_map_iff in He as (r & <- & Hr). apply G3, Hr.
    - intros s IH v [| | | | |si vi|] H; cbn in H; try contradiction. destruct H as (H & <-).
      destruct (IH _ H) as (a & b & F & A & B & Hm).
      destruct (icollect_list HO HS HV (map (fun r => (r, v)) (map fst (is_into_iter (isrun' b))))) as [_ E].
      { intros e He. apply in_map_iff in He as (r & <- & Hr). apply (iranges_valid HO HS b F), Hr. }
      do 2 eexists. splits; [| |prog; rewrite B; exact E].
      + apply ins_same, paint_same, (pair_ranges a b F Hm).
      + prog. rewrite A. cbn [obind]. apply (collect_list HO HV).
        intros e He. apply in_map_iff in He as (r & <- & Hr). apply (ranges_valid HO a), Hr.
    - intros g m IH [| | | | | |gi mi] H; cbn in H; try contradiction. destruct H as (Hg & H).
      destruct (IH _ H) as (a & b & Hab & A & B). pose proof (same_fresh f _ _ Hab) as F.
      destruct (iter_valid_ascending HO HV a) as [_ Hv]. destruct (iiter_valid_ascending HO HS HV b F) as [_ Hvi].
      destruct (icollect_list HO HS HV (map (fun e => (fst e, gi (snd e))) (im_into_iter (irun b)))) as [_ E].
      { intros e He. apply in_map_iff in He as ([r v] & <- & Hr). apply (Hvi r v), Hr. }
      exists (map (fun e => OInsert (fst e) (snd e)) (map (fun e => (fst e, g (snd e))) (rm_into_iter (run a)))). eexists. splits; [| |prog; rewrite B; exact E].
      + apply ins_same. apply (map_same g gi _ _ Hg). exact (cross_entries f Hc Hs Hp HV _ _ Hab).
      + prog. rewrite A. cbn [obind]. apply (collect_list HO HV).
        intros e He. apply in_map_iff in He as ([r v] & <- & Hr). apply (Hv r v), Hr.
    - intros [] H; cbn in H; try contradiction. exists [], []. splits; reflexivity.
    - intros s IH o [|si oi| | | | | | |] H; cbn in H; try contradiction. destruct H as [H Ho].
      destruct (IH _ H) as (a & b & F & A & B & Hm). exists (a ++ [o]), (b ++ [oi]). splits.
      + apply fresh_snoc; [exact F|]. exact (same_fresh_sop f _ _ Ho).
      + prog. rewrite A. unfold omap. cbn. rewrite srun_snoc. reflexivity.
      + prog. rewrite B. unfold omap. cbn. rewrite isrun_snoc. reflexivity.
      + rewrite !mem_snoc. apply (same_mem_op f Hc); assumption.
    - intros s IH s' IH' [| |si si'| | | | | |] H; cbn in H; try contradiction. destruct H as [H H'].
      destruct (IH _ H) as (a & b & F & A & B & Hm), (IH' _ H') as (a' & b' & F' & A' & B' & Hm').
      destruct (sbitor HO a a') as (c & E & HC). destruct (isbitor HO HS b b' F F') as (ci & Fi & Ei & HCi).
      exists c, ci. splits; [exact Fi|prog; rewrite A, A'; exact E|prog; rewrite B, B'; exact Ei|].
      intros k. rewrite HC, HCi, Hm, Hm'. reflexivity.
    - intros s IH s' IH' [| | |si si'| | | | |] H; cbn in H; try contradiction. destruct H as [H H'].
      destruct (IH _ H) as (a & b & F & A & B & Hm), (IH' _ H') as (a' & b' & F' & A' & B' & Hm').
      destruct (sbitand HO a a') as (c & E & HC). destruct (isbitand HO HS b b' F F') as (ci & Fi & Ei & HCi).
      exists c, ci. splits; [exact Fi|prog; rewrite A, A'; exact E|prog; rewrite B, B'; exact Ei|].
      intros k. rewrite HC, HCi, Hm, Hm'. reflexivity.
    - intros s IH s' IH' [| | | |si si'| | | |] H; cbn in H; try contradiction. destruct H as [H H'].
      destruct (IH _ H) as (a & b & F & A & B & Hm), (IH' _ H') as (a' & b' & F' & A' & B' & Hm').
      destruct (isextend_list HO HS b (map fst (is_into_iter (isrun' b'))) F) as [Fi Ei]; [apply (iranges_valid HO HS), F'|].
      do 2 eexists. splits; [exact Fi| |prog; rewrite B, B'; exact Ei|].
      + prog. rewrite A, A'. cbn [obind]. apply (sextend_list HO), (ranges_valid HO).
      + intros k. unfold mem_run. rewrite !fold_left_app, !add_list.
        * rewrite (ranges_mem HO), (iranges_mem HO HS) by exact F'. rewrite Hm'. f_equal. apply Hm.
        * apply (iall_valid (cmp := cmp)), (iranges_valid HO HS), F'.
        * apply all_valid, (ranges_valid HO).
    - intros s IH s' IH' [| | | | |si si'| | |] H; cbn in H; try contradiction. destruct H as [H H'].
      destruct (IH _ H) as (a & b & F & A & B & Hm), (IH' _ H') as (a' & b' & F' & A' & B' & Hm').
      destruct (isremove_list HO HS b (map fst (is_into_iter (isrun' b'))) F) as [Fi Ei]; [apply (iranges_valid HO HS), F'|].
      do 2 eexists. splits; [exact Fi| |prog; rewrite B, B'; exact Ei|].
      + prog. rewrite A, A'. cbn [obind]. apply (sremove_list HO), (ranges_valid HO).
      + intros k. unfold mem_run. rewrite !fold_left_app, !drop_list.
        * rewrite (ranges_mem HO), (iranges_mem HO HS) by exact F'. rewrite Hm'. f_equal. apply Hm.
        * apply (iall_valid (cmp := cmp)), (iranges_valid HO HS), F'.
        * apply all_valid, (ranges_valid HO).
    - intros s IH outer [| | | | | |si outeri| |] H; cbn in H; try contradiction. destruct H as [H Ho].
      destruct (IH _ H) as (a & b & F & A & B & Hm).
      destruct (sgaps HO a outer) as (g & gs & G1 & G2 & G3 & G4 & G5).
      destruct (isgaps HO HS b outeri F) as (gi & gsi & I1 & I2 & I3 & I4 & I5).
      assert (HL : (length gs <= length (srun' a) + 1)%nat) by apply (gaps_len HO _ outer g gs (srun_WF HO a) G1 G2).
      assert (HLi : (length gsi <= length (isrun' b) + 1)%nat).
      { apply (igaps_len (cuts cmp st HO HS) (cut_order cmp st HO HS) (veqb := unit_eqb) _ outeri gi gsi); [|exact I1|exact I2].
        rewrite irun_to_ops. apply (irun_WF HO HS unit_per), fresh_to_ops, F. }
      destruct (collect_pair gs gsi G3) as (c & ci & X1 & X2 & X3 & X4).
      + intros r Hr. split; apply (I3 r Hr).
      + refine (runs_agree f Hc Hs _ _ gs gsi _ (conj G3 (conj G4 G5)) (conj I3 (conj I4 I5))).
        intros k. cbn. rewrite (same_covers f Hc _ _ k Ho), Hm. reflexivity.
      + exists c, ci. splits; [exact X1| | |exact X4].
        * prog. rewrite A. cbn [obind]. unfold rs_all_gaps. rewrite G1. cbn [obind].
          rewrite (drain_pure _ _ gs) by (try exact G2; unfold rset, rmap in *; lia). exact X2.
        * prog. rewrite B. cbn [obind]. unfold is_all_gaps. rewrite I1. cbn [obind].
          rewrite (drain_ok _ gsi) by (try exact I2; unfold iset, imap in *; lia). exact X3.
    - intros p m IH [| | | | | | |pi mi|] H; cbn in H; try contradiction. destruct H as (Hpp & H).
      destruct (IH _ H) as (a & b & Hab & A & B). pose proof (same_fresh f _ _ Hab) as F.
      destruct (iter_valid_ascending HO HV a) as [_ Hv]. destruct (iiter_valid_ascending HO HS HV b F) as [_ Hvi].
      destruct (collect_pair (map fst (filter (fun e => p (snd e)) (rm_into_iter (run a))))
                             (map fst (filter (fun e => pi (snd e)) (im_into_iter (irun b))))) as (c & ci & X1 & X2 & X3 & X4).
      + intros r Hin. apply in_map_iff in Hin as ([r' v] & <- & Hin). apply filter_In in Hin as [Hin _]. apply (Hv r' v Hin).
      + intros r Hin. apply in_map_iff in Hin as ([r' v] & <- & Hin). apply filter_In in Hin as [Hin _]. apply (Hvi r' v Hin).
      + pose proof (cross_entries f Hc Hs Hp HV _ _ Hab) as X. unfold rm_iter, im_iter, rm_into_iter, im_into_iter in *.
        clear -X Hpp. induction X as [|e ei l li [X1 X2] XF IHX]; cbn; [constructor|]. rewrite Hpp, X2.
        destruct (pi (snd ei)); cbn; [constructor|]; auto.
      + exists c, ci. splits; [exact X1|prog; rewrite A; exact X2|prog; rewrite B; exact X3|exact X4].
    - intros m IH outer [| | | | | | | |mi outeri] H; cbn in H; try contradiction. destruct H as [H Ho].
      destruct (IH _ H) as (a & b & Hab & A & B). destruct (pair_gaps a b outer outeri Hab Ho) as (gs & gsi & G1 & G2 & G3 & G4 & G5).
      destruct (collect_pair gs gsi G3 G4 G5) as (c & ci & X1 & X2 & X3 & X4).
      exists c, ci. splits; [exact X1|prog; rewrite A; cbn [obind]; rewrite G1; exact X2|prog; rewrite B; cbn [obind]; rewrite G2; exact X3|exact X4].
  Qed.

  Lemma x_mprogs x xi : same_mprog f x xi -> exists m mi,
    mrun cmp veqb x = Ret m /\ imrun cmp veqb st xi = Ret mi /\ Forall2 (same_entry f) (rm_iter m) (im_iter mi) /\
    forall k, rm_get cmp m k = im_get cmp mi k.
  Proof.
    intros H. destruct (proj1 prog_same x xi H) as (a & b & Hab & A & B). do 2 eexists.
    splits; [exact A|exact B|exact (cross_entries f Hc Hs Hp HV _ _ Hab)|].
    intros k. exact (cross_get f Hc Hs Hp HV a b k Hab).
  Qed.
  Lemma x_sprogs x xi : same_sprog f x xi -> exists s si,
    srun cmp veqb x = Ret s /\ isrun cmp veqb st xi = Ret si /\ Forall2 same (map fst (rs_iter s)) (map fst (is_iter si)) /\
    forall k, rs_contains cmp s k = is_contains cmp si k.
  Proof.
    intros H. destruct (proj2 prog_same x xi H) as (a & b & F & A & B & Hm). do 2 eexists.
    splits; [exact A|exact B|exact (pair_ranges a b F Hm)|].
    intros k. rewrite (srun_contains HO), (isrun_contains HO HS _ _ F), Hm. reflexivity.
  Qed.
End Prog.

Lemma x_int_prog {V} {veqb : V -> V -> bool} (HV : PartialEquiv veqb) md t : 0 < i_bits t ->
  let f := fun x : ival t => proj1_sig x in
  (forall x xi, same_mprog f x xi -> exists m mi,
     mrun (icmp t) veqb x = Ret m /\ imrun (icmp t) veqb (int_steps md t) xi = Ret mi /\
     Forall2 (same_entry f) (rm_iter m) (im_iter mi) /\ forall k, rm_get (icmp t) m k = im_get (icmp t) mi k) /\
  (forall x xi, same_sprog f x xi -> exists s si,
     srun (icmp t) veqb x = Ret s /\ isrun (icmp t) veqb (int_steps md t) xi = Ret si /\
     Forall2 (same_keys f) (map fst (rs_iter s)) (map fst (is_iter si)) /\
     forall k, rs_contains (icmp t) s k = is_contains (icmp t) si k).
Proof.
  intros Hb f.
  assert (Hc : forall a b, icmp t a b = (f a ?= f b)) by reflexivity.
  assert (Hs : forall a b, f a < f b -> exists s, add_one (int_steps md t) a = Some s /\ f s = f a + 1).
  { intros a b H. apply int_add_one; [exact Hb|]. pose proof (ival_bounds t b). unfold f in *. lia. }
  assert (Hp : forall a b, f b < f a -> exists p, sub_one (int_steps md t) a = Some p /\ f p = f a - 1).
  { intros a b H. apply int_sub_one; [exact Hb|]. pose proof (ival_bounds t b). unfold f in *. lia. }
  split; [exact (x_mprogs f Hc Hs Hp HV)|exact (x_sprogs f Hc Hs Hp HV)].
Qed.
