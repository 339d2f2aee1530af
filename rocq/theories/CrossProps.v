(** Lemmas behind P_Cross.v. *)
From Coq Require Import List Bool ZArith Lia.
From Verif Require Import Order Outcome BTree Ranges History Spec MapModel IMapModel SetModel ISetModel
  StepModel StepFacts ListLemmas IterFacts Instances MapFacts MapMore MapProps ISim Cuts IFacts IMapProps
  SetFacts SetProps ISetProps Natural Cross.
Import ListNotations.

Lemma cross_int {V} {veqb : V -> V -> bool} (HV : PartialEquiv veqb) md t : (0 < i_bits t)%Z ->
  forall ops iops, Forall2 (same_call (fun x : ival t => proj1_sig x)) ops iops ->
  Forall2 (same_entry (fun x : ival t => proj1_sig x))
    (rm_iter (rm_run (icmp t) veqb ops)) (im_iter (im_run (icmp t) veqb (int_steps md t) iops)).
Proof.
  intros Hb. apply cross_entries; [reflexivity| | |exact HV].
  - intros a b H. apply int_add_one; [exact Hb|]. pose proof (ival_bounds t b). lia.
  - intros a b H. apply int_sub_one; [exact Hb|]. pose proof (ival_bounds t b). lia.
Qed.

Section Arbitrary.
  Context {K V : Type} {cmp : K -> K -> comparison} {veqb : V -> V -> bool} {st : stepfns K}.
  Context (HO : TotalOrd cmp) (HS : StepLaws cmp st).
  Lemma map_arbitrary (HV : PartialEquiv veqb) (l : list (range K * V)) :
    rm_arbitrary cmp veqb l =
    Ret (rm_run cmp veqb (map (fun e => OInsert (fst e) (snd e)) (filter (fun e => valid_range cmp (fst e)) l))).
  Proof.
    unfold rm_arbitrary.
    assert (E : filter (fun e => negb (r_is_empty cmp (fst e))) l = filter (fun e => valid_range cmp (fst e)) l).
    { apply filter_ext. intros e. unfold r_is_empty. rewrite negb_involutive. reflexivity. }
    rewrite E. rewrite <- (app_nil_r (filter _ l)) at 1. rewrite (from_iter_prefix HO HV _ []); auto.
    intros e He. apply filter_In in He. tauto.
  Qed.
  Lemma imap_arbitrary (HV : PartialEquiv veqb) (l : list (rangei K * V)) :
    im_arbitrary cmp veqb st l =
    Ret (im_run cmp veqb st (map (fun e => OInsert (fst e) (snd e))
      (filter (fun e => negb (ri_exhausted (fst e)) && valid_rangei cmp (fst e)) l))).
  Proof.
    unfold im_arbitrary.
    assert (E : filter (fun e => negb (ri_is_empty cmp (fst e))) l =
                filter (fun e => negb (ri_exhausted (fst e)) && valid_rangei cmp (fst e)) l).
    { apply filter_ext. intros e. unfold ri_is_empty, valid_rangei. rewrite negb_orb, negb_involutive. f_equal. ord. }
    rewrite E. rewrite <- (app_nil_r (filter _ l)) at 1. rewrite (irun_from_iter HO HS HV _ []); auto.
    - intros e He. apply filter_In in He as [_ He]. apply andb_prop in He as [He _]. apply negb_true_iff. exact He.
    - intros e He. apply filter_In in He as [_ He]. apply andb_prop in He. tauto.
  Qed.
End Arbitrary.
Section SetArbitrary.
  Context {K : Type} {cmp : K -> K -> comparison} {st : stepfns K}.
  Context (HO : TotalOrd cmp) (HS : StepLaws cmp st).
  Lemma filter_fst {A} (p : A -> bool) (l : list (A * unit)) :
    filter (fun e => p (fst e)) l = map (fun a => (a, tt)) (filter p (map fst l)).
  Proof.
    induction l as [|[a []] l IH]; cbn; [reflexivity|]. rewrite IH. destruct (p a); reflexivity.
  Qed.
  Lemma set_arbitrary (l : list (range K * unit)) :
    rs_arbitrary cmp l = Ret (rs_run cmp (map SInsert (filter (valid_range cmp) (map fst l)))).
  Proof.
    unfold rs_arbitrary, rm_arbitrary.
    assert (E : filter (fun e => negb (r_is_empty cmp (fst e))) l = filter (fun e => valid_range cmp (fst e)) l).
    { apply filter_ext. intros e. unfold r_is_empty. rewrite negb_involutive. reflexivity. }
    rewrite E, filter_fst, <- from_iter_map. rewrite <- (app_nil_r (filter _ _)) at 1.
    rewrite (sfrom_iter HO _ []); auto. intros e He. apply filter_In in He. tauto.
  Qed.
  Lemma iset_arbitrary (l : list (rangei K * unit)) :
    is_arbitrary cmp st l = Ret (is_run cmp st (map SInsert
      (filter (fun r => negb (ri_exhausted r) && valid_rangei cmp r) (map fst l)))).
  Proof.
    unfold is_arbitrary, im_arbitrary.
    assert (E : filter (fun e => negb (ri_is_empty cmp (fst e))) l =
                filter (fun e => (fun r => negb (ri_exhausted r) && valid_rangei cmp r) (fst e)) l).
    { apply filter_ext. intros e. unfold ri_is_empty, valid_rangei. rewrite negb_orb, negb_involutive. f_equal. ord. }
    rewrite E, (filter_fst (fun r => negb (ri_exhausted r) && valid_rangei cmp r)), <- ifrom_iter_map. rewrite <- (app_nil_r (filter _ _)) at 1.
    rewrite (isfrom_iter HO HS _ []); auto.
    intros e He. apply filter_In in He as [_ He]. apply andb_prop in He as [He1 He2]. apply negb_true_iff in He1. auto.
  Qed.
End SetArbitrary.

Section Relabel.
  Context {K K' V V' : Type} {cmp : K -> K -> comparison} {cmp' : K' -> K' -> comparison}.
  Context {veqb : V -> V -> bool} {veqb' : V' -> V' -> bool} (f : K -> K') (g : V -> V').
  Context (Hf : forall a b, cmp' (f a) (f b) = cmp a b).
  Context (Hg : forall a b, veqb' (g a) (g b) = veqb a b).
  Notation run := (rm_run cmp veqb).
  Notation run' := (rm_run cmp' veqb').
  Lemma relabel_outcome ops o :
    fst (rm_exec cmp' veqb' (fop f g o) (run' (map (fop f g) ops))) = fst (rm_exec cmp veqb o (run ops)).
  Proof.
    rewrite (n_run f g Hf Hg), (n_exec f g Hf Hg). unfold fres. cbn.
    destruct (fst (rm_exec cmp veqb o (run ops))) as [[]|p|]; reflexivity.
  Qed.
  Lemma relabel_lookup ops k :
    rm_get cmp' (run' (map (fop f g) ops)) (f k) = omap (option_map g) (rm_get cmp (run ops) k) /\
    rm_get_key_value cmp' (run' (map (fop f g) ops)) (f k) =
      omap (option_map (fe f g)) (rm_get_key_value cmp (run ops) k).
  Proof.
    rewrite (n_run f g Hf Hg). split; [apply (n_get f g Hf)|apply (n_get_key_value f g Hf)].
  Qed.
  Lemma relabel_overlapping ops q sched :
    omap (fun o => map fst (sched_trace (both (ov_next cmp') (ov_next_back cmp')) (fun _ => tt) sched o))
         (rm_overlapping cmp' (run' (map (fop f g) ops)) (fr f q)) =
    omap (fun o => map (option_map (fe f g))
           (map fst (sched_trace (both (ov_next cmp) (ov_next_back cmp)) (fun _ => tt) sched o)))
         (rm_overlapping cmp (run ops) q).
  Proof.
    rewrite (n_run f g Hf Hg), (n_overlapping f g Hf).
    destruct (rm_overlapping cmp (run ops) q) as [o|p|]; cbn; try reflexivity. f_equal. revert o.
    induction sched as [|d sched IH]; intros o; cbn [sched_trace]; [reflexivity|].
    rewrite (n_ov_step f g Hf). destruct (both (ov_next cmp) (ov_next_back cmp) d o) as [x o1]. cbn. f_equal. apply IH.
  Qed.
  Lemma relabel_gaps ops outer n :
    omap (nexts (gp_next cmp') n) (rm_gaps cmp' (run' (map (fop f g) ops)) (fr f outer)) =
    omap (fun x => map (option_map (fr f)) (nexts (gp_next cmp) n x)) (rm_gaps cmp (run ops) outer).
  Proof.
    rewrite (n_run f g Hf Hg), (n_gaps f g Hf).
    destruct (rm_gaps cmp (run ops) outer) as [x|p|]; cbn; try reflexivity. f_equal. revert x.
    induction n as [|n IH]; intros x; cbn [nexts]; [reflexivity|].
    rewrite (n_gp_next f g Hf). destruct (gp_next cmp x) as [y x1]. cbn. f_equal. apply IH.
  Qed.
  Lemma relabel_eq a b :
    rm_eqb cmp' veqb' (run' (map (fop f g) a)) (run' (map (fop f g) b)) = rm_eqb cmp veqb (run a) (run b).
  Proof. rewrite !(n_run f g Hf Hg). apply (n_eq f g Hf Hg). Qed.
End Relabel.

Lemma u8_in_Z :
  (forall a b : ival u8, Z.compare (proj1_sig a) (proj1_sig b) = icmp u8 a b) /\
  (forall a b : ival u8, ltb (icmp u8) a b = true -> exists s s', add_one (int_steps Wrapping u8) a = Some s /\
     add_one zst (proj1_sig a) = Some s' /\ Z.compare s' (proj1_sig s) = Eq) /\
  (forall a b : ival u8, ltb (icmp u8) b a = true -> exists s s', sub_one (int_steps Wrapping u8) a = Some s /\
     sub_one zst (proj1_sig a) = Some s' /\ Z.compare s' (proj1_sig s) = Eq).
Proof.
  split; [reflexivity|split]; intros a b H; unfold ltb, icmp in H.
  - destruct (Z.compare_spec (proj1_sig a) (proj1_sig b)); try discriminate.
    destruct (int_add_one u8 eq_refl Wrapping a) as (s & H1 & H2); [pose proof (ival_bounds u8 b); lia|].
    exists s, (proj1_sig a + 1)%Z. rewrite H2. splits; auto. apply Z.compare_refl.
  - destruct (Z.compare_spec (proj1_sig b) (proj1_sig a)); try discriminate.
    destruct (int_sub_one u8 eq_refl Wrapping a) as (s & H1 & H2); [pose proof (ival_bounds u8 b); lia|].
    exists s, (proj1_sig a - 1)%Z. rewrite H2. splits; auto. apply Z.compare_refl.
Qed.
Lemma u8_checked_in_Z :
  (forall a : ival u8, add_one (int_steps Checked u8) a = None \/
     add_one zst (proj1_sig a) = option_map (fun x : ival u8 => proj1_sig x) (add_one (int_steps Checked u8) a)) /\
  (forall a : ival u8, sub_one (int_steps Checked u8) a = None \/
     sub_one zst (proj1_sig a) = option_map (fun x : ival u8 => proj1_sig x) (sub_one (int_steps Checked u8) a)) /\
  StepLaws (icmp u8) (int_steps Checked u8).
Proof.
  split; [|split; [|exact (int_steplaws u8 Checked eq_refl)]]; intros a.
  - destruct (Z.eq_dec (proj1_sig a) (i_max u8)) as [E|E].
    + left. apply (int_add_max u8 eq_refl a E).
    + right. pose proof (ival_bounds u8 a). destruct (int_add_one u8 eq_refl Checked a) as (s & -> & H2); [lia|].
      cbn. rewrite H2. reflexivity.
  - destruct (Z.eq_dec (proj1_sig a) (i_min u8)) as [E|E].
    + left. apply (int_sub_min u8 eq_refl a E).
    + right. pose proof (ival_bounds u8 a). destruct (int_sub_one u8 eq_refl Checked a) as (s & -> & H2); [lia|].
      cbn. rewrite H2. reflexivity.
Qed.
