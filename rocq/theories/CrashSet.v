(** Interrupted updates of sets, and interrupted [extend]s: consequences of
    CrashFacts.v and CrashAny.v. *)
From Coq Require Import List Bool Sorting.Sorted Lia.
From Verif Require Import Order Outcome BTree Ranges History Spec SpecExact MapModel IMapModel SetModel ISetModel StepModel ListLemmas
  MapProofs MapRemove MapFacts MapIter ISim Cuts IFacts IMapProps SetFacts SetProps ISetProps CrashModel CrashFacts CrashSim CrashProps
  Exhausted ExhaustedCrash ExhaustedSet IExact Tiling ISetAny CrashAny CrashSetModel.
Import ListNotations.

(** ** An interrupted [extend] is an interrupted [insert] of one of its items *)
Lemma crash_for_each {S A} (f : A -> C S unit) l : forall s x, In x (fst (cfor_each f l s)) ->
  exists l1 a l2, l = l1 ++ a :: l2 /\ fst (snd (cfor_each f l1 s)) = Ret tt /\
    In x (fst (f a (snd (snd (cfor_each f l1 s))))).
Proof.
  induction l as [|a l IH]; intros s x H; cbn [cfor_each] in H; [destruct H|]. unfold cbind in H.
  assert (H0 : In x (fst (f a s)) -> exists l1 b l2, a :: l = l1 ++ b :: l2 /\ fst (snd (cfor_each f l1 s)) = Ret tt /\
    In x (fst (f b (snd (snd (cfor_each f l1 s)))))) by (intros G; exists [], a, l; auto).
  destruct (f a s) as [t [[[]|p|] s']] eqn:E; [|auto|auto].
  destruct (cfor_each f l s') as [t' y] eqn:E'. cbn [fst] in H, H0. apply in_app_or in H as [H|H]; [auto|].
  destruct (IH s' x) as (l1 & b & l2 & H1 & H2 & H3); [rewrite E'; exact H|].
  exists (a :: l1), b, l2. split; [rewrite H1; reflexivity|]. cbn [cfor_each]. unfold cbind. rewrite E.
  destruct (cfor_each f l1 s') as [t1 y1]. auto.
Qed.
Lemma cfor_each_map {S A B} (f : A -> C S unit) (g : B -> C S unit) (h : B -> A) l :
  (forall b, f (h b) = g b) -> cfor_each f (map h l) = cfor_each g l.
Proof. intros H. induction l as [|b l IH]; cbn; [reflexivity|]. rewrite H, IH. reflexivity. Qed.

Section Half.
  Context {K V : Type} {cmp : K -> K -> comparison} {veqb : V -> V -> bool}.
  Context (HO : TotalOrd cmp) (HV : PartialEquiv veqb).
  Notation run := (rm_run cmp veqb).
  Lemma extend_interrupted ops l x : In x (crash_states (rmx_exec cmp veqb (OExtend l)) (run ops)) ->
    x = run ops \/ exists l1 e l2, l = l1 ++ e :: l2 /\
      fst (rm_exec cmp veqb (OExtend l1) (run ops)) = Ret tt /\
      In x (crash_states (rmx_exec cmp veqb (OInsert (fst e) (snd e))) (run (ops ++ [OExtend l1]))).
  Proof.
    intros [<-|H]; [left; reflexivity|right]. cbn [rmx_exec] in H. unfold rmx_extend in H.
    apply crash_for_each in H as (l1 & e & l2 & H1 & H2 & H3). exists l1, e, l2.
    pose proof (e_exec cmp veqb (OExtend l1) (run ops)) as E. cbn [rmx_exec] in E. unfold rmx_extend in E.
    rewrite E in H2, H3. splits; auto. right. rewrite MapFacts.run_snoc. exact H3.
  Qed.
End Half.
Section Incl.
  Context {K V : Type} {cmp : K -> K -> comparison} {veqb : V -> V -> bool} {st : stepfns K}.
  Notation run := (im_run cmp veqb st).
  Lemma iextend_interrupted ops l x : In x (crash_states (imx_exec cmp veqb st (OExtend l)) (run ops)) ->
    x = run ops \/ exists l1 e l2, l = l1 ++ e :: l2 /\
      fst (im_exec cmp veqb st (OExtend l1) (run ops)) = Ret tt /\
      In x (crash_states (imx_exec cmp veqb st (OInsert (fst e) (snd e))) (run (ops ++ [OExtend l1]))).
  Proof.
    intros [<-|H]; [left; reflexivity|right]. cbn [imx_exec] in H. unfold imx_extend in H.
    apply crash_for_each in H as (l1 & e & l2 & H1 & H2 & H3). exists l1, e, l2.
    pose proof (e_iexec cmp veqb st (OExtend l1) (run ops)) as E. cbn [imx_exec] in E. unfold imx_extend in E.
    rewrite E in H2, H3. splits; auto. right. rewrite run_isnoc. exact H3.
  Qed.
End Incl.

(** ** [RangeSet] *)
Section Sets.
  Context {K : Type} {cmp : K -> K -> comparison} (HO : TotalOrd cmp).
  Notation run := (rs_run cmp).
  Notation mem := (mem_run (valid_range cmp) (in_range cmp)).
  Notation ranges s := (map fst (rs_iter s)).
  Notation exec := (rsx_exec cmp).
  Lemma sx_exec o : exec o = rmx_exec cmp unit_eqb (to_op o).
  Proof. destruct o as [r|r| |l]; try reflexivity. cbn. symmetry. apply cfor_each_map. reflexivity. Qed.
  Definition to_xop {R} (x : xsop R) : xop R unit :=
    match x with XSDone o => XDone (to_op o) | XSCrash o n => XCrash (to_op o) n end.
  Lemma sx_run xs : rsx_run cmp xs = rmx_run cmp unit_eqb (map to_xop xs).
  Proof.
    unfold rsx_run, rmx_run. generalize (@nil (range K * unit)).
    induction xs as [|x xs IH]; intros m; cbn [map fold_left]; [reflexivity|].
    rewrite IH. f_equal. destruct x; cbn [to_xop xsexec xexec]; rewrite sx_exec; reflexivity.
  Qed.
  Lemma srecord_faithful o s :
    snd (exec o s) = rs_exec cmp o s /\ last (crash_states (exec o) s) s = snd (rs_exec cmp o s).
  Proof. rewrite sx_exec, exec_to_op. apply record_faithful. Qed.
  Lemma srecord_complete o s : o <> SClear ->
    hd_error (crash_states (exec o) s) = Some s /\ stepwise one_change (crash_states (exec o) s).
  Proof.
    intros H. rewrite sx_exec. split; [reflexivity|]. apply exec_stepwise. destruct o; cbn; congruence.
  Qed.
  Lemma sops_of ops : exists sops, rm_run cmp unit_eqb ops = run sops.
  Proof.
    exists (map (fun o => match o with OInsert r _ => SInsert r | ORemove r => SRemove r | OClear => SClear
                          | OExtend l => SExtend (map fst l) end) ops).
    rewrite run_to_ops. f_equal. unfold to_ops. rewrite map_map. rewrite <- (map_id ops) at 1. apply map_ext.
    intros [r []|r| |l]; cbn; auto. f_equal. rewrite map_map. rewrite <- (map_id l) at 1. apply map_ext. intros [r []]. reflexivity.
  Qed.
  Lemma sxrun_reachable xs : exists ops, rsx_run cmp xs = run ops.
  Proof. rewrite sx_run. destruct (xrun_reachable HO unit_per (map to_xop xs)) as (ops & ->). apply sops_of. Qed.
  Lemma scrash_reachable ops o x : In x (crash_states (exec o) (run ops)) -> exists ops', x = run ops'.
  Proof.
    intros Hx. rewrite sx_exec, run_to_ops in Hx.
    pose proof (exec_crash_WF HO unit_per (to_op o) _ x (run_WF HO unit_per _) Hx) as HW.
    destruct (WF_reachable HO x HW) as (ops' & ->). apply sops_of.
  Qed.
  Lemma contains_less x ops : (exists ops', x = run ops') ->
    (forall k, rm_get cmp x k = rm_get cmp (run ops) k \/ rm_get cmp x k = Ret None) ->
    forall k, rs_contains cmp x k = Ret false \/ rs_contains cmp x k = Ret true /\ mem ops k = true.
  Proof.
    intros (ops' & ->) H k. pose proof (srun_contains HO ops' k) as H1. pose proof (srun_contains HO ops k) as H2.
    rewrite H1. destruct (mem ops' k); [right|left; reflexivity]. split; [reflexivity|].
    unfold rs_contains, rm_contains_key in *. destruct (H k) as [E|E]; rewrite E in H1.
    - rewrite H1 in H2. injection H2 as H2. auto.
    - discriminate H1.
  Qed.
  Lemma sinsert_interrupted ops r x : In x (crash_states (exec (SInsert r)) (run ops)) ->
    (x = run (ops ++ [SInsert r]) \/
     forall k, rs_contains cmp x k = Ret false \/ rs_contains cmp x k = Ret true /\ mem ops k = true) /\
    (forall q, In q (ranges (run ops)) -> ltb cmp (r_end q) (r_start r) = true \/ ltb cmp (r_end r) (r_start q) = true ->
       In q (ranges x)).
  Proof.
    intros Hx. pose proof (scrash_reachable ops _ x Hx) as HR.
    rewrite sx_exec in Hx. cbn [to_op rmx_exec] in Hx. rewrite run_to_ops in Hx.
    destruct (insert_crash HO unit_per (to_ops ops) r tt x Hx) as (_ & H1 & H2). rewrite <- run_to_ops in *. split.
    - destruct H1 as [H1|H1]; [left|right; apply contains_less; assumption].
      rewrite H1. rewrite run_to_ops. unfold to_ops. rewrite map_app. reflexivity.
    - intros q Hq Hd. apply in_map_iff in Hq as ([q' []] & <- & Hq). apply in_map_iff. exists (q', tt). split; [reflexivity|].
      apply H2; [exact Hq|]. cbn [fst snd] in *. destruct Hd as [Hd|Hd]; [left|right]; (split; [ord|intros E; exfalso; ord]).
  Qed.
  Lemma sremove_interrupted ops r x : In x (crash_states (exec (SRemove r)) (run ops)) ->
    (forall k, rs_contains cmp x k = Ret false \/ rs_contains cmp x k = Ret true /\ mem ops k = true) /\
    (forall q, In q (ranges (run ops)) -> leb cmp (r_end q) (r_start r) = true \/ leb cmp (r_end r) (r_start q) = true ->
       In q (ranges x)).
  Proof.
    intros Hx. pose proof (scrash_reachable ops _ x Hx) as HR.
    rewrite sx_exec in Hx. cbn [to_op rmx_exec] in Hx. rewrite run_to_ops in Hx.
    destruct (remove_crash' HO unit_per (to_ops ops) r x Hx) as (_ & H1 & H2). rewrite <- run_to_ops in *. split.
    - apply contains_less; assumption.
    - intros q Hq Hd. apply in_map_iff in Hq as ([q' []] & <- & Hq). apply in_map_iff. exists (q', tt). split; [reflexivity|].
      apply H2; [exact Hq|]. exact Hd.
  Qed.
  Lemma sextend_interrupted ops l x : In x (crash_states (exec (SExtend l)) (run ops)) ->
    x = run ops \/ exists l1 r l2, l = l1 ++ r :: l2 /\
      fst (rs_exec cmp (SExtend l1) (run ops)) = Ret tt /\
      In x (crash_states (exec (SInsert r)) (run (ops ++ [SExtend l1]))).
  Proof.
    intros [<-|H]; [left; reflexivity|right]. cbn [rsx_exec] in H.
    apply crash_for_each in H as (l1 & r & l2 & H1 & H2 & H3). exists l1, r, l2.
    destruct (srecord_faithful (SExtend l1) (run ops)) as [E _]. cbn [rsx_exec] in E. rewrite E in H2, H3.
    splits; auto. right. unfold rs_run, run_ops in *. rewrite fold_left_app. exact H3.
  Qed.
End Sets.

(** ** [RangeInclusiveSet] *)
Section ISets.
  Context {K : Type} {cmp : K -> K -> comparison} {st : stepfns K}.
  Context (HO : TotalOrd cmp) (HS : StepLaws cmp st).
  Notation run := (is_run cmp st).
  Notation mem := (mem_run (valid_rangei cmp) (in_rangei cmp)).
  Notation ranges s := (map fst (is_iter s)).
  Notation exec := (isx_exec cmp st).
  Lemma isx_exec_to o : exec o = imx_exec cmp unit_eqb st (to_op o).
  Proof. destruct o as [r|r| |l]; try reflexivity. cbn. symmetry. apply cfor_each_map. reflexivity. Qed.
  Lemma isx_run_to xs : isx_run cmp st xs = imx_run cmp unit_eqb st (map to_xop xs).
  Proof.
    unfold isx_run, imx_run. generalize (@nil (rangei K * unit)).
    induction xs as [|x xs IH]; intros m; cbn [map fold_left]; [reflexivity|].
    rewrite IH. f_equal. destruct x; cbn [to_xop xsexec xexec]; rewrite isx_exec_to; reflexivity.
  Qed.
  Lemma isrecord_faithful o s :
    snd (exec o s) = is_exec cmp st o s /\ last (crash_states (exec o) s) s = snd (is_exec cmp st o s).
  Proof. rewrite isx_exec_to, iexec_to_op. apply irecord_faithful. Qed.
  Lemma isrecord_complete o s : o <> SClear ->
    hd_error (crash_states (exec o) s) = Some s /\ stepwise one_change (crash_states (exec o) s).
  Proof.
    intros H. rewrite isx_exec_to. split; [reflexivity|]. apply iexec_stepwise. destruct o; cbn; congruence.
  Qed.
  Lemma isops_of ops : exists sops, im_run cmp unit_eqb st ops = run sops.
  Proof.
    exists (map (fun o => match o with OInsert r _ => SInsert r | ORemove r => SRemove r | OClear => SClear
                          | OExtend l => SExtend (map fst l) end) ops).
    rewrite irun_to_ops. f_equal. unfold to_ops. rewrite map_map. rewrite <- (map_id ops) at 1. apply map_ext.
    intros [r []|r| |l]; cbn; auto. f_equal. rewrite map_map. rewrite <- (map_id l) at 1. apply map_ext. intros [r []]. reflexivity.
  Qed.
  Lemma isxrun_reachable xs : exists ops, isx_run cmp st xs = run ops.
  Proof. rewrite isx_run_to. destruct (ixrun_reachable_any HO HS unit_per (map to_xop xs)) as (ops & ->). apply isops_of. Qed.
  Lemma iscrash_reachable ops o x : In x (crash_states (exec o) (run ops)) -> exists ops', x = run ops'.
  Proof.
    intros Hx. rewrite isx_exec_to, irun_to_ops in Hx.
    destruct (icrash_reachable HO HS unit_per _ _ _ Hx) as (ops' & ->). apply isops_of.
  Qed.
  Lemma covered_less x ops : no_more (cmp := cmp) x (run ops) ->
    forall q k, In q (ranges x) -> in_rangei cmp q k = true -> mem ops k = true.
  Proof.
    intros H q k Hq Hk. apply in_map_iff in Hq as (e & <- & He).
    destruct (H e k He Hk) as (e' & He' & H1 & _). apply (runs_covered HO HS).
    exists (fst e'). split; [apply in_map, He'|exact H1].
  Qed.
  Lemma isinsert_interrupted ops r x : In x (crash_states (exec (SInsert r)) (run ops)) ->
    (x = run (ops ++ [SInsert r]) \/
     forall q k, In q (ranges x) -> in_rangei cmp q k = true -> mem ops k = true) /\
    (forall q, In q (ranges (run ops)) ->
       (exists k, ltb cmp (ri_end q) k = true /\ ltb cmp k (ri_start r) = true) \/
       (exists k, ltb cmp (ri_end r) k = true /\ ltb cmp k (ri_start q) = true) -> In q (ranges x)).
  Proof.
    intros Hx. rewrite isx_exec_to in Hx. cbn [to_op] in Hx. rewrite irun_to_ops in Hx.
    destruct (iinsert_interrupted_any HO HS unit_per (to_ops ops) r tt x Hx) as (H1 & H2). rewrite <- irun_to_ops in *. split.
    - destruct H1 as [H1|H1]; [left|right; apply covered_less; assumption].
      rewrite H1. rewrite irun_to_ops. unfold to_ops. rewrite map_app. reflexivity.
    - intros q Hq Hd. apply in_map_iff in Hq as ([q' []] & <- & Hq). apply in_map_iff. exists (q', tt). split; [reflexivity|].
      apply H2; [exact Hq|]. unfold apart. cbn [fst snd] in *. destruct Hd as [(k & K1 & K2)|(k & K1 & K2)]; [left|right].
      all: split; [ord|right; exists k; auto].
  Qed.
  Lemma isremove_interrupted ops r x : In x (crash_states (exec (SRemove r)) (run ops)) ->
    (forall q k, In q (ranges x) -> in_rangei cmp q k = true -> mem ops k = true) /\
    (forall q, In q (ranges (run ops)) -> ltb cmp (ri_end q) (ri_start r) = true \/ ltb cmp (ri_end r) (ri_start q) = true ->
       In q (ranges x)).
  Proof.
    intros Hx. rewrite isx_exec_to in Hx. cbn [to_op] in Hx. rewrite irun_to_ops in Hx.
    destruct (iremove_interrupted_any HO HS unit_per (to_ops ops) r x Hx) as (H1 & H2). rewrite <- irun_to_ops in *. split.
    - apply covered_less; assumption.
    - intros q Hq Hd. apply in_map_iff in Hq as ([q' []] & <- & Hq). apply in_map_iff. exists (q', tt). split; [reflexivity|].
      apply H2; [exact Hq|]. exact Hd.
  Qed.
  Lemma isextend_interrupted ops l x : In x (crash_states (exec (SExtend l)) (run ops)) ->
    x = run ops \/ exists l1 r l2, l = l1 ++ r :: l2 /\
      fst (is_exec cmp st (SExtend l1) (run ops)) = Ret tt /\
      In x (crash_states (exec (SInsert r)) (run (ops ++ [SExtend l1]))).
  Proof.
    intros [<-|H]; [left; reflexivity|right]. cbn [isx_exec] in H.
    apply crash_for_each in H as (l1 & r & l2 & H1 & H2 & H3). exists l1, r, l2.
    destruct (isrecord_faithful (SExtend l1) (run ops)) as [E _]. cbn [isx_exec] in E. rewrite E in H2, H3.
    splits; auto. right. unfold is_run, run_ops in *. rewrite fold_left_app. exact H3.
  Qed.
End ISets.
