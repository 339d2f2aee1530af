(** C115, C116: the iterators [Overlapping] and [Gaps], for ANY answers that the
    keys' comparison methods, the query's [Borrow::borrow] and the step functions
    give.

    AskIterModel.v models them with each comparison of two keys made explicit; the
    answers are an arbitrary function [kc] of the number of the comparison and the
    two keys, those of [borrow] an arbitrary function [bw] of the number of
    comparisons made before.  The entries that the underlying [BTreeMap] iterator
    has still to give are any list; nothing is assumed of them. *)
From Coq Require Import List Bool Arith Lia ZArith.
From Verif Require Import Order Outcome BTree Ranges History SpecHalt MapModel IMapModel CloneModel OpsCostModel StepModel
  ListLemmas MapFacts MapProofs MapIter AnyEq AnyFacts Exhausted HaltModel HaltFacts HaltIncl HaltTally AskIterModel AskIter IMapProps Instances.
Import ListNotations.
Open Scope nat_scope.

(** ** C115: [RangeMap], [RangeSet] *)
Section Half.
  Context {K V : Type}.
  Notation ends pre := (map (fun e : range K * V => r_end (fst e)) pre).

  (** With a lawful comparison and a query that borrows the same range each time,
      these are the iterators of MapModel.v. *)
  Theorem C115_model (cmp : K -> K -> comparison) :
    (forall d (o : overlapping K V) n, exists n',
       let x := match d with Front => ov_next cmp o | Back => ov_next_back cmp o end in
       ovq_step (fun _ => cmp) (fun _ => ov_query o) d (n, ov_iter o) = (Ret (fst x), (n', ov_iter (snd x)))) /\
    (forall (g : gaps K V) n, exists n',
       gpq_next (fun _ => cmp) (n, g) = (Ret (fst (gp_next cmp g)), (n', snd (gp_next cmp g)))).
  Proof.
    split.
    - intros d o n. rewrite t_ovq. destruct d.
      + pose proof (ovh_step_erase (cmp := cmp) Front o) as E. rewrite E. eexists. reflexivity.
      + pose proof (ovh_step_erase (cmp := cmp) Back o) as E. rewrite E. eexists. reflexivity.
    - intros g n. rewrite (tl_gaps cmp n g), gph_next_erase. eexists. reflexivity.
  Qed.

  Context (kc : nat -> K -> K -> comparison).
  (** Any schedule of [next] and [next_back]: every call returns; what [next] gave,
      what is left, and what [next_back] gave (last first) are the entries in
      order, some of them left out; a comparison said of each entry given that it
      starts before the end of the query, and of each one left out that it does
      not; and one comparison is made for each entry taken. *)
  Theorem C115_overlapping (bw : nat -> range K) : forall sched n (l : list (range K * V)),
    let evs := ask_run (ovq_step kc bw) sched (n, l) in
    let s := ask_state (ovq_step kc bw) sched (n, l) in
    exists lost, deals l (given Front evs ++ snd s ++ rev (given Back evs)) lost /\
      (forall d e, In e (given d evs) -> exists m, n <= m < fst s /\ kc m (r_start (fst e)) (r_end (bw m)) = Lt) /\
      (forall e, In e lost -> exists m, n <= m < fst s /\ kc m (r_start (fst e)) (r_end (bw m)) <> Lt) /\
      (forall o, In o (map snd evs) -> exists x, o = Ret x) /\
      fst s + length (snd s) = n + length l.
  Proof.
    intros sched n l evs s. destruct (ends_run _ _ (ovq_front kc bw) (ovq_back kc bw) sched n l) as (lost & H1 & H2 & H3 & H4).
    exists lost. split; [exact H1|]. split; [|split; [|exact H4]].
    - intros d e He. destruct (H2 d e He) as (m & Hm & Ht). exists m. split; [exact Hm|].
      unfold ovq_test in Ht. destruct (kc m _ _); congruence.
    - intros e He. destruct (H3 e He) as (m & Hm & Ht). exists m. split; [exact Hm|].
      unfold ovq_test in Ht. destruct (kc m _ _); congruence.
  Qed.

  (** One call of [Gaps::next]: it returns, having taken the entries [tk].  What it
      gives is [None], or a gap from the end of one of them (or from where the
      iterator stood) to the start of the next (or to the end of the query).  It
      makes two comparisons for each entry, and one more if it gets past them. *)
  Theorem C115_gaps_next : forall n (g : gaps K V), exists tk o n' g', gpq_next kc (n, g) = (Ret o, (n', g')) /\
    gp_iter g = tk ++ gp_iter g' /\ gp_query_end g' = gp_query_end g /\
    ((exists pre e, tk = pre ++ [e] /\
        o = Some (mkR (last (ends pre) (gp_candidate_start g)) (r_start (fst e))) /\
        gp_candidate_start g' = r_end (fst e) /\ n' = n + 2 * length tk) \/
     (exists pre post, tk = pre ++ post /\ (length post = 1 \/ post = [] /\ gp_iter g' = []) /\
        n' = n + 2 * length pre + length post + 1 /\
        let c := last (ends pre) (gp_candidate_start g) in
        ((o = None /\ gp_candidate_start g' = c) \/
         (o = Some (mkR c (gp_query_end g)) /\ gp_candidate_start g' = gp_query_end g)))).
  Proof. exact (gpq_next_spec kc). Qed.
  (** any number of calls: they return, and make at most two comparisons for each
      entry and one for each call *)
  Theorem C115_gaps_run : forall calls n (g : gaps K V),
    let evs := ask_run (fun _ : unit => gpq_next kc) calls (n, g) in
    let s := ask_state (fun _ : unit => gpq_next kc) calls (n, g) in
    (forall o, In o (map snd evs) -> exists x, o = Ret x) /\
    n <= fst s <= n + 2 * (length (gp_iter g) - length (gp_iter (snd s))) + length calls /\
    length (gp_iter (snd s)) <= length (gp_iter g) /\ gp_query_end (snd s) = gp_query_end g.
  Proof.
    induction calls as [|u calls IH]; intros n g; cbn [ask_run ask_state map length].
    - cbn. splits; try lia; auto; intros o [].
    - destruct (gpq_next_spec kc n g) as (tk & o & n' & g' & E & H1 & H2 & H3). rewrite E. cbn [snd].
      destruct (IH n' g') as (I1 & I2 & I3 & I4).
      remember (ask_state (fun _ : unit => gpq_next kc) calls (n', g')) as s eqn:Es; clear Es. rewrite H1, app_length.
      assert (B : n <= n' <= n + 2 * length tk + 1).
      { destruct H3 as [(pre & e & -> & _ & _ & ->)|(pre & post & -> & Hp & -> & _)]; rewrite app_length; cbn; [lia|].
        destruct Hp as [->|[-> _]]; cbn; lia. }
      cbn [map snd]. splits; try lia; [|congruence]. intros x [<-|Hx]; [eexists; reflexivity|apply I1, Hx].
  Qed.
End Half.

(** with a lawful order and a query that borrows other ranges each time, [q1] and
    [q2] when the iterator is made: the entries given are stored, end after the
    start of [q2], and start before the end of a range borrowed later *)
Theorem C115_borrow : forall (K V : Type) (cmp : K -> K -> comparison) (veqb : V -> V -> bool), TotalOrd cmp ->
  forall ops q1 q2 bw sched, exists l, rmq_overlapping cmp (rm_run cmp veqb ops) q1 q2 = Ret l /\
  let evs := ask_run (ovq_step (fun _ => cmp) bw) sched (0, l) in
  let s := ask_state (ovq_step (fun _ => cmp) bw) sched (0, l) in
  exists lost, deals (filter (fun e => ltb cmp (r_start q2) (r_end (fst e))) (rm_iter (rm_run cmp veqb ops)))
                     (given Front evs ++ snd s ++ rev (given Back evs)) lost /\
    (forall d e, In e (given d evs) -> exists m, m < fst s /\ ltb cmp (r_start (fst e)) (r_end (bw m)) = true) /\
    (forall e, In e lost -> exists m, m < fst s /\ ltb cmp (r_start (fst e)) (r_end (bw m)) = false) /\
    (forall o, In o (map snd evs) -> exists x, o = Ret x).
Proof.
  intros K V cmp veqb HO ops q1 q2 bw sched. set (m := rm_run cmp veqb ops).
  destruct (overlapping_split HO m q2 (run_any HO ops)) as (L & N & E & HL & HN & HR).
  exists N. split.
  { unfold rm_overlapping in HR. unfold rmq_overlapping. change (bt_range (cmp_end cmp) (Excluded (mkR (r_start q1) (r_start q2))) Unbounded m)
      with (bt_range (cmp_end cmp) (Excluded (mkR (r_start q2) (r_start q2))) Unbounded m).
    destruct (bt_range _ _ _ m); cbn in HR; [injection HR as ->; reflexivity|discriminate HR..]. }
  assert (F : filter (fun e => ltb cmp (r_start q2) (r_end (fst e))) (rm_iter m) = N).
  { unfold rm_iter. rewrite E, filter_app, (filter_all_false _ L), (filter_all_true _ N); [reflexivity|exact HN|].
    intros a Ha. specialize (HL a Ha). cbn. ord. }
  cbv zeta. rewrite F. destruct (C115_overlapping (fun _ => cmp) bw sched 0 N) as (lost & H1 & H2 & H3 & H4 & _).
  exists lost. split; [exact H1|]. split; [|split; [|exact H4]].
  - intros d e He. destruct (H2 d e He) as (k & Hk & Ht). exists k. split; [lia|]. unfold ltb. rewrite Ht. reflexivity.
  - intros e He. destruct (H3 e He) as (k & Hk & Ht). exists k. split; [lia|]. unfold ltb. destruct (cmp _ _); congruence.
Qed.

(** ** C116: [RangeInclusiveMap], [RangeInclusiveSet] *)
Section Incl.
  Context {K V : Type}.
  Notation ends pre := (map (fun e : rangei K * V => ri_end (fst e)) pre).

  Theorem C116_model (cmp : K -> K -> comparison) (st : stepfns K) :
    (forall d (o : overlappingi K V) n, exists n',
       let x := match d with Front => ovi_next cmp o | Back => ovi_next_back cmp o end in
       oviq_step (fun _ => cmp) (fun _ => ovi_query o) d (n, ovi_iter o) = (Ret (fst x), (n', ovi_iter (snd x)))) /\
    (forall (g : gapsi K V) n, exists n',
       gpiq_next (fun _ => cmp) st (n, g) = (fst (gpi_next cmp st g), (n', snd (gpi_next cmp st g)))).
  Proof.
    split.
    - intros d o n. rewrite t_oviq. destruct d.
      + pose proof (ovhi_step_erase (cmp := cmp) Front o) as E. rewrite E. eexists. reflexivity.
      + pose proof (ovhi_step_erase (cmp := cmp) Back o) as E. rewrite E. eexists. reflexivity.
    - intros g n. rewrite (tl_igaps cmp st n g), gphi_next_erase. eexists. reflexivity.
  Qed.

  Context (kc : nat -> K -> K -> comparison).
  Theorem C116_overlapping (bw : nat -> rangei K) : forall sched n (l : list (rangei K * V)),
    let evs := ask_run (oviq_step kc bw) sched (n, l) in
    let s := ask_state (oviq_step kc bw) sched (n, l) in
    exists lost, deals l (given Front evs ++ snd s ++ rev (given Back evs)) lost /\
      (forall d e, In e (given d evs) -> exists m, n <= m < fst s /\ kc m (ri_start (fst e)) (ri_end (bw m)) <> Gt) /\
      (forall e, In e lost -> exists m, n <= m < fst s /\ kc m (ri_start (fst e)) (ri_end (bw m)) = Gt) /\
      (forall o, In o (map snd evs) -> exists x, o = Ret x) /\
      fst s + length (snd s) = n + length l.
  Proof.
    intros sched n l evs s. destruct (ends_run _ _ (oviq_front kc bw) (oviq_back kc bw) sched n l) as (lost & H1 & H2 & H3 & H4).
    exists lost. split; [exact H1|]. split; [|split; [|exact H4]].
    - intros d e He. destruct (H2 d e He) as (m & Hm & Ht). exists m. split; [exact Hm|].
      unfold oviq_test in Ht. destruct (kc m _ _); congruence.
    - intros e He. destruct (H3 e He) as (m & Hm & Ht). exists m. split; [exact Hm|].
      unfold oviq_test in Ht. destruct (kc m _ _); congruence.
  Qed.

  (** As C115; a gap after an entry starts at [add_one] of its end, one before an
      entry ends at [sub_one] of its start.  A call panics only if one of the step
      functions does. *)
  Context (st : stepfns K).
  Theorem C116_gaps_next : forall n (g : gapsi K V), exists tk o n' g', gpiq_next kc st (n, g) = (o, (n', g')) /\
    gpi_iter g = tk ++ gpi_iter g' /\ gpi_query_end g' = gpi_query_end g /\ gpi_needs_plus_one g' = true /\
    let from (pre : list (rangei K * V)) s :=
      if match pre with [] => gpi_needs_plus_one g | _ => true end
      then add_one st (last (ends pre) (gpi_candidate_start g)) = Some s
      else s = gpi_candidate_start g in
    ((exists pre e s p, tk = pre ++ [e] /\ o = Ret (Some (incl s p)) /\ from pre s /\
        sub_one st (ri_start (fst e)) = Some p /\
        gpi_candidate_start g' = ri_end (fst e) /\ n' = n + 2 * length tk) \/
     (exists pre post, tk = pre ++ post /\ (length post = 1 \/ post = [] /\ gpi_iter g' = []) /\
        n' = n + 2 * length pre + length post + 1 /\ gpi_candidate_start g' = gpi_query_end g /\
        (o = Ret None \/ exists s, from pre s /\ o = Ret (Some (incl s (gpi_query_end g))))) \/
     ((exists x, add_one st x = None \/ sub_one st x = None) /\ o = Panicked PStep /\
        n <= n' <= n + 2 * length tk + 1)).
  Proof. exact (gpiq_next_spec kc st). Qed.
  Theorem C116_gaps_run : forall calls n (g : gapsi K V),
    let evs := ask_run (fun _ : unit => gpiq_next kc st) calls (n, g) in
    let s := ask_state (fun _ : unit => gpiq_next kc st) calls (n, g) in
    (forall o, In o (map snd evs) -> (exists x, o = Ret x) \/
       o = Panicked PStep /\ exists x, add_one st x = None \/ sub_one st x = None) /\
    n <= fst s <= n + 2 * (length (gpi_iter g) - length (gpi_iter (snd s))) + length calls /\
    length (gpi_iter (snd s)) <= length (gpi_iter g) /\ gpi_query_end (snd s) = gpi_query_end g.
  Proof.
    induction calls as [|u calls IH]; intros n g; cbn [ask_run ask_state map length].
    - cbn. splits; try lia; auto; intros o [].
    - destruct (gpiq_next_spec kc st n g) as (tk & o & n' & g' & E & H1 & H2 & _ & H3). rewrite E. cbn [snd].
      destruct (IH n' g') as (I1 & I2 & I3 & I4).
      remember (ask_state (fun _ : unit => gpiq_next kc st) calls (n', g')) as s eqn:Es; clear Es. rewrite H1, app_length.
      assert (B : n <= n' <= n + 2 * length tk + 1 /\
        ((exists x, o = Ret x) \/ o = Panicked PStep /\ exists x, add_one st x = None \/ sub_one st x = None)).
      { destruct H3 as [(pre & e & a & b & -> & -> & _ & _ & _ & ->)|[(pre & post & -> & Hp & -> & _ & [-> | (a & _ & ->)])|(Hx & -> & Hn)]].
        - split; [rewrite app_length; cbn; lia|left; eauto].
        - split; [rewrite app_length; destruct Hp as [-> | [-> _]]; cbn; lia|left; eauto].
        - split; [rewrite app_length; destruct Hp as [-> | [-> _]]; cbn; lia|left; eauto].
        - split; [exact Hn|right; auto]. }
      destruct B as [B Bo]. cbn [map snd]. splits; try lia; [|congruence]. intros x [<-|Hx]; [exact Bo|apply I1, Hx].
  Qed.
End Incl.

Theorem C116_borrow : forall (K V : Type) (cmp : K -> K -> comparison) (veqb : V -> V -> bool) (st : stepfns K),
  TotalOrd cmp -> StepLaws cmp st ->
  forall ops q1 q2 bw sched, exists l, imq_overlapping cmp (im_run cmp veqb st ops) q1 q2 = Ret l /\
  let evs := ask_run (oviq_step (fun _ => cmp) bw) sched (0, l) in
  let s := ask_state (oviq_step (fun _ => cmp) bw) sched (0, l) in
  exists lost, deals (filter (fun e => leb cmp (ri_start q2) (ri_end (fst e))) (im_iter (im_run cmp veqb st ops)))
                     (given Front evs ++ snd s ++ rev (given Back evs)) lost /\
    (forall d e, In e (given d evs) -> exists m, m < fst s /\ leb cmp (ri_start (fst e)) (ri_end (bw m)) = true) /\
    (forall e, In e lost -> exists m, m < fst s /\ leb cmp (ri_start (fst e)) (ri_end (bw m)) = false) /\
    (forall o, In o (map snd evs) -> exists x, o = Ret x).
Proof.
  intros K V cmp veqb st HO HS ops q1 q2 bw sched. set (m := im_run cmp veqb st ops).
  pose proof (overlapping_at (cmp := cmp) m q2) as HR. destruct (before_split HO m q2 (WWi_ok HO HS _ (run_fe HO HS ops))) as (L & E & HL & HN).
  set (N := drop_while _ m) in *. exists N. split.
  { unfold im_overlapping in HR. unfold imq_overlapping. change (bt_range (cmpi_end cmp) (Included (incl (ri_start q1) (ri_start q2))) Unbounded m)
      with (bt_range (cmpi_end cmp) (Included (incl (ri_start q2) (ri_start q2))) Unbounded m).
    destruct (bt_range _ _ _ m); cbn in HR; [injection HR as ->; reflexivity|discriminate HR..]. }
  assert (F : filter (fun e => leb cmp (ri_start q2) (ri_end (fst e))) (im_iter m) = N).
  { unfold im_iter. rewrite E, filter_app, (filter_all_false _ L), (filter_all_true _ N); [reflexivity| |].
    - intros a Ha. specialize (HN a Ha). unfold HaltIncl.before in HN. ord.
    - intros a Ha. specialize (HL a Ha). unfold HaltIncl.before in HL. ord. }
  cbv zeta. rewrite F. destruct (C116_overlapping (fun _ => cmp) bw sched 0 N) as (lost & H1 & H2 & H3 & H4 & _).
  exists lost. split; [exact H1|]. split; [|split; [|exact H4]].
  - intros d e He. destruct (H2 d e He) as (k & Hk & Ht). exists k. split; [lia|]. unfold leb. destruct (cmp _ _); congruence.
  - intros e He. destruct (H3 e He) as (k & Hk & Ht). exists k. split; [lia|]. unfold leb. rewrite Ht. reflexivity.
Qed.

(** ** Examples *)
Open Scope Z_scope.
(** comparisons that say [Less] every other time, a query that changes its mind *)
Definition flip (n : nat) (_ _ : Z) : comparison := if Nat.even n then Lt else Gt.
Definition es : list (range Z * Z) := [(mkR 1 3, 7); (mkR 4 6, 8); (mkR 8 9, 7); (mkR 12 15, 9)].
Example C115_example :
  ask_run (ovq_step flip (fun n => mkR 0 (Z.of_nat n))) [Front; Front; Back; Front] (0%nat, es) =
    [(Front, Ret (Some (mkR 1 3, 7))); (Front, Ret None); (Back, Ret (Some (mkR 12 15, 9))); (Front, Ret None)] /\
  ask_run (ovq_step (fun _ => Z.compare) (fun n => mkR 0 (10 - 4 * Z.of_nat n))) [Back; Front; Back] (0%nat, es) =
    [(Back, Ret None); (Front, Ret None); (Back, Ret None)] /\
  ask_run (fun _ : unit => gpq_next (fun n a b => if Nat.odd n then Lt else Gt)) [tt; tt; tt] (0%nat, mkGaps 5 10 es) =
    [(tt, Ret (Some (mkR 5 1))); (tt, Ret (Some (mkR 3 4))); (tt, Ret (Some (mkR 6 8)))] /\
  TotalOrd Z.compare /\
  rmq_overlapping Z.compare (rm_run Z.compare Z.eqb (map (fun e => OInsert (fst e) (snd e)) es)) (mkR 90 0) (mkR 5 0) = Ret (tl es) /\
  ask_run (ovq_step (fun _ => Z.compare) (fun n => mkR 50 (5 * Z.of_nat n))) [Front; Back; Back] (0%nat, tl es) =
    [(Front, Ret None); (Back, Ret (Some (mkR 8 9, 7))); (Back, Ret None)].
Proof. splits; [vm_compute; reflexivity..|exact Z_order|vm_compute; reflexivity|vm_compute; reflexivity]. Qed.
(** What does not hold without the contracts: that [Overlapping] is fused, as its
    [FusedIterator] promises.  A lawful order is not enough, if the query borrows
    different ranges, *)
Theorem C115_fused_refuted : exists (bw : nat -> range Z) (l : list (range Z * Z)) e,
  ask_run (ovq_step (fun _ => Z.compare) bw) [Front; Front] (0%nat, l) = [(Front, Ret None); (Front, Ret (Some e))].
Proof.
  exists (fun n => mkR 0 (10 * Z.of_nat n)), [(mkR 1 3, 7); (mkR 4 6, 8)], (mkR 4 6, 8). reflexivity.
Qed.
(** and that [Gaps] ends *)
Theorem C115_gaps_ends_refuted : exists (kc : nat -> Z -> Z -> comparison) (g : gaps Z Z), forall m o,
  In o (map snd (ask_run (fun _ : unit => gpq_next kc) (repeat tt m) (0%nat, g))) -> exists r, o = Ret (Some r).
Proof.
  exists (fun _ _ _ => Lt), (mkGaps 0 9 []). intros m. generalize 0%nat as n. generalize 0 as c. generalize 9 as q.
  induction m as [|m IH]; intros q c n o; [intros []|]. cbn. intros [<-|Hin]; [eauto|]. exact (IH _ _ _ _ Hin).
Qed.

Definition ies : list (rangei Z * Z) := [(incl 1 2, 7); (mkRI 4 5 true, 8); (incl 8 8, 7); (incl 12 14, 9)].
(** counting in unsigned numbers: [sub_one 0] panics *)
Definition ust : stepfns Z := mkStep (fun x => Some (x + 1)) (fun x => if x =? 0 then None else Some (x - 1)).
Example C116_example :
  ask_run (oviq_step flip (fun n => incl 0 (Z.of_nat n))) [Front; Front; Back; Front] (0%nat, ies) =
    [(Front, Ret (Some (incl 1 2, 7))); (Front, Ret None); (Back, Ret (Some (incl 12 14, 9))); (Front, Ret None)] /\
  ask_run (fun _ : unit => gpiq_next (fun n a b => if Nat.odd n then Lt else Gt) ust) [tt; tt; tt] (0%nat, mkGapsI false 5 10 ies) =
    [(tt, Ret (Some (incl 5 0))); (tt, Ret (Some (incl 3 3))); (tt, Ret (Some (incl 6 7)))] /\
  ask_run (fun _ : unit => gpiq_next (fun n a b => if Nat.odd n then Lt else Gt) ust) [tt; tt] (0%nat, mkGapsI false 5 10 [(incl 0 2, 7); (incl 6 7, 8)]) =
    [(tt, Panicked PStep); (tt, Ret (Some (incl 3 5)))] /\
  TotalOrd Z.compare /\ StepLaws Z.compare zst /\
  imq_overlapping Z.compare (im_run Z.compare Z.eqb zst (map (fun e => OInsert (fst e) (snd e)) ies)) (incl 90 0) (incl 5 0) = Ret (tl ies) /\
  ask_run (oviq_step (fun _ => Z.compare) (fun n => incl 50 (4 * Z.of_nat n))) [Front; Back; Back] (0%nat, tl ies) =
    [(Front, Ret None); (Back, Ret (Some (incl 8 8, 7))); (Back, Ret None)].
Proof. splits; [vm_compute; reflexivity..|exact Z_order|exact zst_laws|vm_compute; reflexivity|vm_compute; reflexivity]. Qed.
Theorem C116_fused_refuted : exists (bw : nat -> rangei Z) (l : list (rangei Z * Z)) e,
  ask_run (oviq_step (fun _ => Z.compare) bw) [Front; Front] (0%nat, l) = [(Front, Ret None); (Front, Ret (Some e))].
Proof.
  exists (fun n => incl 0 (10 * Z.of_nat n)), [(incl 1 3, 7); (incl 4 6, 8)], (incl 4 6, 8). reflexivity.
Qed.
Theorem C116_gaps_ends_refuted : exists (kc : nat -> Z -> Z -> comparison) (g : gapsi Z Z), forall m o,
  In o (map snd (ask_run (fun _ : unit => gpiq_next kc zst) (repeat tt m) (0%nat, g))) -> exists r, o = Ret (Some r).
Proof.
  exists (fun _ _ _ => Lt), (mkGapsI true 0 9 []). intros m. generalize 0%nat as n. generalize 0 as c. generalize 9 as q.
  induction m as [|m IH]; intros q c n o; [intros []|]. cbn. intros [<-|Hin]; [eauto|]. exact (IH _ _ _ _ Hin).
Qed.

Print Assumptions C115_model.
Print Assumptions C115_overlapping.
Print Assumptions C115_borrow.
Print Assumptions C115_gaps_next.
Print Assumptions C115_gaps_run.
Print Assumptions C115_fused_refuted.
Print Assumptions C115_gaps_ends_refuted.
Print Assumptions C116_model.
Print Assumptions C116_overlapping.
Print Assumptions C116_borrow.
Print Assumptions C116_gaps_next.
Print Assumptions C116_gaps_run.
Print Assumptions C116_fused_refuted.
Print Assumptions C116_gaps_ends_refuted.
