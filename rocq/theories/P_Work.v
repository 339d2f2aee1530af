(** The calls an update makes on the underlying [BTreeMap] (C83, C84), and the
    items a query takes out of its iterator (C86, C87).
    [fst (rmt_exec cmp veqb o m)] is the list of the calls call [o] makes on map
    [m]: [range] ([searches]), an item taken from a range iterator ([reads]), and
    [insert], [remove], [clear] ([changes]).  [bt_calls] is the list for a
    history. *)
From Coq Require Import List Bool Sorting.Sorted ZArith Lia.
From Verif Require Import Order Outcome BTree Ranges History Spec MapModel IMapModel StepModel StepFacts
  MapFacts MapMore MapProps IMapProps CrashModel WorkModel WorkFacts QueryWork Instances P_Cost.
Import ListNotations.

Section Half.
  Context {K V : Type} {cmp : K -> K -> comparison} {veqb : V -> V -> bool}.
  Context (HO : TotalOrd cmp) (HV : PartialEquiv veqb).
  Notation run := (rm_run cmp veqb).
  Notation tx := (rmt_exec cmp veqb).

  (** the record is the call's own, and its modifications are those of C62 *)
  Theorem C83_record_faithful : forall o m,
    snd (tx o m) = rm_exec cmp veqb o m /\
    changes (fst (tx o m)) = length (fst (rmx_exec cmp veqb o m)).
  Proof. exact wk_erase. Qed.
  (** all searches but two remove an entry; nothing is read that is not needed *)
  Theorem C83_insert : forall ops r v, let t := fst (tx (OInsert r v) (run ops)) in
    searches t <= removes t + 2 /\ reads t <= searches t + 1 /\ length t <= 3 * changes t + 3.
  Proof. exact (wk_insert HO HV). Qed.
  Theorem C83_remove : forall ops r, let t := fst (tx (ORemove r) (run ops)) in
    searches t <= removes t + 2 /\ reads t <= searches t /\ length t <= 3 * changes t + 4.
  Proof. exact (wk_remove HO HV). Qed.
  (** the calls are paid for by a constant and by the entries that disappear *)
  Theorem C83_call_work : forall ops o,
    length (fst (tx o (run ops))) + 3 * rm_len (run (ops ++ [o])) <= 3 * rm_len (run ops) + op_work o.
  Proof. exact (wk_call HO HV). Qed.
  (** so a whole history makes a constant number of them for every range given to it *)
  Theorem C83_history_work : forall ops,
    length (bt_calls tx ops rm_new) + 3 * rm_len (run ops) <= history_work ops.
  Proof. exact (wk_history HO HV). Qed.

  (** [overlapping] goes straight to the first entry that ends after the query's
      start; every [next] takes one item; any schedule of calls takes one per call
      and, if at all, each entry that starts at or after the query's end *)
  Theorem C86_overlapping : forall ops q, exists o, rm_overlapping cmp (run ops) q = Ret o /\
    ov_iter o = filter (fun e => ltb cmp (r_start q) (r_end (fst e))) (run ops) /\
    (forall n, ov_iter (Nat.iter n (fun o => snd (ov_next cmp o)) o) = skipn n (ov_iter o)) /\
    (forall sched, length (ov_iter o) <=
      length (ov_iter (sched_end (both (ov_next cmp) (ov_next_back cmp)) sched o)) + length sched
      + length (filter (fun e => leb cmp (r_end q) (r_start (fst e))) (run ops))).
  Proof. exact (q_half HO HV). Qed.
  (** [gaps] likewise; [n] calls of [next] take at most [n] items besides the
      entries that overlap the query *)
  Theorem C86_gaps : forall ops q, exists g, rm_gaps cmp (run ops) q = Ret g /\
    gp_iter g = filter (fun e => ltb cmp (r_start q) (r_end (fst e))) (run ops) /\
    (forall n, length (gp_iter g) <= length (gp_iter (Nat.iter n (fun g => snd (gp_next cmp g)) g)) + n
      + length (filter (fun e => meets cmp q (fst e)) (run ops))).
  Proof. exact (g_half HO HV). Qed.
End Half.

Section Incl.
  Context {K V : Type} {cmp : K -> K -> comparison} {veqb : V -> V -> bool} {st : stepfns K}.
  Context (HO : TotalOrd cmp) (HS : StepLaws cmp st) (HV : PartialEquiv veqb).
  Notation run := (im_run cmp veqb st).
  Notation tx := (imt_exec cmp veqb st).

  Theorem C84_record_faithful : forall o m,
    snd (tx o m) = im_exec cmp veqb st o m /\
    changes (fst (tx o m)) = length (fst (imx_exec cmp veqb st o m)).
  Proof. exact iwk_erase. Qed.
  Theorem C84_insert : forall ops r v, let t := fst (tx (OInsert r v) (run ops)) in
    searches t <= removes t + 2 /\ reads t <= searches t + 1 /\ length t <= 3 * changes t + 3.
  Proof. exact (iwk_insert HO HS HV). Qed.
  Theorem C84_remove : forall ops r, let t := fst (tx (ORemove r) (run ops)) in
    searches t <= removes t + 2 /\ reads t <= searches t /\ length t <= 3 * changes t + 4.
  Proof. exact (iwk_remove HO HS HV). Qed.
  Theorem C84_call_work : forall ops o,
    length (fst (tx o (run ops))) + 3 * im_len (run (ops ++ [o])) <= 3 * im_len (run ops) + op_work o.
  Proof. exact (iwk_call HO HS HV). Qed.
  Theorem C84_history_work : forall ops,
    length (bt_calls tx ops im_new) + 3 * im_len (run ops) <= history_work ops.
  Proof. exact (iwk_history HO HS HV). Qed.

  Theorem C87_overlapping : forall ops q, exists o, im_overlapping cmp (run ops) q = Ret o /\
    ovi_iter o = filter (fun e => leb cmp (ri_start q) (ri_end (fst e))) (run ops) /\
    (forall n, ovi_iter (Nat.iter n (fun o => snd (ovi_next cmp o)) o) = skipn n (ovi_iter o)) /\
    (forall sched, length (ovi_iter o) <=
      length (ovi_iter (sched_end (both (ovi_next cmp) (ovi_next_back cmp)) sched o)) + length sched
      + length (filter (fun e => ltb cmp (ri_end q) (ri_start (fst e))) (run ops))).
  Proof. exact (qi_half HO HS HV). Qed.
  Theorem C87_gaps : forall ops q, exists g, im_gaps cmp (run ops) q = Ret g /\
    gpi_iter g = filter (fun e => leb cmp (ri_start q) (ri_end (fst e))) (run ops) /\
    (forall n, length (gpi_iter g) <= length (gpi_iter (Nat.iter n (fun g => snd (gpi_next cmp st g)) g)) + n
      + length (filter (fun e => meetsi cmp q (fst e)) (run ops))).
  Proof. exact (gi_half HO HS HV). Qed.
End Incl.

Local Open Scope Z_scope.
Notation zrun := (rm_run Z.compare Z.eqb).
Notation ztx := (rmt_exec Z.compare Z.eqb).
Notation izrun := (im_run Z.compare Z.eqb zst).
Notation iztx := (imt_exec Z.compare Z.eqb zst).
Definition w_ops : list (op (range Z) Z) := [OExtend [(mkR 0 9, 1); (mkR 20 30, 2); (mkR 30 40, 3); (mkR 50 60, 2)]].
(** cutting an entry in two; bridging two entries over a third; removing from
    three entries; an invalid range *)
Example C83_example : TotalOrd Z.compare /\ PartialEquiv Z.eqb /\
  fst (ztx (OInsert (mkR 3 4) 2) (zrun w_ops)) =
    [BSearch; BRead; BRemove; BInsert; BInsert; BSearch; BRead; BInsert] /\
  fst (ztx (OInsert (mkR 25 50) 2) (zrun w_ops)) =
    [BSearch; BRead; BRead; BRemove; BSearch; BRead; BRemove; BSearch; BRead; BRemove; BSearch; BInsert] /\
  fst (ztx (ORemove (mkR 5 55)) (zrun w_ops)) =
    [BSearch; BRead; BRemove; BInsert; BSearch; BRead; BRemove; BSearch; BRead; BRemove; BSearch; BRead; BRemove; BInsert; BSearch] /\
  fst (ztx (ORemove (mkR 5 5)) (zrun w_ops)) = [] /\
  length (bt_calls ztx (w_ops ++ [OInsert (mkR 25 50) 2; ORemove (mkR 5 55)]) rm_new) = 38%nat /\
  history_work (w_ops ++ [OInsert (mkR 25 50) 2; ORemove (mkR 5 55)]) = 121%nat.
Proof. split; [exact Z_order|]. split; [exact Z_per|]. vm_compute. auto 10. Qed.
Definition wi_ops : list (op (rangei Z) Z) := [OExtend [(incl 0 9, 1); (incl 20 30, 2); (incl 31 40, 3); (mkRI 51 60 true, 2)]].
Example C84_example : TotalOrd Z.compare /\ StepLaws Z.compare zst /\ PartialEquiv Z.eqb /\
  fst (iztx (OInsert (incl 3 4) 2) (izrun wi_ops)) =
    [BSearch; BRead; BRemove; BInsert; BInsert; BSearch; BRead; BInsert] /\
  fst (iztx (OInsert (incl 25 50) 2) (izrun wi_ops)) =
    [BSearch; BRead; BRead; BRemove; BSearch; BRead; BRemove; BSearch; BRead; BRemove; BSearch; BInsert] /\
  fst (iztx (ORemove (incl 5 55)) (izrun wi_ops)) =
    [BSearch; BRead; BRemove; BInsert; BSearch; BRead; BRemove; BSearch; BRead; BRemove; BSearch; BRead; BRemove; BInsert; BSearch] /\
  fst (iztx (ORemove (incl 5 4)) (izrun wi_ops)) = [].
Proof. split; [exact Z_order|]. split; [exact zst_laws|]. split; [exact Z_per|]. vm_compute. auto 10. Qed.

(** The last summand of [C86_overlapping] cannot be dropped: one [next_back] on a
    query that overlaps a single entry may take any number of items. *)
Lemma back_all q rl : forall e : range Z * Z, (forall a, In a rl -> r_end q <= r_start (fst a)) ->
  r_start (fst e) < r_end q -> ov_back_loop Z.compare q (rl ++ [e]) = (Some e, []).
Proof.
  induction rl as [|a rl IH]; intros e Hr He; cbn [app ov_back_loop].
  - unfold ltb. rewrite (proj2 (Z.compare_lt_iff _ _) He). reflexivity.
  - assert (X : ltb Z.compare (r_start (fst a)) (r_end q) = false).
    { specialize (Hr a (or_introl eq_refl)). unfold ltb. destruct (Z.compare_spec (r_start (fst a)) (r_end q)); lia || reflexivity. }
    rewrite X. apply IH; [|exact He]. intros b Hb. apply Hr. right; exact Hb.
Qed.
Theorem C86_bounded_next_back_refuted : forall n, exists ops q o,
  rm_overlapping Z.compare (zrun ops) q = Ret o /\
  length (filter (fun e => meets Z.compare q (fst e)) (zrun ops)) = 1%nat /\
  (length (ov_iter (snd (ov_next_back Z.compare o))) + n < length (ov_iter o))%nat.
Proof.
  intros n. set (m := cells (S n) 0). set (q := mkR 0 1).
  set (ops := map (fun e => OInsert (fst e) (snd e)) m). exists ops, q.
  assert (E : zrun ops = m) by (apply (MapMore.insert_all_app Z_order m [] (cells_WF (S n) 0))).
  destruct (q_half Z_order Z_per ops q) as (o & H1 & H2 & _). rewrite E in H2.
  assert (Hq : ov_query o = q).
  { revert H1. rewrite (q_seek Z_order Z_per). intros [= <-]. reflexivity. }
  exists o. rewrite E. split; [rewrite <- E; exact H1|].
  assert (Hc : forall e, In e (cells n 2) -> 2 <= r_start (fst e) < r_end (fst e)).
  { intros e He. apply cells_In in He. lia. }
  assert (H3 : ov_iter o = m).
  { rewrite H2. apply MapIter.filter_all_true. intros e He. apply cells_In in He. unfold ltb. cbn [q r_start].
    destruct (Z.compare_spec 0 (r_end (fst e))); lia || reflexivity. }
  split.
  - unfold m. cbn [cells filter]. replace (meets Z.compare q (fst (mkR 0 (0 + 1), 0))) with true by reflexivity.
    cbn [length]. f_equal. rewrite MapIter.filter_all_false; [reflexivity|]. intros e He. specialize (Hc e He).
    unfold meets, ltb. cbn [q r_start r_end]. destruct (Z.compare_spec (r_start (fst e)) 1); lia.
  - rewrite H3. unfold ov_next_back. rewrite Hq, H3. unfold m. cbn [cells rev]. rewrite back_all.
    + cbn. rewrite cells_length. lia.
    + intros a Ha. apply in_rev in Ha. specialize (Hc a Ha). cbn. lia.
    + cbn. lia.
Qed.

Lemma iback_all q : forall rl (e : rangei Z * Z), (forall a, In a rl -> ri_end q < ri_start (fst a)) ->
  ri_start (fst e) <= ri_end q -> ovi_back_loop Z.compare q (rl ++ [e]) = (Some e, []).
Proof.
  induction rl as [|a rl IH]; intros e Hr He; cbn [app ovi_back_loop].
  - replace (leb Z.compare (ri_start (fst e)) (ri_end q)) with true; [reflexivity|].
    unfold leb. destruct (Z.compare_spec (ri_start (fst e)) (ri_end q)); lia || reflexivity.
  - replace (leb Z.compare (ri_start (fst a)) (ri_end q)) with false.
    + apply IH; [|exact He]. intros b Hb. apply Hr. right; exact Hb.
    + specialize (Hr a (or_introl eq_refl)). unfold leb. destruct (Z.compare_spec (ri_start (fst a)) (ri_end q)); lia || reflexivity.
Qed.
Theorem C87_bounded_next_back_refuted : forall n, exists ops q o,
  im_overlapping Z.compare (izrun ops) q = Ret o /\
  length (filter (fun e => meetsi Z.compare q (fst e)) (izrun ops)) = 1%nat /\
  (length (ovi_iter (snd (ovi_next_back Z.compare o))) + n < length (ovi_iter o))%nat.
Proof.
  intros n. set (q := incl 0 0). exists (icell_ops (S n)), q.
  rewrite (qi_seek Z_order zst_laws Z_per), (icells_run (S n)).
  eexists. split; [reflexivity|].
  assert (Hc : forall e, In e (icells n 2) -> 2 <= ri_start (fst e) <= ri_end (fst e)).
  { intros e He. apply in_map_iff in He as (x & <- & Hx). apply cells_In in Hx. cbn. lia. }
  assert (H3 : filter (fun e => leb Z.compare (ri_start q) (ri_end (fst e))) (icells (S n) 0) = icells (S n) 0).
  { apply MapIter.filter_all_true. intros e He. apply in_map_iff in He as (x & <- & Hx). apply cells_In in Hx. unfold leb, icell, q. cbn [fst snd incl ri_start ri_end].
    destruct (Z.compare_spec 0 (r_end (fst x) - 1)); lia || reflexivity. }
  assert (I : icells (S n) 0 = (incl 0 0, 0) :: icells n 2) by reflexivity.
  rewrite H3, I. split.
  - cbn [filter]. replace (meetsi Z.compare q (fst (incl 0 0, 0))) with true by reflexivity.
    cbn [length]. f_equal. rewrite MapIter.filter_all_false; [reflexivity|]. intros e He. specialize (Hc e He).
    unfold meetsi, leb. cbn [q incl ri_start ri_end]. destruct (Z.compare_spec (ri_start (fst e)) 0); try lia.
  - unfold ovi_next_back. cbn [ovi_iter ovi_query rev]. rewrite iback_all.
    + cbn. unfold icells. rewrite map_length, cells_length. lia.
    + intros a Ha. apply in_rev in Ha. specialize (Hc a Ha). cbn. lia.
    + cbn. lia.
Qed.

(** 0..9, 20..30, 30..40, 50..60: a query of 9..35 finds three entries at once and
    needs no item beyond 50..60; its gaps 9..20 *)
Example C86_example : exists o g,
  rm_overlapping Z.compare (zrun w_ops) (mkR 9 35) = Ret o /\ rm_gaps Z.compare (zrun w_ops) (mkR 9 35) = Ret g /\
  map (fun e => r_start (fst e)) (ov_iter o) = [20; 30; 50] /\
  map (fun e => r_start (fst e)) (ov_iter (snd (ov_next_back Z.compare o))) = [20] /\
  nexts (gp_next Z.compare) 2 g = [Some (mkR 9 20); None] /\
  map (fun e => r_start (fst e)) (gp_iter (Nat.iter 1 (fun g => snd (gp_next Z.compare g)) g)) = [30; 50] /\
  gp_iter (Nat.iter 2 (fun g => snd (gp_next Z.compare g)) g) = [].
Proof. eexists. eexists. vm_compute. auto 10. Qed.
Example C87_example : exists o g,
  im_overlapping Z.compare (izrun wi_ops) (incl 9 35) = Ret o /\ im_gaps Z.compare (izrun wi_ops) (incl 9 35) = Ret g /\
  map (fun e => ri_start (fst e)) (ovi_iter o) = [0; 20; 31; 51] /\
  map (fun e => ri_start (fst e)) (ovi_iter (snd (ovi_next_back Z.compare o))) = [0; 20] /\
  map (fun e => ri_start (fst e)) (gpi_iter (Nat.iter 1 (fun g => snd (gpi_next Z.compare zst g)) g)) = [31; 51].
Proof. eexists. eexists. vm_compute. auto 10. Qed.
Print Assumptions C83_record_faithful.
Print Assumptions C83_insert.
Print Assumptions C83_remove.
Print Assumptions C83_call_work.
Print Assumptions C83_history_work.
Print Assumptions C84_record_faithful.
Print Assumptions C84_insert.
Print Assumptions C84_remove.
Print Assumptions C84_call_work.
Print Assumptions C84_history_work.
Print Assumptions C86_overlapping.
Print Assumptions C86_gaps.
Print Assumptions C86_bounded_next_back_refuted.
Print Assumptions C87_overlapping.
Print Assumptions C87_gaps.
Print Assumptions C87_bounded_next_back_refuted.
