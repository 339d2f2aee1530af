(** C111 to C114: iterators that are used again after user code ([Ord], [Clone],
    [StepFns], [Borrow]) panicked inside one of their calls and the panic was
    caught.  [halt_run next sched s] makes one call for each item of [sched],
    starting from the iterator [s].  [Some n] says that the [n]-th call of user
    code inside it panics, if there is one.  [completed] are the calls that
    returned, with their results; [panics] the calls of user code that panicked
    (HaltModel.v).  The histories [ops] that built the map are arbitrary; so is
    [==] on values. *)
From Coq Require Import List Bool Sorting.Sorted ZArith Lia.
From Verif Require Import Order Outcome Ranges History Spec SpecOps SpecHalt MapFacts MapModel IMapModel IMapProps StepModel SetModel
  ISetModel OpsModel IterFacts ListLemmas MapProofs AnyEq AnyFacts SetFacts SetProps ISetProps Exhausted ExhaustedSet ProgFacts
  OpsAny CloneModel CloneSetModel OpsCostModel AskIterModel HaltModel HaltFacts HaltIncl HaltOps HaltTally Instances.
Import ListNotations.

(** ** C111: [RangeMap], [RangeSet] *)
Section Half.
  Context {K V : Type} {cmp : K -> K -> comparison} {veqb : V -> V -> bool}.
  Context (HO : TotalOrd cmp).
  Notation run := (rm_run cmp veqb).
  Notation covers := (in_range cmp).

  (** without the record, these are the iterators of MapModel.v *)
  Theorem C111_erase :
    (forall d (o : overlapping K V), snd (ovh_step cmp d o) =
       let x := match d with Front => ov_next cmp o | Back => ov_next_back cmp o end in (Ret (fst x), snd x)) /\
    (forall g : gaps K V, snd (gph_next cmp g) = (Ret (fst (gp_next cmp g)), snd (gp_next cmp g))).
  Proof. split; [intros [] o; [exact (ovh_step_erase Front o)|exact (ovh_step_erase Back o)]|apply gph_next_erase]. Qed.
  (** the record is complete: [Overlapping] borrows the query and compares once for
      each entry it takes; the comparisons and clones are those that the models that
      count them (AskIterModel.v, CloneModel.v) make; [Gaps] calls nothing else *)
  Theorem C111_calls :
    (forall d (o : overlapping K V) n, let h := ovh_step cmp d o in
       map fst (fst h) = concat (repeat [UBorrow; UCmp] (length (ov_iter o) - length (ov_iter (snd (snd h))))%nat) /\
       ovq_step (fun _ => cmp) (fun _ => ov_query o) d (n, ov_iter o) =
         (fst (snd h), ((n + calls is_cmp (ovh_step cmp d) o)%nat, ov_iter (snd (snd h))))) /\
    (forall (g : gaps K V) n, let h := gph_next cmp g in
       gpq_next (fun _ => cmp) (n, g) = (fst (snd h), ((n + calls is_cmp (gph_next cmp) g)%nat, snd (snd h))) /\
       gpc_next (fun _ k => k) cmp (n, g) = (fst (snd h), ((n + calls is_clone (gph_next cmp) g)%nat, snd (snd h))) /\
       length (fst h) = (calls is_cmp (gph_next cmp) g + calls is_clone (gph_next cmp) g)%nat).
  Proof.
    split; [intros d o n h; split; [apply ov_calls|apply t_ovq]|]. intros g n h. split; [apply tl_gaps|]. split; [apply tc_gaps|].
    apply gph_kinds.
  Qed.

  (** the calls that return do so as if the query had left out some of the
      overlapping entries, at most one for every panic, and no others *)
  Theorem C111_overlapping : forall ops q sched,
    exists o, rm_overlapping cmp (run ops) q = Ret o /\
    let evs := halt_run (ovh_step cmp) sched o in
    exists j D, drops j (filter (fun e => meets cmp q (fst e)) (rm_iter (run ops))) D /\
      (j <= length (panics evs))%nat /\
      map snd (completed evs) = map Ret (deque_run (map fst (completed evs)) D).
  Proof. intros ops q sched. exact (overlapping_halts HO _ q sched (run_any HO ops)). Qed.
  (** [Gaps] loses gaps, and if a comparison panics it may lose an entry: later
      gaps are then those of the map without that entry.  At most one gap or
      entry is lost for every panic. *)
  Theorem C111_gaps : forall ops outer cuts,
    exists g, rm_gaps cmp (run ops) outer = Ret g /\
    let evs := halt_run (fun _ : unit => gph_next cmp) cuts g in
    exists i kept gs j gs', drops i (rm_iter (run ops)) kept /\
      gaps_of cmp (fun k => find (fun e => covers (fst e) k) kept) outer gs /\ drops j gs gs' /\
      (i <= length (filter is_cmp (panics evs)))%nat /\ (i + j <= length (panics evs))%nat /\
      map snd (completed evs) = map Ret (yields (length (completed evs)) gs').
  Proof.
    intros ops outer cuts. destruct (gaps_halts HO _ outer cuts (run_any HO (veqb := veqb) ops))
      as (g & E & i & kept & gs & j & gs' & H1 & H2 & H3 & H4 & H5 & H6).
    exists g. split; [exact E|]. exists i, kept, gs, j, gs'. splits; auto.
    eapply gaps_of_ext; [|exact H2]. intros k. clear -HO. induction kept as [|[r v] kept IH]; cbn; [tauto|].
    rewrite (in_range_contains HO). destruct (r_contains cmp r k); [split; intros Hd; discriminate Hd|exact IH].
  Qed.
  (** so, if no comparison panicked, every gap returned is inside [outer] and
      free of mapped keys, whatever else panicked *)
  Theorem C111_gaps_unmapped : forall ops outer cuts g r k,
    rm_gaps cmp (run ops) outer = Ret g ->
    let evs := halt_run (fun _ : unit => gph_next cmp) cuts g in
    (forall u, In u (panics evs) -> u <> UCmp) ->
    In (Ret (Some r)) (map snd (completed evs)) -> covers r k = true ->
    covers outer k = true /\ forall e, In e (rm_iter (run ops)) -> covers (fst e) k = false.
  Proof.
    intros ops outer cuts g r k E evs Hp Hin Hk.
    destruct (C111_gaps ops outer cuts) as (g0 & E0 & i & kept & gs & j & gs' & H1 & H2 & H3 & H4 & _ & H6).
    rewrite E in E0. injection E0 as <-. fold evs in H4, H6.
    assert (Z : filter is_cmp (panics evs) = []).
    { clear - Hp. induction (panics evs) as [|u l IH]; [reflexivity|]. cbn. pose proof (Hp u (or_introl eq_refl)) as Hu.
      rewrite IH by (intros; apply Hp; right; assumption). destruct u; [contradiction|reflexivity..]. }
    rewrite Z in H4. assert (i = 0%nat) by (cbn in H4; lia). subst i. apply drops0_eq in H1. subst kept.
    rewrite H6 in Hin. apply in_map_iff in Hin as (x & Ex & Hx). injection Ex as ->.
    assert (Hr : In r gs).
    { apply (drops_In _ _ _ _ H3). clear -Hx. revert gs' Hx. induction (length (completed evs)) as [|n IH]; intros l Hx; [destruct Hx|].
      rewrite yields_step in Hx. destruct Hx as [Hx|Hx]; destruct l as [|a l]; cbn in Hx; [discriminate|injection Hx as ->; left; reflexivity| |].
      - apply IH in Hx. destruct Hx.
      - right. apply IH, Hx. }
    destruct H2 as (_ & _ & H2). destruct (proj1 (H2 k)) as [Ho Hf]; [eauto|].
    split; [exact Ho|]. intros e He. apply (find_none _ _ Hf e He).
  Qed.
End Half.

(** the sets' iterators are the maps' *)
Theorem C111_set_gaps : forall (K : Type) (cmp : K -> K -> comparison), TotalOrd cmp -> forall ops outer cuts,
  exists g, rs_gaps cmp (rs_run cmp ops) outer = Ret g /\
  let evs := halt_run (fun _ : unit => gph_next cmp) cuts g in
  exists i kept gs j gs', drops i (map fst (rs_iter (rs_run cmp ops))) kept /\
    gaps_of cmp (fun k => find (fun r => in_range cmp r k) kept) outer gs /\ drops j gs gs' /\
    (i <= length (filter is_cmp (panics evs)))%nat /\ (i + j <= length (panics evs))%nat /\
    map snd (completed evs) = map Ret (yields (length (completed evs)) gs').
Proof.
  intros K cmp HO ops outer cuts. rewrite run_to_ops.
  destruct (C111_gaps HO (veqb := unit_eqb) (to_ops ops) outer cuts) as (g & E & i & kept & gs & j & gs' & H1 & H2 & H3 & H4 & H5 & H6).
  exists g. split; [exact E|]. exists i, (map fst kept), gs, j, gs'. splits; auto.
  - apply (drops_map fst) in H1. exact H1.
  - eapply gaps_of_ext; [|exact H2]. intros k. clear -HO. induction kept as [|[r v] kept IH]; cbn; [tauto|].
    destruct (in_range cmp r k); [split; intros Hd; discriminate Hd|exact IH].
Qed.

(** ** C112: [RangeInclusiveMap], [RangeInclusiveSet].  The histories may insert
    exhausted ranges. *)
Section Incl.
  Context {K V : Type} {cmp : K -> K -> comparison} {veqb : V -> V -> bool} {st : stepfns K}.
  Context (HO : TotalOrd cmp) (HS : StepLaws cmp st).
  Notation run := (im_run cmp veqb st).
  Notation covers := (in_rangei cmp).

  Theorem C112_erase :
    (forall d (o : overlappingi K V), snd (ovhi_step cmp d o) =
       let x := match d with Front => ovi_next cmp o | Back => ovi_next_back cmp o end in (Ret (fst x), snd x)) /\
    (forall g : gapsi K V, snd (gphi_next cmp st g) = gpi_next cmp st g).
  Proof. split; [intros [] o; [exact (ovhi_step_erase Front o)|exact (ovhi_step_erase Back o)]|apply gphi_next_erase]. Qed.
  Theorem C112_calls :
    (forall d (o : overlappingi K V) n, let h := ovhi_step cmp d o in
       map fst (fst h) = concat (repeat [UBorrow; UCmp] (length (ovi_iter o) - length (ovi_iter (snd (snd h))))%nat) /\
       oviq_step (fun _ => cmp) (fun _ => ovi_query o) d (n, ovi_iter o) =
         (fst (snd h), ((n + calls is_cmp (ovhi_step cmp d) o)%nat, ovi_iter (snd (snd h))))) /\
    (forall (g : gapsi K V) n, let h := gphi_next cmp st g in
       gpiq_next (fun _ => cmp) st (n, g) = (fst (snd h), ((n + calls is_cmp (gphi_next cmp st) g)%nat, snd (snd h))) /\
       gpic_next (fun _ k => k) cmp st (n, g) = (fst (snd h), ((n + calls is_clone (gphi_next cmp st) g)%nat, snd (snd h))) /\
       (forall x, In x (fst h) -> fst x <> UBorrow) /\
       ((forall x, In x (fst h) -> fst x <> UStep) -> forall st', gphi_next cmp st' g = h)).
  Proof.
    split; [intros d o n h; split; [apply ovi_calls|apply t_oviq]|]. intros g n h. split; [apply tl_igaps|]. split; [apply tc_igaps|].
    split; [apply gphi_kinds|]. intros Hn st'. exact (steps_next cmp st st' g Hn).
  Qed.
  Theorem C112_overlapping : forall ops q sched,
    exists o, im_overlapping cmp (run ops) q = Ret o /\
    let evs := halt_run (ovhi_step cmp) sched o in
    exists j D, drops j (filter (fun e => meetsi cmp q (fst e)) (im_iter (run ops))) D /\
      (j <= length (panics evs))%nat /\
      map snd (completed evs) = map Ret (deque_run (map fst (completed evs)) D).
  Proof. intros ops q sched. exact (overlapping_ihalts HO _ q sched (WWi_ok HO HS _ (run_fe HO HS ops))). Qed.
  Theorem C112_gaps : forall ops outer cuts,
    exists g, im_gaps cmp (run ops) outer = Ret g /\
    let evs := halt_run (fun _ : unit => gphi_next cmp st) cuts g in
    exists i kept gs j gs', drops i (im_iter (run ops)) kept /\
      gapsi_of cmp (fun k => find (fun e => covers (fst e) k) kept) outer gs /\ drops j gs gs' /\
      (i <= length (filter is_cmp (panics evs)))%nat /\ (i + j <= length (panics evs))%nat /\
      map snd (completed evs) = map Ret (yields (length (completed evs)) gs').
  Proof. intros ops outer cuts. exact (gaps_ihalts HO HS _ outer cuts (run_fe HO HS ops)). Qed.
  Theorem C112_gaps_unmapped : forall ops outer cuts g r k,
    im_gaps cmp (run ops) outer = Ret g ->
    let evs := halt_run (fun _ : unit => gphi_next cmp st) cuts g in
    (forall u, In u (panics evs) -> u <> UCmp) ->
    In (Ret (Some r)) (map snd (completed evs)) -> covers r k = true ->
    covers outer k = true /\ forall e, In e (im_iter (run ops)) -> covers (fst e) k = false.
  Proof.
    intros ops outer cuts g r k E evs Hp Hin Hk.
    destruct (C112_gaps ops outer cuts) as (g0 & E0 & i & kept & gs & j & gs' & H1 & H2 & H3 & H4 & _ & H6).
    rewrite E in E0. injection E0 as <-. fold evs in H4, H6.
    assert (Z : filter is_cmp (panics evs) = []).
    { clear - Hp. induction (panics evs) as [|u l IH]; [reflexivity|]. cbn. pose proof (Hp u (or_introl eq_refl)) as Hu.
      rewrite IH by (intros; apply Hp; right; assumption). destruct u; [contradiction|reflexivity..]. }
    rewrite Z in H4. assert (i = 0%nat) by (cbn in H4; lia). subst i. apply drops0_eq in H1. subst kept.
    rewrite H6 in Hin. apply in_map_iff in Hin as (x & Ex & Hx). injection Ex as ->.
    assert (Hr : In r gs).
    { apply (drops_In _ _ _ _ H3). clear -Hx. revert gs' Hx. induction (length (completed evs)) as [|n IH]; intros l Hx; [destruct Hx|].
      rewrite yields_step in Hx. destruct Hx as [Hx|Hx]; destruct l as [|a l]; cbn in Hx; [discriminate|injection Hx as ->; left; reflexivity| |].
      - apply IH in Hx. destruct Hx.
      - right. apply IH, Hx. }
    destruct H2 as (_ & _ & H2). destruct (proj1 (H2 k)) as [Ho Hf]; [eauto|].
    split; [exact Ho|]. intros e He. apply (find_none _ _ Hf e He).
  Qed.
End Incl.

Theorem C112_set_gaps : forall (K : Type) (cmp : K -> K -> comparison) (st : stepfns K),
  TotalOrd cmp -> StepLaws cmp st -> forall ops outer cuts,
  exists g, is_gaps cmp (is_run cmp st ops) outer = Ret g /\
  let evs := halt_run (fun _ : unit => gphi_next cmp st) cuts g in
  exists i kept gs j gs', drops i (map fst (is_iter (is_run cmp st ops))) kept /\
    gapsi_of cmp (fun k => find (fun r => in_rangei cmp r k) kept) outer gs /\ drops j gs gs' /\
    (i <= length (filter is_cmp (panics evs)))%nat /\ (i + j <= length (panics evs))%nat /\
    map snd (completed evs) = map Ret (yields (length (completed evs)) gs').
Proof.
  intros K cmp st HO HS ops outer cuts. rewrite irun_to_ops.
  destruct (C112_gaps HO HS (veqb := unit_eqb) (to_ops ops) outer cuts) as (g & E & i & kept & gs & j & gs' & H1 & H2 & H3 & H4 & H5 & H6).
  exists g. split; [exact E|]. exists i, (map fst kept), gs, j, gs'. splits; auto.
  - apply (drops_map fst) in H1. exact H1.
  - eapply gapsi_of_ext; [|exact H2]. intros k. clear -HO. induction kept as [|[r v] kept IH]; cbn; [tauto|].
    destruct (in_rangei cmp r k); [split; intros Hd; discriminate Hd|exact IH].
Qed.

(** ** C113: [Union] and [Intersection] of [Range]s *)
Section OpsHalf.
  Context {K : Type} {cmp : K -> K -> comparison} (HO : TotalOrd cmp).
  Notation valid := (valid_range cmp).
  Notation covers := (in_range cmp).
  Notation unh next ilen := (unh_next next ilen (r_order_start cmp) (r_merge cmp) clone_calls order_calls (r_merge_calls cmp)).
  Notation inh next ilen := (inh_next next ilen (r_order_end cmp) (r_intersect cmp) order_calls (r_intersect_calls cmp)).

  Theorem C113_erase : forall (I : Type) (next : I -> option (range K) * I) ilen u,
    snd (unh next ilen u) = un_next next ilen (r_order_start cmp) (r_merge cmp) u /\
    snd (inh next ilen u) = in_next next ilen (r_order_end cmp) (r_intersect cmp) u.
  Proof. intros. split; [apply unh_next_erase|apply inh_next_erase]. Qed.
  (** the record is complete: the comparisons and clones are those that the models
      that count them (OpsCostModel.v, CloneSetModel.v) make, and there are no other calls *)
  Theorem C113_calls : forall n u,
    let un := unh rs_iter_next (@length _) in let inn := inh rs_iter_next (@length _) in
    (rsq_union_next (fun _ => cmp) (n, u) = (fst (snd (un u)), ((n + calls is_cmp un u)%nat, snd (snd (un u)))) /\
     rsc_union_next (fun _ k => k) cmp (n, u) = (fst (snd (un u)), ((n + calls is_clone un u)%nat, snd (snd (un u)))) /\
     length (fst (un u)) = (calls is_cmp un u + calls is_clone un u)%nat) /\
    (rsq_intersection_next (fun _ => cmp) (n, u) = (fst (snd (inn u)), ((n + calls is_cmp inn u)%nat, snd (snd (inn u)))) /\
     rsc_intersection_next (fun _ k => k) cmp (n, u) = (fst (snd (inn u)), ((n + calls is_clone inn u)%nat, snd (snd (inn u)))) /\
     length (fst (inn u)) = (calls is_cmp inn u + calls is_clone inn u)%nat).
  Proof.
    intros n u un inn. split; [split; [exact (ts_union HO n u)|split; [exact (tsc_union n u)|]]|split; [exact (ts_intersection HO n u)|split; [exact (tsc_intersection n u)|]]].
    - apply un_kinds; intros; apply merge_kinds.
    - apply in_kinds; intros; apply inter_kinds.
  Qed.
  (** [Union] loses the piece that it was assembling when it was interrupted,
      and goes on with the rest: each side is dealt into ranges that were kept
      and ranges that were lost; the lost ones are all in at most one piece for
      every panic; the calls that return yield the union of those kept *)
  Theorem C113_union : forall (I : Type) (next : I -> option (range K) * I) N i j l r,
    supplies next i l -> supplies next j r -> (length l + length r <= N)%nat ->
    forall cuts, let evs := halt_run (fun _ : unit => unh next (fun _ => N)) cuts (op_new i j) in
    exists kl dl kr dr holes us, deals l kl dl /\ deals r kr dr /\
      welded cmp (dl ++ dr) holes /\ (length holes <= length (panics evs))%nat /\
      map snd (completed evs) = map Ret (yields (length (completed evs)) us) /\
      (forall k, (exists u, In u us /\ covers u k = true) <-> (exists x, In x (kl ++ kr) /\ covers x k = true)) /\
      welded cmp (kl ++ kr) us /\ (length us <= length kl + length kr)%nat /\
      (Forall (fun x => valid x = true) (kl ++ kr) -> Forall (fun x => valid x = true) us) /\
      (by_start cmp l -> by_start cmp r -> in_turn cmp us).
  Proof. intros I next N. exact (half_union_halts HO next (fun _ => N) N (fun _ _ _ h => h) _ _ _). Qed.
  (** [Intersection] loses nothing: the calls that return yield what they would
      have yielded without the panics *)
  Theorem C113_intersection : forall (I : Type) (next : I -> option (range K) * I) N i j l r,
    supplies next i l -> supplies next j r -> (length l + length r <= N)%nat ->
    exists us, (forall n, nexts_m (in_next next (fun _ => N) (r_order_end cmp) (r_intersect cmp)) n (op_new i j) = map Ret (yields n us)) /\
    forall cuts, let evs := halt_run (fun _ : unit => inh next (fun _ => N)) cuts (op_new i j) in
      map snd (completed evs) = map Ret (yields (length (completed evs)) us).
  Proof. intros I next N. exact (inter_halts next (fun _ => N) N (fun _ _ _ h => h) _ _ _ _). Qed.

  Notation run := (rs_run cmp).
  Notation mem := (mem_run valid covers).
  Notation ranges s := (map fst (rs_iter s)).
  Lemma ranges_by_start ops : by_start cmp (ranges (run ops)).
  Proof.
    pose proof (srun_WF HO ops) as [HS HN]. unfold by_start, rs_iter, rm_iter. apply SS_map. eapply SS_impl; [|exact HS].
    intros a b Ha Hb [H _]. pose proof (HN a Ha). ord.
  Qed.
  (** for two sets *)
  Theorem C113_set_union : forall a b cuts,
    let evs := halt_run (fun _ : unit => unh rs_iter_next (@length _)) cuts (rs_union (run a) (run b)) in
    exists kl dl kr dr holes us, deals (ranges (run a)) kl dl /\ deals (ranges (run b)) kr dr /\
      welded cmp (dl ++ dr) holes /\ (length holes <= length (panics evs))%nat /\
      map snd (completed evs) = map Ret (yields (length (completed evs)) us) /\
      pieces_of cmp (fun k => existsb (fun r => covers r k) (kl ++ kr)) us /\ welded cmp (kl ++ kr) us.
  Proof.
    intros a b cuts evs.
    destruct (half_union_halts HO rs_iter_next (@length _) (length (ranges (run a)) + length (ranges (run b))) (rs_fill _)
                clone_calls order_calls (r_merge_calls cmp) _ _ _ _ (rs_supplies (run a)) (rs_supplies (run b)) (le_n _) cuts)
      as (kl & dl & kr & dr & holes & us & H1 & H2 & H3 & H4 & H5 & H6 & H7 & H8 & H9 & H10).
    exists kl, dl, kr, dr, holes, us. splits; auto. unfold pieces_of. splits.
    - apply Forall_forall, H9. apply Forall_forall. intros x Hx.
      assert (G : forall ops, In x (ranges (run ops)) -> valid x = true).
      { intros ops Hin. apply in_map_iff in Hin as ([r' []] & <- & Hin). apply (WF_valid _ _ tt (srun_WF HO ops) Hin). }
      apply in_app_iff in Hx as [Hx|Hx]; [apply (G a), (deals_In _ _ _ H1)|apply (G b), (deals_In _ _ _ H2)]; auto.
    - apply (H10 (ranges_by_start a) (ranges_by_start b)).
    - intros k. rewrite H6, existsb_exists. reflexivity.
  Qed.
  Theorem C113_set_intersection : forall a b,
    exists us, runs_of cmp (fun k => mem a k && mem b k) us /\
    forall cuts, let evs := halt_run (fun _ : unit => inh rs_iter_next (@length _)) cuts (rs_intersection (run a) (run b)) in
      map snd (completed evs) = map Ret (yields (length (completed evs)) us).
  Proof.
    intros a b. destruct (sintersection HO a b) as (us & H1 & H2 & _). exists us. split; [exact H2|].
    destruct (inter_halts rs_iter_next (@length _) (length (ranges (run a)) + length (ranges (run b))) (rs_fill _)
                (r_order_end cmp) (r_intersect cmp) order_calls (r_intersect_calls cmp) _ _ _ _
                (rs_supplies (run a)) (rs_supplies (run b)) (le_n _)) as (us' & H3 & H4).
    replace us with us'; [exact H4|]. apply yields_inj. intros n. specialize (H1 n). specialize (H3 n).
    unfold rs_intersection_next, rs_intersection in H1. unfold rs_iter, rm_iter in *. rewrite H3 in H1.
    clear -H1. revert H1. generalize (yields n us) (yields n us'). induction l as [|x l IH]; intros [|y l'] H; try discriminate; [reflexivity|].
    injection H as -> H. f_equal. apply IH, H.
  Qed.
End OpsHalf.

(** ** C114: [Union] and [Intersection] of [RangeInclusive]s, exhausted or not *)
Section OpsIncl.
  Context {K : Type} {cmp : K -> K -> comparison} (HO : TotalOrd cmp).
  Notation fresh := (fun r : rangei K => ri_exhausted r = false).
  Notation valid := (valid_rangei cmp).
  Notation covers := (in_rangei cmp).
  Notation unh next ilen := (unh_next next ilen (ri_order_start cmp) (ri_merge cmp) clone_calls order_calls (ri_merge_calls cmp)).
  Notation inh next ilen := (inh_next next ilen (ri_order_end cmp) (ri_intersect cmp) order_calls (ri_intersect_calls cmp)).

  Theorem C114_erase : forall (I : Type) (next : I -> option (rangei K) * I) ilen u,
    snd (unh next ilen u) = un_next next ilen (ri_order_start cmp) (ri_merge cmp) u /\
    snd (inh next ilen u) = in_next next ilen (ri_order_end cmp) (ri_intersect cmp) u.
  Proof. intros. split; [apply unh_next_erase|apply inh_next_erase]. Qed.
  (** the record is complete: the comparisons and clones are those that the models
      that count them (OpsCostModel.v, CloneSetModel.v) make, and there are no other calls *)
  Theorem C114_calls : forall n u,
    let un := unh is_iter_next (@length _) in let inn := inh is_iter_next (@length _) in
    (isq_union_next (fun _ => cmp) (n, u) = (fst (snd (un u)), ((n + calls is_cmp un u)%nat, snd (snd (un u)))) /\
     isc_union_next (fun _ k => k) cmp (n, u) = (fst (snd (un u)), ((n + calls is_clone un u)%nat, snd (snd (un u)))) /\
     length (fst (un u)) = (calls is_cmp un u + calls is_clone un u)%nat) /\
    (isq_intersection_next (fun _ => cmp) (n, u) = (fst (snd (inn u)), ((n + calls is_cmp inn u)%nat, snd (snd (inn u)))) /\
     isc_intersection_next (fun _ k => k) cmp (n, u) = (fst (snd (inn u)), ((n + calls is_clone inn u)%nat, snd (snd (inn u)))) /\
     length (fst (inn u)) = (calls is_cmp inn u + calls is_clone inn u)%nat).
  Proof.
    intros n u un inn. split; [split; [exact (ti_union HO n u)|split; [exact (tisc_union n u)|]]|split; [exact (ti_intersection HO n u)|split; [exact (tisc_intersection n u)|]]].
    - apply un_kinds; intros; apply imerge_kinds.
    - apply in_kinds; intros; apply iinter_kinds.
  Qed.
  Theorem C114_union : forall (I : Type) (next : I -> option (rangei K) * I) N i j l r,
    supplies next i l -> supplies next j r -> (length l + length r <= N)%nat ->
    forall cuts, let evs := halt_run (fun _ : unit => unh next (fun _ => N)) cuts (op_new i j) in
    exists kl dl kr dr holes us, deals l kl dl /\ deals r kr dr /\
      weldedi cmp (dl ++ dr) holes /\ (length holes <= length (panics evs))%nat /\
      map snd (completed evs) = map Ret (yields (length (completed evs)) us) /\
      (forall k, (exists u, In u us /\ covers u k = true) <-> (exists x, In x (kl ++ kr) /\ covers x k = true)) /\
      weldedi cmp (kl ++ kr) us /\ (length us <= length kl + length kr)%nat /\
      (Forall fresh (l ++ r) -> Forall fresh us) /\
      (Forall (fun x => valid x = true) (kl ++ kr) -> Forall (fun x => valid x = true) us) /\
      (by_starti cmp l -> by_starti cmp r ->
         in_turnx cmp us /\ (Forall fresh (l ++ r) -> in_turni cmp us)).
  Proof. intros I next N. exact (incl_union_halts HO next (fun _ => N) N (fun _ _ _ h => h) _ _ _). Qed.
  Theorem C114_intersection : forall (I : Type) (next : I -> option (rangei K) * I) N i j l r,
    supplies next i l -> supplies next j r -> (length l + length r <= N)%nat ->
    exists us, (forall n, nexts_m (in_next next (fun _ => N) (ri_order_end cmp) (ri_intersect cmp)) n (op_new i j) = map Ret (yields n us)) /\
    forall cuts, let evs := halt_run (fun _ : unit => inh next (fun _ => N)) cuts (op_new i j) in
      map snd (completed evs) = map Ret (yields (length (completed evs)) us).
  Proof. intros I next N. exact (inter_halts next (fun _ => N) N (fun _ _ _ h => h) _ _ _ _). Qed.

  Context {st : stepfns K} (HS : StepLaws cmp st).
  Notation run := (is_run cmp st).
  Notation mem := (mem_run valid covers).
  Notation ranges s := (map fst (is_iter s)).
  Theorem C114_set_union : forall a b cuts,
    let evs := halt_run (fun _ : unit => unh is_iter_next (@length _)) cuts (is_union (run a) (run b)) in
    exists kl dl kr dr holes us, deals (ranges (run a)) kl dl /\ deals (ranges (run b)) kr dr /\
      weldedi cmp (dl ++ dr) holes /\ (length holes <= length (panics evs))%nat /\
      map snd (completed evs) = map Ret (yields (length (completed evs)) us) /\
      (forall u, In u us -> valid u = true) /\ in_turnx cmp us /\
      (forall k, (exists u, In u us /\ covers u k = true) <-> (exists x, In x (kl ++ kr) /\ covers x k = true)) /\
      weldedi cmp (kl ++ kr) us.
  Proof.
    intros a b cuts evs.
    destruct (incl_union_halts HO is_iter_next (@length _) (length (ranges (run a)) + length (ranges (run b))) (is_fill _)
                clone_calls order_calls (ri_merge_calls cmp) _ _ _ _ (is_supplies (run a)) (is_supplies (run b)) (le_n _) cuts)
      as (kl & dl & kr & dr & holes & us & H1 & H2 & H3 & H4 & H5 & H6 & H7 & H8 & _ & H9 & H10).
    exists kl, dl, kr, dr, holes, us.
    assert (B : forall ops, by_starti cmp (ranges (run ops))).
    { intros ops. destruct (xs_runs' HO HS ops) as (V & S & _). apply (gap_asc HO) in S. unfold by_starti. eapply SS_impl; [|exact S].
      intros x y Hx Hy H. pose proof (V x Hx) as Vx. unfold valid_rangei in Vx. cbn beta. ord. }
    splits; auto.
    - apply Forall_forall, H9. apply Forall_forall. intros x Hx.
      apply in_app_iff in Hx as [Hx|Hx]; [apply (proj1 (xs_runs' HO HS a)), (deals_In _ _ _ H1)|apply (proj1 (xs_runs' HO HS b)), (deals_In _ _ _ H2)]; auto.
    - apply (H10 (B a) (B b)).
  Qed.
  Theorem C114_set_intersection : forall a b,
    exists us, runsi_of cmp (fun k => mem a k && mem b k) us /\
    forall cuts, let evs := halt_run (fun _ : unit => inh is_iter_next (@length _)) cuts (is_intersection (run a) (run b)) in
      map snd (completed evs) = map Ret (yields (length (completed evs)) us).
  Proof.
    intros a b. destruct (xs_intersection HO HS a b) as (us & H1 & H2 & _). exists us. split; [exact H2|].
    destruct (inter_halts is_iter_next (@length _) (length (ranges (run a)) + length (ranges (run b))) (is_fill _)
                (ri_order_end cmp) (ri_intersect cmp) order_calls (ri_intersect_calls cmp) _ _ _ _
                (is_supplies (run a)) (is_supplies (run b)) (le_n _)) as (us' & H3 & H4).
    replace us with us'; [exact H4|]. apply yields_inj. intros n. specialize (H1 n). specialize (H3 n).
    unfold is_intersection_next, is_intersection in H1. unfold is_iter, im_iter in *. rewrite H3 in H1.
    clear -H1. revert H1. generalize (yields n us) (yields n us'). induction l as [|x l IH]; intros [|y l'] H; try discriminate; [reflexivity|].
    injection H as -> H. f_equal. apply IH, H.
  Qed.
End OpsIncl.

(** ** Examples *)
Local Open Scope Z_scope.
(** an [==] that is never true: [2..4] and [4..6] stay apart *)
Definition hops : list (op (range Z) Z) := [OInsert (mkR 2 4) 1; OInsert (mkR 4 6) 1; OInsert (mkR 8 10) 2; OInsert (mkR 15 20) 3].
Definition hmap : rmap Z Z := rm_run Z.compare (fun _ _ => false) hops.
Notation after o f := (omap f o).
(** the front loses [2..4]; the back loses [8..10], having skipped [15..20] *)
Example C111_example :
  TotalOrd Z.compare /\
  after (rm_overlapping Z.compare hmap (mkR 3 9))
        (halt_run (ovh_step Z.compare) [(Front, Some 1%nat); (Back, Some 3%nat); (Front, None); (Back, None)]) =
    Ret [(Front, Halt UCmp); (Back, Halt UCmp); (Front, Got (Ret (Some (mkR 4 6, 1)))); (Back, Got (Ret None))] /\
  (* clones panic: two of the three gaps are lost *)
  after (rm_gaps Z.compare hmap (mkR 0 18))
        (halt_run (fun _ => gph_next Z.compare) [(tt, Some 2%nat); (tt, Some 4%nat); (tt, None); (tt, None)]) =
    Ret [(tt, Halt UClone); (tt, Halt UClone); (tt, Got (Ret (Some (mkR 10 15)))); (tt, Got (Ret None))] /\
  (* a comparison panics: the map looks as if it did not have [2..4] *)
  after (rm_gaps Z.compare hmap (mkR 0 18))
        (halt_run (fun _ => gph_next Z.compare) [(tt, Some 0%nat); (tt, None); (tt, None); (tt, None); (tt, None)]) =
    Ret [(tt, Halt UCmp); (tt, Got (Ret (Some (mkR 0 4)))); (tt, Got (Ret (Some (mkR 6 8))));
         (tt, Got (Ret (Some (mkR 10 15)))); (tt, Got (Ret None))].
Proof. split; [exact Z_order|]. vm_compute. auto. Qed.
(** what does not hold: that a call repeated after a panic returns what the
    interrupted one was about to return, *)
Theorem C111_overlapping_retry_refuted : exists ops (q : range Z) o e,
  rm_overlapping Z.compare (rm_run Z.compare Z.eqb ops) q = Ret o /\
  fst (ov_next Z.compare o) = Some e /\
  map snd (completed (halt_run (ovh_step Z.compare) [(Front, Some 0%nat); (Front, None)] o)) = [Ret None].
Proof.
  exists [OInsert (mkR 0 5) 7], (mkR 0 9), (mkOverlapping (mkR 0 9) [(mkR 0 5, 7)]), (mkR 0 5, 7).
  vm_compute. auto.
Qed.
Theorem C112_overlapping_retry_refuted : exists ops (q : rangei Z) o e,
  im_overlapping Z.compare (im_run Z.compare Z.eqb zst ops) q = Ret o /\
  fst (ovi_next Z.compare o) = Some e /\
  map snd (completed (halt_run (ovhi_step Z.compare) [(Front, Some 0%nat); (Front, None)] o)) = [Ret None].
Proof.
  exists [OInsert (incl 0 4) 7], (incl 0 8), (mkOverlappingI (incl 0 8) [(incl 0 4, 7)]), (incl 0 4, 7).
  vm_compute. auto.
Qed.
(** and that the gaps returned after one comparison panicked are free of mapped keys *)
Theorem C111_gaps_unmapped_refuted : exists ops (outer : range Z) g r k v,
  rm_gaps Z.compare (rm_run Z.compare Z.eqb ops) outer = Ret g /\
  halt_run (fun _ : unit => gph_next Z.compare) [(tt, Some 0%nat); (tt, None)] g = [(tt, Halt UCmp); (tt, Got (Ret (Some r)))] /\
  in_range Z.compare r k = true /\ rm_get Z.compare (rm_run Z.compare Z.eqb ops) k = Ret (Some v).
Proof.
  exists [OInsert (mkR 2 4) 7], (mkR 0 9), (mkGaps 0 9 [(mkR 2 4, 7)]), (mkR 0 9), 3, 7. vm_compute. auto.
Qed.

(** the second range is exhausted *)
Definition hiops : list (op (rangei Z) Z) :=
  [OInsert (incl 2 3) 1; OInsert (mkRI 4 5 true) 1; OInsert (incl 8 9) 2; OInsert (incl 15 19) 3].
Definition himap : imap Z Z := im_run Z.compare (fun _ _ => false) zst hiops.
Example C112_example :
  TotalOrd Z.compare /\ StepLaws Z.compare zst /\
  after (im_overlapping Z.compare himap (incl 3 8))
        (halt_run (ovhi_step Z.compare) [(Front, Some 1%nat); (Back, Some 3%nat); (Front, None); (Back, None)]) =
    Ret [(Front, Halt UCmp); (Back, Halt UCmp); (Front, Got (Ret (Some (mkRI 4 5 true, 1)))); (Back, Got (Ret None))] /\
  (* [add_one] panics *)
  after (im_gaps Z.compare himap (incl 0 25))
        (halt_run (fun _ => gphi_next Z.compare zst) [(tt, None); (tt, Some 4%nat); (tt, None); (tt, None); (tt, None)]) =
    Ret [(tt, Got (Ret (Some (incl 0 1)))); (tt, Halt UStep);
         (tt, Got (Ret (Some (incl 10 14)))); (tt, Got (Ret (Some (incl 20 25)))); (tt, Got (Ret None))] /\
  (* the comparison for the last gap panics, and it is lost *)
  after (im_gaps Z.compare himap (incl 10 25))
        (halt_run (fun _ => gphi_next Z.compare zst) [(tt, None); (tt, Some 0%nat); (tt, None)]) =
    Ret [(tt, Got (Ret (Some (incl 10 14)))); (tt, Halt UCmp); (tt, Got (Ret None))].
Proof. split; [exact Z_order|]. split; [exact zst_laws|]. vm_compute. auto. Qed.
Theorem C112_gaps_unmapped_refuted : exists ops (outer : rangei Z) g r k v,
  im_gaps Z.compare (im_run Z.compare Z.eqb zst ops) outer = Ret g /\
  halt_run (fun _ : unit => gphi_next Z.compare zst) [(tt, Some 0%nat); (tt, None)] g = [(tt, Halt UCmp); (tt, Got (Ret (Some r)))] /\
  in_rangei Z.compare r k = true /\ im_get Z.compare (im_run Z.compare Z.eqb zst ops) k = Ret (Some v).
Proof.
  exists [OInsert (incl 2 4) 7], (incl 0 9), (mkGapsI false 0 9 [(incl 2 4, 7)]), (incl 0 9), 3, 7. vm_compute. auto.
Qed.

Definition ha : list (sop (range Z)) := [SInsert (mkR 0 4); SInsert (mkR 6 9); SInsert (mkR 20 25)].
Definition hb : list (sop (range Z)) := [SInsert (mkR 3 7); SInsert (mkR 10 12); SInsert (mkR 22 30)].
Notation zunh := (unh_next rs_iter_next (@length _) (r_order_start Z.compare) (r_merge Z.compare)
                           clone_calls order_calls (r_merge_calls Z.compare)).
Notation zinh := (inh_next rs_iter_next (@length _) (r_order_end Z.compare) (r_intersect Z.compare)
                           order_calls (r_intersect_calls Z.compare)).
Example C113_example :
  TotalOrd Z.compare /\
  supplies rs_iter_next (rs_run Z.compare ha) [mkR 0 4; mkR 6 9; mkR 20 25] /\
  (* [0..4] and [3..7] have been joined when a comparison with [6..9] panics *)
  halt_run (fun _ => zunh) [(tt, Some 9%nat); (tt, None); (tt, None); (tt, Some 5%nat); (tt, None)]
           (rs_union (rs_run Z.compare ha) (rs_run Z.compare hb)) =
    [(tt, Halt UCmp); (tt, Got (Ret (Some (mkR 6 9)))); (tt, Got (Ret (Some (mkR 10 12)))); (tt, Halt UCmp); (tt, Got (Ret (Some (mkR 22 30))))] /\
  halt_run (fun _ => zinh) [(tt, Some 4%nat); (tt, None); (tt, Some 5%nat); (tt, None); (tt, Some 0%nat); (tt, None); (tt, None)]
           (rs_intersection (rs_run Z.compare ha) (rs_run Z.compare hb)) =
    [(tt, Halt UClone); (tt, Got (Ret (Some (mkR 3 4)))); (tt, Halt UCmp); (tt, Got (Ret (Some (mkR 6 7)))); (tt, Halt UCmp);
     (tt, Got (Ret (Some (mkR 22 25)))); (tt, Got (Ret None))].
Proof. split; [exact Z_order|]. split; [vm_compute; auto|]. vm_compute. auto. Qed.
(** what does not hold: that the calls that return, until [None], still cover
    the keys of both sets; one panic can lose any number of ranges *)
Theorem C113_union_covers_refuted : exists a b x y (k : Z),
  rs_contains Z.compare (rs_run Z.compare a) k = Ret true /\
  halt_run (fun _ : unit => zunh) [(tt, Some 13%nat); (tt, None); (tt, None)] (rs_union (rs_run Z.compare a) (rs_run Z.compare b)) =
    [(tt, Halt UCmp); (tt, Got (Ret (Some x))); (tt, Got (Ret None))] /\
  in_range Z.compare x k = false /\
  deals (map fst (rs_iter (rs_run Z.compare a)) ++ map fst (rs_iter (rs_run Z.compare b))) [x] y /\ length y = 3%nat.
Proof.
  exists [SInsert (mkR 0 4); SInsert (mkR 6 9); SInsert (mkR 20 25)], [SInsert (mkR 3 7)], (mkR 20 25),
    [mkR 0 4; mkR 6 9; mkR 3 7], 1. vm_compute. repeat (split || constructor).
Qed.

Definition hia : list (sop (rangei Z)) := [SInsert (incl 0 4); SInsert (mkRI 6 9 true); SInsert (incl 20 25)].
Definition hib : list (sop (rangei Z)) := [SInsert (incl 3 7); SInsert (incl 10 12); SInsert (incl 22 30)].
Notation zunhi := (unh_next is_iter_next (@length _) (ri_order_start Z.compare) (ri_merge Z.compare)
                            clone_calls order_calls (ri_merge_calls Z.compare)).
Notation zinhi := (inh_next is_iter_next (@length _) (ri_order_end Z.compare) (ri_intersect Z.compare)
                            order_calls (ri_intersect_calls Z.compare)).
Example C114_example :
  TotalOrd Z.compare /\ StepLaws Z.compare zst /\
  supplies is_iter_next (is_run Z.compare zst hia) [incl 0 4; mkRI 6 9 true; incl 20 25] /\
  halt_run (fun _ => zunhi) [(tt, Some 10%nat); (tt, None); (tt, None); (tt, Some 5%nat); (tt, None)]
           (is_union (is_run Z.compare zst hia) (is_run Z.compare zst hib)) =
    [(tt, Halt UCmp); (tt, Got (Ret (Some (mkRI 6 9 true)))); (tt, Got (Ret (Some (incl 10 12)))); (tt, Halt UCmp);
     (tt, Got (Ret (Some (incl 22 30))))] /\
  halt_run (fun _ => zinhi) [(tt, Some 4%nat); (tt, None); (tt, Some 5%nat); (tt, None); (tt, Some 0%nat); (tt, None); (tt, None)]
           (is_intersection (is_run Z.compare zst hia) (is_run Z.compare zst hib)) =
    [(tt, Halt UClone); (tt, Got (Ret (Some (incl 3 4)))); (tt, Halt UCmp); (tt, Got (Ret (Some (incl 6 7)))); (tt, Halt UCmp);
     (tt, Got (Ret (Some (incl 22 25)))); (tt, Got (Ret None))].
Proof. split; [exact Z_order|]. split; [exact zst_laws|]. split; [vm_compute; auto|]. vm_compute. auto. Qed.

Theorem C114_union_covers_refuted : exists a b x y (k : Z),
  is_contains Z.compare (is_run Z.compare zst a) k = Ret true /\
  halt_run (fun _ : unit => zunhi) [(tt, Some 15%nat); (tt, None); (tt, None)] (is_union (is_run Z.compare zst a) (is_run Z.compare zst b)) =
    [(tt, Halt UCmp); (tt, Got (Ret (Some x))); (tt, Got (Ret None))] /\
  in_rangei Z.compare x k = false /\
  deals (map fst (is_iter (is_run Z.compare zst a)) ++ map fst (is_iter (is_run Z.compare zst b))) [x] y /\ length y = 3%nat.
Proof.
  exists [SInsert (incl 0 3); SInsert (incl 6 8); SInsert (incl 20 24)], [SInsert (incl 3 6)], (incl 20 24),
    [incl 0 3; incl 6 8; incl 3 6], 1. vm_compute. repeat (split || constructor).
Qed.

Print Assumptions C111_erase.
Print Assumptions C111_calls.
Print Assumptions C111_overlapping.
Print Assumptions C111_gaps.
Print Assumptions C111_gaps_unmapped.
Print Assumptions C111_set_gaps.
Print Assumptions C112_erase.
Print Assumptions C112_calls.
Print Assumptions C112_overlapping.
Print Assumptions C112_gaps.
Print Assumptions C112_gaps_unmapped.
Print Assumptions C112_set_gaps.
Print Assumptions C113_erase.
Print Assumptions C113_calls.
Print Assumptions C113_union.
Print Assumptions C113_intersection.
Print Assumptions C113_set_union.
Print Assumptions C113_set_intersection.
Print Assumptions C114_erase.
Print Assumptions C114_calls.
Print Assumptions C114_union.
Print Assumptions C114_intersection.
Print Assumptions C114_set_union.
Print Assumptions C114_set_intersection.
Print Assumptions C111_overlapping_retry_refuted.
Print Assumptions C111_gaps_unmapped_refuted.
Print Assumptions C112_gaps_unmapped_refuted.
Print Assumptions C113_union_covers_refuted.
Print Assumptions C112_overlapping_retry_refuted.
Print Assumptions C114_union_covers_refuted.
