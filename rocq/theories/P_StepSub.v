(** C119: [RangeInclusiveMap] and [RangeInclusiveSet] over step functions that
    are successor and predecessor only among some of the keys, e.g. steps of a
    page over all addresses.  As long as the bounds of the ranges given to the
    calls are such keys, nothing is lost; and no less will do. *)
From Coq Require Import List Bool ZArith Lia Sorted.
From Verif Require Import Order Outcome BTree Ranges History Spec SpecStep SpecProg MapModel IMapModel SetModel ISetModel ProgModel
  IMapProps ListLemmas Instances P_Laws SetFacts ISetProps LawFacts StepSub ProgSub ProgRuns.
From Verif Require MapProofs.
Import ListNotations.
Local Open Scope Z_scope.

Section On.
  Context {K V : Type} {cmp : K -> K -> comparison} {veqb : V -> V -> bool} {st : stepfns K} (P : K -> bool).
  Context (HO : TotalOrd cmp) (HP : lawful_on cmp st P) (HV : PartialEquiv veqb).
  Notation run := (im_run cmp veqb st).
  Notation valid := (valid_rangei cmp).
  Notation covers := (in_rangei cmp).
  Notation spec := (spec_run (V := V) valid covers).

  (** Entries are in order, and their bounds are keys in use. *)
  Theorem C119_shape : forall ops, ops_on P ops ->
    ascendingi cmp (im_iter (run ops)) /\
    forall r v, In (r, v) (im_iter (run ops)) -> valid r = true /\ range_on P r.
  Proof. intros ops H. destruct (on_shape P HO HP HV ops H) as [A B]. split; [exact A|]. intros r v. apply (B (r, v)). Qed.
  Theorem C119_outcome : forall ops o, ops_on P ops -> op_on P o ->
    fst (im_exec cmp veqb st o (run ops)) =
      match o with
      | OInsert r _ | ORemove r => if valid r then Ret tt else Panicked PAssert
      | OClear => Ret tt
      | OExtend l => if forallb (fun e => valid (fst e)) l then Ret tt else Panicked PAssert
      end.
  Proof. exact (on_outcome P HO HP HV). Qed.
  (** Keys in use are looked up as if there were no others ... *)
  Theorem C119_last_writer_wins : forall ops k, ops_on P ops -> fresh_ops ops -> P k = true ->
    exists o, im_get cmp (run ops) k = Ret o /\ same_opt veqb o (spec ops k).
  Proof. exact (on_get P HO HP HV). Qed.
  (** ... and any key is found exactly when some entry contains it. *)
  Theorem C119_lookup : forall ops k r v, ops_on P ops ->
    im_get_key_value cmp (run ops) k = Ret (Some (r, v)) <->
    In (r, v) (im_iter (run ops)) /\ covers r k = true /\ (ri_exhausted r = true -> eqb cmp k (ri_end r) = false).
  Proof.
    intros ops k r v H. destruct (on_shape P HO HP HV ops H) as [A B].
    apply (asc_lookup HO); [exact A|]. intros e He. apply (B e He).
  Qed.
  Theorem C119_lookup_none : forall ops k, ops_on P ops ->
    im_get_key_value cmp (run ops) k = Ret None <->
    forall r v, In (r, v) (im_iter (run ops)) ->
      covers r k = true -> ri_exhausted r = true /\ eqb cmp k (ri_end r) = true.
  Proof.
    intros ops k H. destruct (on_shape P HO HP HV ops H) as [A B].
    rewrite (asc_lookup_none HO (run ops) k A) by (intros e He; apply (B e He)).
    split; intros X r v Hi.
    - intros Hc. specialize (X r v Hi).
      destruct (ri_exhausted r), (eqb cmp k (ri_end r)); auto; exfalso; apply X; split; auto; discriminate.
    - intros [Hc He]. destruct (X r v Hi Hc) as [X1 X2]. rewrite (He X1) in X2. discriminate.
  Qed.
  Theorem C119_overlapping : forall ops q sched, ops_on P ops ->
    exists o, im_overlapping cmp (run ops) q = Ret o /\
      map fst (sched_trace (both (ovi_next cmp) (ovi_next_back cmp)) (fun _ => tt) sched o) =
      deque_run sched (filter (fun e => meetsi cmp q (fst e)) (im_iter (run ops))).
  Proof.
    intros ops q sched H. destruct (on_shape P HO HP HV ops H) as [A B].
    apply (asc_overlapping HO); [exact A|]. intros e He. apply (B e He).
  Qed.
  Theorem C119_overlaps : forall ops q, ops_on P ops ->
    im_overlaps cmp (run ops) q = Ret (existsb (fun e => meetsi cmp q (fst e)) (im_iter (run ops))).
  Proof.
    intros ops q H. destruct (C119_overlapping ops q [Front] H) as (o & E & T).
    unfold im_overlaps. rewrite E. unfold deque_run in T. unfold omap, obind. cbn [sched_trace both map fst] in *.
    destruct (ovi_next cmp o) as [x o']. cbn [map fst] in *.
    assert (X : forall (p : rangei K * V -> bool) l, existsb p l = match filter p l with [] => false | _ => true end).
    { intros p l. induction l as [|a l IH]; [reflexivity|]. cbn. destruct (p a); [reflexivity|exact IH]. }
    rewrite X. destruct (filter (fun e => meetsi cmp q (fst e)) (im_iter (run ops))) as [|e l].
    - injection T as ->. reflexivity.
    - injection T as ->. reflexivity.
  Qed.
  (** Equal values are kept apart only by a key in use. *)
  Theorem C119_coalesced : forall ops a b, ops_on P ops -> In a (im_iter (run ops)) -> In b (im_iter (run ops)) ->
    ltb cmp (ri_end (fst a)) (ri_start (fst b)) = true -> veqb (snd a) (snd b) = true ->
    exists k, P k = true /\ ltb cmp (ri_end (fst a)) k = true /\ ltb cmp k (ri_start (fst b)) = true.
  Proof. exact (on_coalesced P HO HP HV). Qed.
  Theorem C119_eq_extensional : (forall v, veqb v v = true) ->
    forall ops1 ops2, ops_on P ops1 -> ops_on P ops2 -> fresh_ops ops1 -> fresh_ops ops2 ->
    im_eqb cmp veqb (run ops1) (run ops2) = true <->
    (forall k, P k = true -> same_opt veqb (spec ops1 k) (spec ops2 k)).
  Proof. intros Hr ops1 ops2. exact (on_eq P HO HP HV ops1 ops2 Hr). Qed.
  Theorem C119_gaps : forall ops outer, ops_on P ops -> range_on P outer ->
    exists g gs, im_gaps cmp (run ops) outer = Ret g /\
      (forall n, nexts_m (gpi_next cmp st) n g = map Ret (yields n gs)) /\
      (forall r, In r gs -> ri_exhausted r = false /\ valid r = true /\ range_on P r /\
         leb cmp (ri_start outer) (ri_start r) = true /\ leb cmp (ri_end r) (ri_end outer) = true) /\
      StronglySorted (fun a b => exists k, P k = true /\ ltb cmp (ri_end a) k = true /\ ltb cmp k (ri_start b) = true) gs /\
      (forall k, P k = true -> (exists r, In r gs /\ covers r k = true) <-> covers outer k = true /\ spec ops k = None).
  Proof. exact (on_gaps P HO HP HV). Qed.
End On.

(** ** Nothing less will do *)
Section Exact.
  Context {K V : Type} {cmp : K -> K -> comparison} {veqb : V -> V -> bool} {st : stepfns K} (P : K -> bool).
  Context (HO : TotalOrd cmp) (HV : PartialEquiv veqb).
  Notation valid := (valid_rangei cmp).
  Notation covers := (in_rangei cmp).

  Theorem C119_exact : forall v : V,
    lawful_on cmp st P <->
    (forall ops, ops_on P ops -> fresh_ops ops ->
       (forall e, In e (im_run cmp veqb st ops) -> range_on P (fst e)) /\
       forall k, P k = true -> exists o, im_get cmp (im_run cmp veqb st ops) k = Ret o /\
         same_opt veqb o (spec_run valid covers ops k)).
  Proof.
    intros v. split.
    - intros HP ops Ho Hf. split.
      + intros e He. apply (proj2 (on_shape P HO HP HV ops Ho) e He).
      + intros k. exact (on_get P HO HP HV ops k Ho Hf).
    - intros H. apply (on_needed (veqb := veqb) P HO v). intros ops Ho Hf. destruct (H ops Ho Hf) as [H1 H2].
      split; [exact H1|]. intros k Hk. destruct (H2 k Hk) as (o & E & S). exists o. split; [exact E|].
      destruct o, (spec_run valid covers ops k); cbn in S; intuition congruence.
  Qed.
  Theorem C119_set_contains : lawful_on cmp st P -> forall ops k, sops_on P ops -> fresh_sops ops -> P k = true ->
    is_contains cmp (is_run cmp st ops) k = Ret (mem_run valid covers ops k).
  Proof. intros HP ops k. exact (son_contains P HO ops k HP). Qed.
  Theorem C119_set_exact :
    lawful_on cmp st P <->
    (forall ops, sops_on P ops -> fresh_sops ops ->
       (forall e, In e (is_run cmp st ops) -> range_on P (fst e)) /\
       forall k, P k = true -> is_contains cmp (is_run cmp st ops) k = Ret (mem_run valid covers ops k)).
  Proof.
    split; [|exact (son_needed P HO)]. intros HP ops Ho Hf. split.
    - intros e He. apply (proj2 (son_shape P HO ops HP Ho) e He).
    - intros k. exact (son_contains P HO ops k HP Ho Hf).
  Qed.
  (** Programs that combine sets with [|] and [&]: the result is a set that calls
      with ranges over [P] produce too, and has the keys of [P] it should. *)
  Theorem C119_set_expressions : lawful_on cmp st P -> forall x, sexp_on P x -> exists ops,
    sops_on P ops /\ (fresh_sexp x = true -> fresh_sops ops) /\ is_eval cmp st x = Ret (is_run cmp st ops) /\
    forall k, P k = true -> mem_run valid covers ops k = mem_sexp valid covers x k.
  Proof. intros HP x. exact (son_eval P HO x HP). Qed.
  Theorem C119_set_contains_expressions : lawful_on cmp st P -> forall x k, sexp_on P x -> fresh_sexp x = true -> P k = true ->
    exists s, is_eval cmp st x = Ret s /\ is_contains cmp s k = Ret (mem_sexp valid covers x k).
  Proof.
    intros HP x k Hx Hf Hk. destruct (son_eval P HO x HP Hx) as (ops & H1 & H2 & H3 & H4).
    exists (is_run cmp st ops). split; [exact H3|]. rewrite <- (H4 k Hk). exact (son_contains P HO ops k HP H1 (H2 Hf) Hk).
  Qed.
  Theorem C119_set_eq : lawful_on cmp st P -> forall x y, sexp_on P x -> sexp_on P y ->
    fresh_sexp x = true -> fresh_sexp y = true -> exists a b,
    is_eval cmp st x = Ret a /\ is_eval cmp st y = Ret b /\
    (is_eqb cmp a b = true <-> forall k, P k = true -> mem_sexp valid covers x k = mem_sexp valid covers y k).
  Proof. intros HP x y. exact (son_eval_eq P HO x y HP). Qed.
End Exact.
(** Programs that build maps and sets out of each other (C97), all of whose
    ranges have bounds in [P]: they run, with a result that calls with ranges over
    [P] produce too, and its keys in [P] are those of the meaning. *)
Section Programs.
  Context {K V : Type} {cmp : K -> K -> comparison} {veqb : V -> V -> bool} {st : stepfns K} (P : K -> bool).
  Context (HO : TotalOrd cmp) (HP : lawful_on cmp st P) (HV : PartialEquiv veqb).
  Notation valid := (valid_rangei cmp).
  Notation covers := (in_rangei cmp).
  Notation mval := (mval (V := V) valid covers).
  Notation sval := (sval (V := V) valid covers).

  Theorem C119_map_programs : forall x, mprog_on P x -> mrespects veqb x -> exists ops,
    ops_on P ops /\ (mfresh x = true -> fresh_ops ops) /\ imrun cmp veqb st x = Ret (im_run cmp veqb st ops) /\
    forall k, P k = true -> same_opt veqb (spec_run valid covers ops k) (mval x k).
  Proof. exact (on_mprog P HO HP HV). Qed.
  Theorem C119_set_programs : forall x, sprog_on P x -> srespects veqb x -> exists ops,
    sops_on P ops /\ (sfresh x = true -> fresh_sops ops) /\ isrun cmp veqb st x = Ret (is_run cmp st ops) /\
    forall k, P k = true -> mem_run valid covers ops k = sval x k.
  Proof. exact (on_sprog P HO HP HV). Qed.
  (** Whatever the closures of a program do, it runs to the end, and to what calls
      with bounds in use would give. *)
  Theorem C119_programs_any_closure :
    (forall x, mprog_on P x -> exists ops, ops_on P ops /\ imrun cmp veqb st x = Ret (im_run cmp veqb st ops)) /\
    (forall x, sprog_on P x -> exists ops, sops_on P ops /\ isrun cmp veqb st x = Ret (is_run cmp st ops)).
  Proof. exact (on_prog_runs P HO HP HV). Qed.
  (** What a closure that tells equal values apart then sees is the value stored. *)
  Theorem C119_apply_any_closure : forall g x, mprog_on P x -> exists a b,
    imrun cmp veqb st x = Ret a /\ imrun cmp veqb st (PApply g x) = Ret b /\
    (forall k r v, P k = true -> In (r, v) (im_iter a) -> covers r k = true ->
       exists r' v', In (r', v') (im_iter b) /\ covers r' k = true /\ same_val veqb v' (g v)) /\
    (forall k r' v', P k = true -> In (r', v') (im_iter b) -> covers r' k = true ->
       exists r v, In (r, v) (im_iter a) /\ covers r k = true).
  Proof. exact (on_apply_any P HO HP HV). Qed.
  Theorem C119_where_any_closure : forall p x, mprog_on P x -> exists a s,
    imrun cmp veqb st x = Ret a /\ isrun cmp veqb st (QWhere p x) = Ret s /\
    forall k, P k = true -> (exists r, In r (map fst (is_iter s)) /\ covers r k = true) <->
      exists r v, In (r, v) (im_iter a) /\ covers r k = true /\ p v = true.
  Proof. exact (on_where_any P HO HP HV). Qed.
  Theorem C119_programs_lookup :
    (forall x, mprog_on P x -> mrespects veqb x -> mfresh x = true -> exists m, imrun cmp veqb st x = Ret m /\
       forall k, P k = true -> exists o, im_get cmp m k = Ret o /\ same_opt veqb o (mval x k)) /\
    (forall x, sprog_on P x -> srespects veqb x -> sfresh x = true -> exists s, isrun cmp veqb st x = Ret s /\
       forall k, P k = true -> is_contains cmp s k = Ret (sval x k)).
  Proof.
    split; intros x Hx Hr Hf.
    - destruct (on_mprog P HO HP HV x Hx Hr) as (ops & H1 & H2 & H3 & H4). exists (im_run cmp veqb st ops). split; [exact H3|].
      intros k Hk. destruct (on_get P HO HP HV ops k H1 (H2 Hf) Hk) as (o & E & S). exists o. split; [exact E|].
      exact (MapProofs.osame_trans HV _ _ _ S (H4 k Hk)).
    - destruct (on_sprog P HO HP HV x Hx Hr) as (ops & H1 & H2 & H3 & H4). exists (is_run cmp st ops). split; [exact H3|].
      intros k Hk. rewrite <- (H4 k Hk). exact (son_contains P HO ops k HP H1 (H2 Hf) Hk).
  Qed.
  Theorem C119_map_programs_eq : (forall v, veqb v v = true) -> forall x y, mprog_on P x -> mprog_on P y ->
    mrespects veqb x -> mrespects veqb y -> mfresh x = true -> mfresh y = true -> exists a b,
    imrun cmp veqb st x = Ret a /\ imrun cmp veqb st y = Ret b /\
    (im_eqb cmp veqb a b = true <-> forall k, P k = true -> same_opt veqb (mval x k) (mval y k)).
  Proof.
    intros Hr x y Hx Hy Rx Ry Fx Fy.
    destruct (on_mprog P HO HP HV x Hx Rx) as (a & A1 & A2 & A3 & A4), (on_mprog P HO HP HV y Hy Ry) as (b & B1 & B2 & B3 & B4).
    exists (im_run cmp veqb st a), (im_run cmp veqb st b). split; [exact A3|]. split; [exact B3|].
    rewrite (on_eq P HO HP HV a b Hr A1 B1 (A2 Fx) (B2 Fy)). split; intros H k Hk; specialize (A4 k Hk); specialize (B4 k Hk).
    - exact (MapProofs.osame_trans HV _ _ _ (MapProofs.osame_sym HV _ _ A4) (MapProofs.osame_trans HV _ _ _ (H k Hk) B4)).
    - exact (MapProofs.osame_trans HV _ _ _ A4 (MapProofs.osame_trans HV _ _ _ (H k Hk) (MapProofs.osame_sym HV _ _ B4))).
  Qed.
  Theorem C119_set_programs_eq : forall x y, sprog_on P x -> sprog_on P y ->
    srespects veqb x -> srespects veqb y -> sfresh x = true -> sfresh y = true -> exists a b,
    isrun cmp veqb st x = Ret a /\ isrun cmp veqb st y = Ret b /\
    (is_eqb cmp a b = true <-> forall k, P k = true -> sval x k = sval y k).
  Proof.
    intros x y Hx Hy Rx Ry Fx Fy.
    destruct (on_sprog P HO HP HV x Hx Rx) as (a & A1 & A2 & A3 & A4), (on_sprog P HO HP HV y Hy Ry) as (b & B1 & B2 & B3 & B4).
    exists (is_run cmp st a), (is_run cmp st b). split; [exact A3|]. split; [exact B3|].
    rewrite (son_eq P HO a b HP A1 B1 (A2 Fx) (B2 Fy)).
    split; intros H k Hk; specialize (A4 k Hk); specialize (B4 k Hk); specialize (H k Hk); congruence.
  Qed.
End Programs.
(** With all keys in use these are the laws assumed elsewhere (C90). *)
Theorem C119_all_keys : forall K (cmp : K -> K -> comparison) (st : stepfns K),
  lawful_on cmp st (fun _ => true) <-> StepLaws cmp st.
Proof.
  intros K cmp st. split; intros [H1 H2]; split; intros x y.
  - intros H. destruct (H1 x y eq_refl eq_refl H) as (s & ? & _ & ?). eauto.
  - intros H. destruct (H2 x y eq_refl eq_refl H) as (s & ? & _ & ?). eauto.
  - intros _ _ H. destruct (H1 x y H) as (s & ? & ?). eauto.
  - intros _ _ H. destruct (H2 x y H) as (s & ? & ?). eauto.
Qed.

(** ** Pages of 4096 bytes *)
Definition pages : stepfns Z := mkStep (fun z => Some (z + 4096)) (fun z => Some (z - 4096)).
Definition aligned (z : Z) : bool := z mod 4096 =? 0.
Lemma aligned_iff z : aligned z = true <-> exists q, z = 4096 * q.
Proof.
  unfold aligned. rewrite Z.eqb_eq. split.
  - intros H. exists (z / 4096). pose proof (Z.div_mod z 4096 ltac:(lia)). lia.
  - intros [q ->]. rewrite Z.mul_comm. apply Z.mod_mul. lia.
Qed.
Lemma pages_lawful : lawful_on Z.compare pages aligned.
Proof.
  assert (L : forall x y, ltb Z.compare x y = true <-> x < y) by (intros; unfold ltb; rewrite <- Z.compare_lt_iff; destruct (x ?= y); intuition congruence).
  assert (M : forall x y, leb Z.compare x y = true <-> x <= y) by (intros; unfold leb, Z.le; destruct (x ?= y); intuition congruence).
  split; intros x y Hx Hy H; apply aligned_iff in Hx as [a ->], Hy as [b ->]; apply L in H; eexists; (split; [reflexivity|]);
    rewrite aligned_iff, L, M; (split; [|lia]).
  - exists (a + 1). lia.
  - exists (a - 1). lia.
Qed.
Definition page_ops : list (op (rangei Z) Z) :=
  [OInsert (incl 0 12288) 1; ORemove (incl 4096 4096); OInsert (incl 16384 20480) 1; OInsert (incl 12288 12288) 2;
   OExtend [(incl (-4096) (-4096), 1); (incl 8192 4096, 7)]].
Lemma page_ops_on : ops_on aligned page_ops.
Proof.
  intros o Ho. cbn in Ho. repeat destruct Ho as [<-|Ho]; try contradiction; cbn; try (split; reflexivity).
  intros e [<-|[<-|[]]]; split; reflexivity.
Qed.
Example C119_example :
  TotalOrd Z.compare /\ lawful_on Z.compare pages aligned /\ ~ StepLaws Z.compare pages /\ PartialEquiv Z.eqb /\
  ops_on aligned page_ops /\ fresh_ops page_ops /\
  im_run Z.compare Z.eqb pages page_ops =
    [(incl (-4096) 0, 1); (incl 8192 8192, 1); (incl 12288 12288, 2); (incl 16384 20480, 1)] /\
  im_get_key_value Z.compare (im_run Z.compare Z.eqb pages page_ops) (-17) = Ret (Some (incl (-4096) 0, 1)) /\
  im_get_key_value Z.compare (im_run Z.compare Z.eqb pages page_ops) 5000 = Ret None /\
  fst (im_exec Z.compare Z.eqb pages (OInsert (incl 8192 4096) 3) (im_run Z.compare Z.eqb pages page_ops)) = Panicked PAssert.
Proof.
  split; [exact Z_order|]. split; [exact pages_lawful|]. split.
  { intros H. destruct (step_succ _ _ H 0 1 eq_refl) as (s & E & _ & E'). injection E as <-. discriminate E'. }
  split; [exact Z_per|]. split; [exact page_ops_on|]. repeat split.
Qed.
Example C119_gaps_example : range_on aligned (incl (-8192) 24576) /\
  exists g, im_gaps Z.compare (im_run Z.compare Z.eqb pages page_ops) (incl (-8192) 24576) = Ret g /\
    nexts_m (gpi_next Z.compare pages) 4 g =
      [Ret (Some (incl (-8192) (-8192))); Ret (Some (incl 4096 4096)); Ret (Some (incl 24576 24576)); Ret None].
Proof. split; [split; reflexivity|]. eexists. split; reflexivity. Qed.
Example C119_overlapping_example :
  exists o, im_overlapping Z.compare (im_run Z.compare Z.eqb pages page_ops) (incl (-1) 9000) = Ret o /\
    map fst (sched_trace (both (ovi_next Z.compare) (ovi_next_back Z.compare)) (fun _ => tt) [Front; Back; Front] o) =
      [Some (incl (-4096) 0, 1); Some (incl 8192 8192, 1); None].
Proof. eexists. split; reflexivity. Qed.
(** a later entry swallows a smaller one, the values being equal again *)
Example C119_eq_example :
  im_eqb Z.compare Z.eqb
    (im_run Z.compare Z.eqb pages [OInsert (incl 0 0) 1; OInsert (incl 4096 8192) 1])
    (im_run Z.compare Z.eqb pages [OInsert (incl 0 8192) 2; OInsert (incl 0 8192) 1]) = true /\
  im_run Z.compare Z.eqb zst [OInsert (incl 0 0) 1; OInsert (incl 4096 8192) 1] = [(incl 0 0, 1); (incl 4096 8192, 1)].
Proof. split; reflexivity. Qed.
Example C119_set_example :
  sops_on aligned [SInsert (incl 0 8192); SRemove (incl 4096 4096)] /\
  is_run Z.compare pages [SInsert (incl 0 8192); SRemove (incl 4096 4096)] = [(incl 0 0, tt); (incl 8192 8192, tt)].
Proof. split; [|reflexivity]. intros o [<-|[<-|[]]]; split; reflexivity. Qed.
(** pages 0-3 or 8, met with 2-8: pages 2, 3 and 8 *)
Example C119_set_expressions_example :
  let x := XAnd (XOr (XOp XNew (SInsert (incl 0 12288))) (XOp XNew (SInsert (incl 32768 32768))))
                (XOp XNew (SInsert (incl 8192 32768))) in
  let y := XOp (XOp XNew (SInsert (incl 8192 32768))) (SRemove (incl 16384 28672)) in
  sexp_on aligned x /\ sexp_on aligned y /\ fresh_sexp x = true /\ fresh_sexp y = true /\
  is_eval Z.compare pages x = Ret [(incl 8192 12288, tt); (incl 32768 32768, tt)] /\
  is_eval Z.compare pages y = is_eval Z.compare pages x.
Proof. cbn; repeat split; reflexivity. Qed.

(** pages 0-3 minus 1, the hole and pages 4-5 filled with 2: page-sized gaps,
    although the addresses in between are neither mapped nor free *)
Example C119_programs_example :
  let m := PMinus (PCall PNew (OInsert (incl 0 12288) 1)) (QCall QNew (SInsert (incl 4096 4096))) in
  let x := PFill m (incl 0 20480) 2 in
  let y := PExtend (PPaint (QFree PNew (incl 0 20480)) 2) m in
  let s := QOr (QGaps (QWhere (Z.eqb 1) x) (incl (-4096) 20480)) (QMinus QNew (QCall QNew SClear)) in
  let t := QAnd (QExtend (QWhere (Z.eqb 2) y) (QCall QNew (SInsert (incl (-4096) (-4096))))) (QFree PNew (incl (-4096) 28672)) in
  mprog_on aligned x /\ mprog_on aligned y /\ sprog_on aligned s /\ sprog_on aligned t /\
  mrespects Z.eqb x /\ mrespects Z.eqb y /\ srespects Z.eqb s /\ srespects Z.eqb t /\
  mfresh x = true /\ mfresh y = true /\ sfresh s = true /\ sfresh t = true /\
  mprog_on aligned (PApply (fun _ => 7) x) /\ mrespects Z.eqb (PApply (fun _ => 7) x) /\
  imrun Z.compare Z.eqb pages (PApply (fun _ => 7) x) = Ret [(incl 0 20480, 7)] /\
  imrun Z.compare Z.eqb pages x = Ret [(incl 0 0, 1); (incl 4096 4096, 2); (incl 8192 12288, 1); (incl 16384 20480, 2)] /\
  imrun Z.compare Z.eqb pages y = imrun Z.compare Z.eqb pages x /\
  imrun Z.compare Z.eqb zst x <> imrun Z.compare Z.eqb pages x /\
  isrun Z.compare Z.eqb pages s = Ret [(incl (-4096) (-4096), tt); (incl 4096 4096, tt); (incl 16384 20480, tt)] /\
  isrun Z.compare Z.eqb pages t = isrun Z.compare Z.eqb pages s.
Proof.
  cbn zeta. assert (R : forall c a b, Z.eqb a b = true -> Z.eqb c a = Z.eqb c b) by (intros c a b H; apply Z.eqb_eq in H; subst; reflexivity).
  splits; try reflexivity; try (cbn; repeat split; exact (R 1) || exact (R 2)); discriminate.
Qed.

(** A closure that looks at the units, over values that are [==] when they have
    the same tens digit. *)
Example C119_any_closure_example :
  let q a b := Z.eqb (a / 10) (b / 10) in
  let m := PCall (PCall (PCall PNew (OInsert (incl 0 4096) 12)) (OInsert (incl 8192 8192) 11)) (OInsert (incl 16384 20480) 12) in
  let x := PFill (PApply (fun v => if Z.even v then 50 else v) m) (incl 0 20480) 55 in
  mprog_on aligned x /\ ~ mrespects q x /\ sprog_on aligned (QWhere Z.even m) /\ ~ srespects q (QWhere Z.even m) /\
  imrun Z.compare q pages x = Ret [(incl 0 8192, 11); (incl 12288 20480, 55)] /\
  isrun Z.compare q pages (QWhere Z.even m) = Ret [(incl 16384 20480, tt)].
Proof.
  cbn zeta. split; [cbn; repeat split |].
  split; [intros H; cbn in H; destruct H as [H _]; specialize (H 11 12 eq_refl); discriminate H |].
  split; [cbn; repeat split |].
  split; [intros H; cbn in H; destruct H as [H _]; specialize (H 11 12 eq_refl); discriminate H |].
  split; reflexivity.
Qed.

(** A range whose bounds are not keys in use is not harmless: removing one
    byte stores a backward entry, and pages that were never removed are gone. *)
Theorem C119_unaligned_refuted : exists ops k,
  ops_on aligned (removelast ops) /\ fresh_ops ops /\ aligned k = true /\
  spec_run (valid_rangei Z.compare) (in_rangei Z.compare) ops k = Some 1 /\
  im_get Z.compare (im_run Z.compare Z.eqb pages ops) k = Ret None /\
  exists r, In (r, 1) (im_run Z.compare Z.eqb pages ops) /\ valid_rangei Z.compare r = false.
Proof.
  exists [OInsert (incl 0 8192) 1; ORemove (incl 1 1)], 0. split; [intros o [<-|[]]; split; reflexivity|].
  repeat split. exists (incl 0 (-4095)). split; [left; reflexivity|reflexivity].
Qed.
(** Nor is it enough that the steps are right where they stay in use: with only
    some of the pages in use, a step leads to a page that is not. *)
Definition few (z : Z) : bool := (z =? 0) || (z =? 8192).
Theorem C119_holes_refuted : exists ops r v,
  ops_on few ops /\ fresh_ops ops /\ In (r, v) (im_run Z.compare Z.eqb pages ops) /\ ~ range_on few r.
Proof.
  exists [OInsert (incl 0 8192) 1; ORemove (incl 0 0)], (incl 4096 8192), 1.
  split; [intros o [<-|[<-|[]]]; split; reflexivity|]. split; [reflexivity|]. split; [left; reflexivity|].
  intros [H _]. discriminate H.
Qed.

Print Assumptions C119_shape.
Print Assumptions C119_outcome.
Print Assumptions C119_last_writer_wins.
Print Assumptions C119_lookup.
Print Assumptions C119_lookup_none.
Print Assumptions C119_overlapping.
Print Assumptions C119_overlaps.
Print Assumptions C119_coalesced.
Print Assumptions C119_eq_extensional.
Print Assumptions C119_gaps.
Print Assumptions C119_exact.
Print Assumptions C119_set_contains.
Print Assumptions C119_set_exact.
Print Assumptions C119_set_expressions.
Print Assumptions C119_set_contains_expressions.
Print Assumptions C119_set_eq.
Print Assumptions C119_map_programs.
Print Assumptions C119_set_programs.
Print Assumptions C119_programs_lookup.
Print Assumptions C119_map_programs_eq.
Print Assumptions C119_set_programs_eq.
Print Assumptions C119_programs_any_closure.
Print Assumptions C119_apply_any_closure.
Print Assumptions C119_where_any_closure.
Print Assumptions C119_all_keys.
Print Assumptions C119_unaligned_refuted.
Print Assumptions C119_holes_refuted.
