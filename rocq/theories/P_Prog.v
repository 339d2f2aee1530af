(** C96-C97: programs that build maps and sets out of each other.

    A program (SpecProg.v) starts from empty collections and combines them with
    the public methods: updates, [extend] with another collection, removing the
    ranges of a set from a map, filling gaps, collecting gaps, selecting the
    ranges with certain values, union, intersection.  Running it (ProgModel.v)
    never panics outside the caught updates and gives a collection that is
    determined by an obvious meaning, key by key; two programs give [==]
    collections exactly when their meanings agree. *)
From Coq Require Import List Bool Sorting.Sorted ZArith.
From Verif Require Import Order Outcome BTree Ranges History Spec MapModel IMapModel OpsModel SetModel ISetModel
  MapProofs Cuts IMapProps SetFacts SpecProg ProgModel ProgFacts Exhausted ProgAny ProgRuns Instances.
Import ListNotations.
Local Open Scope Z_scope.

(** All the keys of a map, as a set. *)
Notation keys m := (QWhere (fun _ => true) m).

Section Half.
  Context {K V : Type} {cmp : K -> K -> comparison} {veqb : V -> V -> bool}.
  Context (HO : TotalOrd cmp) (HV : PartialEquiv veqb).
  Notation valid := (valid_range cmp).
  Notation covers := (in_range cmp).
  Notation mval := (mval (V := V) valid covers).
  Notation sval := (sval (V := V) valid covers).

  (** A program that makes a map gives one that answers its meaning, with
      ascending, disjoint, non-empty ranges that could not be merged. *)
  Theorem C96_map_programs : forall x, mrespects veqb x -> exists m, mrun cmp veqb x = Ret m /\
    (forall k, exists o, rm_get cmp m k = Ret o /\ same_opt veqb o (mval x k)) /\
    ascending cmp (rm_iter m) /\ coalesced cmp veqb (rm_iter m) /\ represents covers veqb (rm_iter m) (mval x).
  Proof. exact (mprog_answers HO HV). Qed.
  (** A program that makes a set gives the maximal runs of its meaning. *)
  Theorem C96_set_programs : forall x, srespects veqb x -> exists s, srun cmp veqb x = Ret s /\
    (forall k, rs_contains cmp s k = Ret (sval x k)) /\ runs_of cmp (sval x) (map fst (rs_iter s)).
  Proof. exact (sprog_answers HO HV). Qed.
  Theorem C96_map_equality : (forall v, veqb v v = true) -> forall x y, mrespects veqb x -> mrespects veqb y ->
    exists a b, mrun cmp veqb x = Ret a /\ mrun cmp veqb y = Ret b /\
      (rm_eqb cmp veqb a b = true <-> forall k, same_opt veqb (mval x k) (mval y k)).
  Proof. exact (mprog_eq HO HV). Qed.
  Theorem C96_set_equality : forall x y, srespects veqb x -> srespects veqb y ->
    exists a b, srun cmp veqb x = Ret a /\ srun cmp veqb y = Ret b /\
      (rs_eqb cmp a b = true <-> forall k, sval x k = sval y k).
  Proof. exact (sprog_eq HO HV). Qed.
  (** Draining [gaps] gives at most one gap more than the map has entries. *)
  Theorem C96_gap_count : forall ops outer, exists gs,
    rm_all_gaps cmp (rm_run cmp veqb ops) outer = Ret gs /\
    (length gs <= length (rm_iter (rm_run cmp veqb ops)) + 1)%nat /\
    gaps_of cmp (spec_run valid covers ops) outer gs.
  Proof. exact (all_gaps HO HV). Qed.

  (** *** Any closures

      Programs whose closures tell [==] values apart have no meaning key by key
      (which of several [==] values a map keeps is its own choice), but they run
      all the same: to a map or a set that some history of calls makes, ... *)
  Theorem C96_map_programs_any_closure : forall x : mprog (range K) V, exists m ops,
    mrun cmp veqb x = Ret m /\ m = rm_run cmp veqb ops /\
    ascending cmp (rm_iter m) /\ (forall r v, In (r, v) (rm_iter m) -> valid r = true) /\ coalesced cmp veqb (rm_iter m).
  Proof. exact (prog_runs_map HO HV). Qed.
  Theorem C96_set_programs_any_closure : forall x : sprog (range K) V, exists s ops,
    srun cmp veqb x = Ret s /\ s = rs_run cmp ops /\
    runs_of cmp (mem_run valid covers ops) (map fst (rs_iter s)).
  Proof. exact (prog_runs_set HO HV). Qed.
  (** ... mapping the values changes no keys and gives each key the image of the
      value it had, and selecting gives the keys of the entries selected. *)
  Theorem C96_apply_any_closure : forall g (x : mprog (range K) V), exists a b,
    mrun cmp veqb x = Ret a /\ mrun cmp veqb (PApply g x) = Ret b /\
    (forall k r v, In (r, v) (rm_iter a) -> covers r k = true ->
       exists r' v', In (r', v') (rm_iter b) /\ covers r' k = true /\ same_val veqb v' (g v)) /\
    (forall k r' v', In (r', v') (rm_iter b) -> covers r' k = true ->
       exists r v, In (r, v) (rm_iter a) /\ covers r k = true).
  Proof. exact (apply_any HO HV). Qed.
  Theorem C96_where_any_closure : forall p (x : mprog (range K) V), exists a s,
    mrun cmp veqb x = Ret a /\ srun cmp veqb (QWhere p x) = Ret s /\
    forall k, (exists r, In r (map fst (rs_iter s)) /\ covers r k = true) <->
      exists r v, In (r, v) (rm_iter a) /\ covers r k = true /\ p v = true.
  Proof. exact (where_any HO HV). Qed.

  (** *** Laws: both sides run to collections that are [==] *)
  Context (Hrefl : forall v, veqb v v = true).
  Definition mlaw (x y : mprog (range K) V) : Prop := exists a b,
    mrun cmp veqb x = Ret a /\ mrun cmp veqb y = Ret b /\ rm_eqb cmp veqb a b = true.
  Definition slaw (x y : sprog (range K) V) : Prop := exists a b,
    srun cmp veqb x = Ret a /\ srun cmp veqb y = Ret b /\ rs_eqb cmp a b = true.
  Notation mok x := (mrespects veqb x).
  Notation sok x := (srespects veqb x).
  Lemma mlaw_of x y : mok x -> mok y -> (forall k, mval x k = mval y k) -> mlaw x y.
  Proof.
    intros Hx Hy H. destruct (mprog_eq HO HV Hrefl x y Hx Hy) as (a & b & A & B & E). exists a, b.
    refine (conj A (conj B _)). apply E. intros k. rewrite H. destruct (mval y k); [left; reflexivity|exact I].
  Qed.
  Lemma slaw_of x y : sok x -> sok y -> (forall k, sval x k = sval y k) -> slaw x y.
  Proof.
    intros Hx Hy H. destruct (sprog_eq HO HV x y Hx Hy) as (a & b & A & B & E). exists a, b.
    refine (conj A (conj B _)). apply E, H.
  Qed.
  Ltac respects := cbn; fold (mrespects (R := range K) veqb); fold (srespects (R := range K) veqb); intuition auto; f_equal; auto.
  Ltac meaning := intros k; cbn;
    fold (SpecProg.mval (V := V) valid covers); fold (SpecProg.sval (V := V) valid covers);
    repeat match goal with
    | |- context [SpecProg.mval _ _ ?x k] => destruct (mval x k); cbn
    | |- context [SpecProg.sval _ _ ?x k] => destruct (sval x k); cbn
    | |- context [in_range cmp ?r k] => destruct (in_range cmp r k); cbn
    | |- context [?p ?v] => match type of p with V -> bool => destruct (p v); cbn end
    end; reflexivity.
  Ltac laws := intros; repeat split; ((apply mlaw_of || apply slaw_of); [respects|respects|meaning]).

  Theorem C96_extend : forall a b c, mok a -> mok b -> mok c -> 
    mlaw (PExtend (PExtend a b) c) (PExtend a (PExtend b c)) /\
    mlaw (PExtend a PNew) a /\ mlaw (PExtend PNew a) a /\ mlaw (PExtend a a) a.
  Proof. laws. Qed.
  (** removing the ranges of a set: one set after the other is their union, and
      it distributes over [extend] *)
  Theorem C96_minus : forall a b s t, mok a -> mok b -> sok s -> sok t -> 
    mlaw (PMinus (PMinus a s) t) (PMinus a (QOr s t)) /\
    mlaw (PMinus (PExtend a b) s) (PExtend (PMinus a s) (PMinus b s)) /\
    slaw (keys (PMinus a s)) (QMinus (keys a) s).
  Proof. laws. Qed.
  (** cutting a map in two along a set and putting the halves together *)
  Theorem C96_partition : forall a s, mok a -> sok s -> 
    mlaw (PExtend (PMinus a s) (PMinus a (QMinus (keys a) s))) a /\
    slaw (QAnd (keys (PMinus a s)) (keys (PMinus a (QMinus (keys a) s)))) QNew.
  Proof. laws. Qed.
  (** filling the gaps of a map; the gaps are the complement of its keys *)
  Theorem C96_fill : forall a outer v, mok a -> 
    slaw (QFree (PFill a outer v) outer) QNew /\
    slaw (QFree a outer) (QGaps (keys a) outer) /\
    mlaw (PFill a outer v) (PExtend (PPaint (QFree a outer) v) a) /\
    mlaw (PFill (PFill a outer v) outer v) (PFill a outer v).
  Proof. laws. Qed.
  (** selecting ranges by value, painting a set, and mapping the values *)
  Theorem C96_values : forall a b s p g v, mok a -> mok b -> sok s -> 
    (forall x y, veqb x y = true -> p x = p y) -> (forall x y, veqb x y = true -> veqb (g x) (g y) = true) ->
    slaw (QOr (QWhere p a) (QWhere (fun x => negb (p x)) a)) (keys a) /\
    slaw (QAnd (QWhere p a) (QWhere (fun x => negb (p x)) a)) QNew /\
    slaw (keys (PPaint s v)) s /\
    slaw (keys (PApply g a)) (keys a) /\
    slaw (QWhere p (PApply g a)) (QWhere (fun x => p (g x)) a) /\
    mlaw (PApply g (PExtend a b)) (PExtend (PApply g a) (PApply g b)).
  Proof. laws. Qed.
  (** complement within a range, and difference *)
  Theorem C96_complement : forall s t outer, sok s -> sok t -> 
    slaw (QGaps (QGaps s outer) outer) (QMinus s (QMinus s (QGaps QNew outer))) /\
    slaw (QOr s (QGaps s outer)) (QOr s (QGaps QNew outer)) /\
    slaw (QAnd s (QGaps s outer)) QNew /\
    slaw (QGaps (QOr s t) outer) (QAnd (QGaps s outer) (QGaps t outer)) /\
    slaw (QGaps (QAnd s t) outer) (QOr (QGaps s outer) (QGaps t outer)).
  Proof. laws. Qed.
  Theorem C96_difference : forall s t u, sok s -> sok t -> sok u -> 
    slaw (QMinus s (QMinus s t)) (QAnd s t) /\
    slaw (QOr (QMinus s t) (QAnd s t)) s /\
    slaw (QMinus s (QOr t u)) (QAnd (QMinus s t) (QMinus s u)) /\
    slaw (QMinus (QOr s t) u) (QOr (QMinus s u) (QMinus t u)) /\
    slaw (QExtend s t) (QOr s t).
  Proof. laws. Qed.

  Example C96_example :
    let m := PCall (PCall PNew (OInsert (mkR 0 10) 1)) (OInsert (mkR 20 30) 2) in
    let n := PCall PNew (OInsert (mkR 5 25) 3) in
    let s := QCall QNew (SInsert (mkR 8 22)) in
    mrun Z.compare Z.eqb (PExtend m n) = Ret [(mkR 0 5, 1); (mkR 5 25, 3); (mkR 25 30, 2)] /\
    mrun Z.compare Z.eqb (PMinus m s) = Ret [(mkR 0 8, 1); (mkR 22 30, 2)] /\
    mrun Z.compare Z.eqb (PFill m (mkR 5 40) 1) = Ret [(mkR 0 20, 1); (mkR 20 30, 2); (mkR 30 40, 1)] /\
    mrun Z.compare Z.eqb (PApply (fun _ => 7) (PExtend m n)) = Ret [(mkR 0 30, 7)] /\
    mrun Z.compare Z.eqb (PCall m (ORemove (mkR 3 3))) = mrun Z.compare Z.eqb m /\
    srun Z.compare Z.eqb (QWhere (Z.eqb 2) (PExtend m n)) = Ret [(mkR 25 30, tt)] /\
    srun Z.compare Z.eqb (QGaps s (mkR 0 30)) = Ret [(mkR 0 8, tt); (mkR 22 30, tt)] /\
    srun Z.compare Z.eqb (QFree m (mkR 5 40)) = Ret [(mkR 10 20, tt); (mkR 30 40, tt)] /\
    mrespects Z.eqb (PApply (fun _ => 7) (PExtend m n)) /\ srespects Z.eqb (QWhere (Z.eqb 2) (PExtend m n)) /\
    TotalOrd Z.compare /\ PartialEquiv Z.eqb.
  Proof.
    repeat split; try (vm_compute; reflexivity); try exact I; try apply Z_order; try apply Z_per.
    intros a b H. apply Z.eqb_eq in H. subst. reflexivity.
  Qed.
  (** A closure that tells [==] values apart sees which of them was kept: here
      [==] compares tens, and the entry [0..20] carries 11 although the key 5
      was given 12. *)
  Example C96_respect_needed :
    let q a b := Z.eqb (a / 10) (b / 10) in
    let m := PCall (PCall PNew (OInsert (mkR 0 10) 12)) (OInsert (mkR 10 20) 11) in
    srun Z.compare q (QWhere (Z.eqb 12) m) = Ret [] /\
    SpecProg.sval (valid_range Z.compare) (in_range Z.compare) (QWhere (Z.eqb 12) m) 5 = true.
  Proof. split; vm_compute; reflexivity. Qed.
  (** Values that are [==] when they have the same tens digit: the map keeps 11
      for all of [0..20], and a closure that looks at the units sees that. *)
  Example C96_any_closure_example :
    let q a b := Z.eqb (a / 10) (b / 10) in
    let m := PCall (PCall (PCall PNew (OInsert (mkR 0 10) 12)) (OInsert (mkR 10 20) 11)) (OInsert (mkR 30 40) 12) in
    let g v := if Z.even v then 50 else v in
    PartialEquiv q /\ ~ mrespects q (PApply g m) /\ ~ srespects q (QWhere Z.even m) /\
    mrun Z.compare q m = Ret [(mkR 0 20, 11); (mkR 30 40, 12)] /\
    mrun Z.compare q (PApply g m) = Ret [(mkR 0 20, 11); (mkR 30 40, 50)] /\
    srun Z.compare q (QWhere Z.even m) = Ret [(mkR 30 40, tt)].
  Proof.
    cbn zeta. repeat match goal with |- _ /\ _ => split end; try (vm_compute; reflexivity).
    - split; intros *; rewrite ?Z.eqb_eq; congruence.
    - intros [H _]. discriminate (H 11 12 eq_refl).
    - intros [H _]. discriminate (H 11 12 eq_refl).
  Qed.
End Half.

Section Inclusive.
  Context {K V : Type} {cmp : K -> K -> comparison} {veqb : V -> V -> bool} {st : stepfns K}.
  Context (HO : TotalOrd cmp) (HS : StepLaws cmp st) (HV : PartialEquiv veqb).
  Notation valid := (valid_rangei cmp).
  Notation covers := (in_rangei cmp).
  Notation mval := (mval (V := V) valid covers).
  Notation sval := (sval (V := V) valid covers).

  (** A program that makes a map gives one that answers its meaning, with
      ascending, disjoint, non-empty ranges that could not be merged. *)
  Theorem C97_map_programs : forall x, mrespects veqb x -> mfresh x = true -> exists m, imrun cmp veqb st x = Ret m /\
    (forall k, exists o, im_get cmp m k = Ret o /\ same_opt veqb o (mval x k)) /\
    ascendingi cmp (im_iter m) /\ coalescedi cmp veqb (im_iter m) /\ represents covers veqb (im_iter m) (mval x).
  Proof. exact (improg_answers HO HS HV). Qed.
  (** A program that makes a set gives the maximal runs of its meaning. *)
  Theorem C97_set_programs : forall x, srespects veqb x -> sfresh x = true -> exists s, isrun cmp veqb st x = Ret s /\
    (forall k, is_contains cmp s k = Ret (sval x k)) /\ runsi_of cmp (sval x) (map fst (is_iter s)).
  Proof. exact (isprog_answers HO HS HV). Qed.
  Theorem C97_map_equality : (forall v, veqb v v = true) -> forall x y, mrespects veqb x -> mrespects veqb y ->
    mfresh x = true -> mfresh y = true ->
    exists a b, imrun cmp veqb st x = Ret a /\ imrun cmp veqb st y = Ret b /\
      (im_eqb cmp veqb a b = true <-> forall k, same_opt veqb (mval x k) (mval y k)).
  Proof. exact (improg_eq HO HS HV). Qed.
  Theorem C97_set_equality : forall x y, srespects veqb x -> srespects veqb y ->
    sfresh x = true -> sfresh y = true ->
    exists a b, isrun cmp veqb st x = Ret a /\ isrun cmp veqb st y = Ret b /\
      (is_eqb cmp a b = true <-> forall k, sval x k = sval y k).
  Proof. exact (isprog_eq HO HS HV). Qed.
  (** *** Ranges iterated to exhaustion

      The program still runs, and the ranges of the result still cover what its
      meaning says, but an exhausted range of the result does not show its last
      key to lookups. *)
  Notation shows r k := (covers r k = true /\ (ri_exhausted r = true -> eqb cmp k (ri_end r) = false)).
  Theorem C97_map_programs_any : forall x, mrespects veqb x -> exists m, imrun cmp veqb st x = Ret m /\
    ascendingi cmp (im_iter m) /\ (forall r v, In (r, v) (im_iter m) -> valid r = true) /\
    coalescedi cmp veqb (im_iter m) /\ represents covers veqb (im_iter m) (mval x) /\
    (forall k r v, im_get_key_value cmp m k = Ret (Some (r, v)) <-> In (r, v) (im_iter m) /\ shows r k) /\
    (forall k, im_get_key_value cmp m k = Ret None <-> forall r v, In (r, v) (im_iter m) -> ~ shows r k).
  Proof. exact (improg_any HO HS HV). Qed.
  Theorem C97_set_programs_any : forall x, srespects veqb x -> exists s, isrun cmp veqb st x = Ret s /\
    (forall r, In r (map fst (is_iter s)) -> valid r = true) /\
    StronglySorted (fun a b => exists k, ltb cmp (ri_end a) k = true /\ ltb cmp k (ri_start b) = true) (map fst (is_iter s)) /\
    (forall k, (exists r, In r (map fst (is_iter s)) /\ covers r k = true) <-> sval x k = true) /\
    (forall k r, is_get cmp s k = Ret (Some r) <-> In r (map fst (is_iter s)) /\ shows r k) /\
    (forall k, is_contains cmp s k = Ret true <-> exists r, In r (map fst (is_iter s)) /\ shows r k) /\
    (forall k, is_contains cmp s k = Ret false <-> ~ exists r, In r (map fst (is_iter s)) /\ shows r k).
  Proof. exact (isprog_any HO HS HV). Qed.
  (** [cmp] does not look at the flag, so it decides whether the meanings agree. *)
  Theorem C97_map_cmp : forall vcmp, TotalOrd vcmp -> (forall x y : V, vcmp x y = Eq <-> veqb x y = true) ->
    forall x y, mrespects veqb x -> mrespects veqb y ->
    exists a b, imrun cmp veqb st x = Ret a /\ imrun cmp veqb st y = Ret b /\
      (im_cmp cmp vcmp a b = Eq <-> forall k, same_opt veqb (mval x k) (mval y k)).
  Proof. exact (improg_cmp HO HS HV). Qed.
  Theorem C97_set_cmp : forall x y, srespects veqb x -> srespects veqb y ->
    exists a b, isrun cmp veqb st x = Ret a /\ isrun cmp veqb st y = Ret b /\
      (is_cmp cmp a b = Eq <-> forall k, sval x k = sval y k).
  Proof. exact (isprog_cmp HO HS HV). Qed.
  (** Draining [gaps] gives at most one gap more than the map has entries. *)
  Theorem C97_gap_count : forall ops outer, exists gs,
    im_all_gaps cmp st (im_run cmp veqb st ops) outer = Ret gs /\
    (length gs <= length (im_iter (im_run cmp veqb st ops)) + 1)%nat /\
    gapsi_of cmp (spec_run valid covers ops) outer gs.
  Proof. exact (iall_gaps' HO HS HV). Qed.

  (** *** Any closures

      Programs whose closures tell [==] values apart have no meaning key by key
      (which of several [==] values a map keeps is its own choice), but they run
      all the same: to a map or a set that some history of calls makes, ... *)
  Theorem C97_map_programs_any_closure : forall x : mprog (rangei K) V, exists m ops,
    imrun cmp veqb st x = Ret m /\ m = im_run cmp veqb st ops /\
    ascendingi cmp (im_iter m) /\ (forall r v, In (r, v) (im_iter m) -> valid r = true) /\ coalescedi cmp veqb (im_iter m).
  Proof. exact (iprog_runs_map HO HS HV). Qed.
  Theorem C97_set_programs_any_closure : forall x : sprog (rangei K) V, exists s ops,
    isrun cmp veqb st x = Ret s /\ s = is_run cmp st ops /\
    (forall r, In r (map fst (is_iter s)) -> valid r = true) /\
    StronglySorted (fun a b => exists k, ltb cmp (ri_end a) k = true /\ ltb cmp k (ri_start b) = true) (map fst (is_iter s)).
  Proof. exact (iprog_runs_set HO HS HV). Qed.
  (** ... mapping the values changes no keys and gives each key the image of the
      value it had, and selecting gives the keys of the entries selected. *)
  Theorem C97_apply_any_closure : forall g (x : mprog (rangei K) V), exists a b,
    imrun cmp veqb st x = Ret a /\ imrun cmp veqb st (PApply g x) = Ret b /\
    (forall k r v, In (r, v) (im_iter a) -> covers r k = true ->
       exists r' v', In (r', v') (im_iter b) /\ covers r' k = true /\ same_val veqb v' (g v)) /\
    (forall k r' v', In (r', v') (im_iter b) -> covers r' k = true ->
       exists r v, In (r, v) (im_iter a) /\ covers r k = true).
  Proof. exact (iapply_any HO HS HV). Qed.
  Theorem C97_where_any_closure : forall p (x : mprog (rangei K) V), exists a s,
    imrun cmp veqb st x = Ret a /\ isrun cmp veqb st (QWhere p x) = Ret s /\
    forall k, (exists r, In r (map fst (is_iter s)) /\ covers r k = true) <->
      exists r v, In (r, v) (im_iter a) /\ covers r k = true /\ p v = true.
  Proof. exact (iwhere_any HO HS HV). Qed.

  (** *** Laws: both sides run; [cmp] finds no difference (for any order of the
      values that goes with their [==]), and the two are [==] unless a range
      iterated to exhaustion was inserted *)
  Context (Hrefl : forall v, veqb v v = true).
  Definition imlaw (x y : mprog (rangei K) V) : Prop := exists a b,
    imrun cmp veqb st x = Ret a /\ imrun cmp veqb st y = Ret b /\
    (forall vcmp, TotalOrd vcmp -> (forall x y : V, vcmp x y = Eq <-> veqb x y = true) -> im_cmp cmp vcmp a b = Eq) /\
    (mfresh x = true -> mfresh y = true -> im_eqb cmp veqb a b = true).
  Definition islaw (x y : sprog (rangei K) V) : Prop := exists a b,
    isrun cmp veqb st x = Ret a /\ isrun cmp veqb st y = Ret b /\
    is_cmp cmp a b = Eq /\ (sfresh x = true -> sfresh y = true -> is_eqb cmp a b = true).
  Notation mok x := (mrespects veqb x).
  Notation sok x := (srespects veqb x).
  Lemma imlaw_of x y : mok x -> mok y -> (forall k, mval x k = mval y k) -> imlaw x y.
  Proof.
    intros Hx Hy H. assert (Hk : forall k, same_opt veqb (mval x k) (mval y k)).
    { intros k. rewrite H. destruct (mval y k); [left; reflexivity|exact I]. }
    destruct (improg_any HO HS HV x Hx) as (a & A & _), (improg_any HO HS HV y Hy) as (b & B & _). exists a, b.
    refine (conj A (conj B (conj _ _))).
    - intros vcmp Hv Hve. destruct (improg_cmp HO HS HV vcmp Hv Hve x y Hx Hy) as (a' & b' & A' & B' & E).
      rewrite A in A'. rewrite B in B'. injection A' as <-. injection B' as <-. apply E, Hk.
    - intros Fx Fy. destruct (improg_eq HO HS HV Hrefl x y Hx Hy Fx Fy) as (a' & b' & A' & B' & E).
      rewrite A in A'. rewrite B in B'. injection A' as <-. injection B' as <-. apply E, Hk.
  Qed.
  Lemma islaw_of x y : sok x -> sok y -> (forall k, sval x k = sval y k) -> islaw x y.
  Proof.
    intros Hx Hy H. destruct (isprog_cmp HO HS HV x y Hx Hy) as (a & b & A & B & E). exists a, b.
    refine (conj A (conj B (conj (proj2 E H) _))).
    intros Fx Fy. destruct (isprog_eq HO HS HV x y Hx Hy Fx Fy) as (a' & b' & A' & B' & E').
    rewrite A in A'. rewrite B in B'. injection A' as <-. injection B' as <-. apply E', H.
  Qed.
  Ltac respects := cbn; fold (mrespects (R := rangei K) veqb); fold (srespects (R := rangei K) veqb); intuition auto; f_equal; auto.
  Ltac meaning := intros k; cbn;
    fold (SpecProg.mval (V := V) valid covers); fold (SpecProg.sval (V := V) valid covers);
    repeat match goal with
    | |- context [SpecProg.mval _ _ ?x k] => destruct (mval x k); cbn
    | |- context [SpecProg.sval _ _ ?x k] => destruct (sval x k); cbn
    | |- context [in_rangei cmp ?r k] => destruct (in_rangei cmp r k); cbn
    | |- context [?p ?v] => match type of p with V -> bool => destruct (p v); cbn end
    end; reflexivity.
  Ltac laws := intros; repeat split; ((apply imlaw_of || apply islaw_of); [respects|respects|meaning]).

  Theorem C97_extend : forall a b c, mok a -> mok b -> mok c -> 
    imlaw (PExtend (PExtend a b) c) (PExtend a (PExtend b c)) /\
    imlaw (PExtend a PNew) a /\ imlaw (PExtend PNew a) a /\ imlaw (PExtend a a) a.
  Proof. laws. Qed.
  (** removing the ranges of a set: one set after the other is their union, and
      it distributes over [extend] *)
  Theorem C97_minus : forall a b s t, mok a -> mok b -> sok s -> sok t -> 
    imlaw (PMinus (PMinus a s) t) (PMinus a (QOr s t)) /\
    imlaw (PMinus (PExtend a b) s) (PExtend (PMinus a s) (PMinus b s)) /\
    islaw (keys (PMinus a s)) (QMinus (keys a) s).
  Proof. laws. Qed.
  (** cutting a map in two along a set and putting the halves together *)
  Theorem C97_partition : forall a s, mok a -> sok s -> 
    imlaw (PExtend (PMinus a s) (PMinus a (QMinus (keys a) s))) a /\
    islaw (QAnd (keys (PMinus a s)) (keys (PMinus a (QMinus (keys a) s)))) QNew.
  Proof. laws. Qed.
  (** filling the gaps of a map; the gaps are the complement of its keys *)
  Theorem C97_fill : forall a outer v, mok a -> 
    islaw (QFree (PFill a outer v) outer) QNew /\
    islaw (QFree a outer) (QGaps (keys a) outer) /\
    imlaw (PFill a outer v) (PExtend (PPaint (QFree a outer) v) a) /\
    imlaw (PFill (PFill a outer v) outer v) (PFill a outer v).
  Proof. laws. Qed.
  (** selecting ranges by value, painting a set, and mapping the values *)
  Theorem C97_values : forall a b s p g v, mok a -> mok b -> sok s -> 
    (forall x y, veqb x y = true -> p x = p y) -> (forall x y, veqb x y = true -> veqb (g x) (g y) = true) ->
    islaw (QOr (QWhere p a) (QWhere (fun x => negb (p x)) a)) (keys a) /\
    islaw (QAnd (QWhere p a) (QWhere (fun x => negb (p x)) a)) QNew /\
    islaw (keys (PPaint s v)) s /\
    islaw (keys (PApply g a)) (keys a) /\
    islaw (QWhere p (PApply g a)) (QWhere (fun x => p (g x)) a) /\
    imlaw (PApply g (PExtend a b)) (PExtend (PApply g a) (PApply g b)).
  Proof. laws. Qed.
  (** complement within a range, and difference *)
  Theorem C97_complement : forall s t outer, sok s -> sok t -> 
    islaw (QGaps (QGaps s outer) outer) (QMinus s (QMinus s (QGaps QNew outer))) /\
    islaw (QOr s (QGaps s outer)) (QOr s (QGaps QNew outer)) /\
    islaw (QAnd s (QGaps s outer)) QNew /\
    islaw (QGaps (QOr s t) outer) (QAnd (QGaps s outer) (QGaps t outer)) /\
    islaw (QGaps (QAnd s t) outer) (QOr (QGaps s outer) (QGaps t outer)).
  Proof. laws. Qed.
  Theorem C97_difference : forall s t u, sok s -> sok t -> sok u -> 
    islaw (QMinus s (QMinus s t)) (QAnd s t) /\
    islaw (QOr (QMinus s t) (QAnd s t)) s /\
    islaw (QMinus s (QOr t u)) (QAnd (QMinus s t) (QMinus s u)) /\
    islaw (QMinus (QOr s t) u) (QOr (QMinus s u) (QMinus t u)) /\
    islaw (QExtend s t) (QOr s t).
  Proof. laws. Qed.

  Example C97_example :
    let m := PCall (PCall PNew (OInsert (incl 0 9) 1)) (OInsert (incl 20 29) 2) in
    let n := PCall PNew (OInsert (incl 5 24) 3) in
    let s := QCall QNew (SInsert (incl 8 21)) in
    imrun Z.compare Z.eqb zst (PExtend m n) = Ret [(incl 0 4, 1); (incl 5 24, 3); (incl 25 29, 2)] /\
    imrun Z.compare Z.eqb zst (PMinus m s) = Ret [(incl 0 7, 1); (incl 22 29, 2)] /\
    imrun Z.compare Z.eqb zst (PFill m (incl 5 39) 1) = Ret [(incl 0 19, 1); (incl 20 29, 2); (incl 30 39, 1)] /\
    imrun Z.compare Z.eqb zst (PApply (fun _ => 7) (PExtend m n)) = Ret [(incl 0 29, 7)] /\
    isrun Z.compare Z.eqb zst (QWhere (Z.eqb 2) (PExtend m n)) = Ret [(incl 25 29, tt)] /\
    isrun Z.compare Z.eqb zst (QGaps s (incl 0 29)) = Ret [(incl 0 7, tt); (incl 22 29, tt)] /\
    isrun Z.compare Z.eqb zst (QFree m (incl 5 39)) = Ret [(incl 10 19, tt); (incl 30 39, tt)] /\
    mrespects Z.eqb (PApply (fun _ => 7) (PExtend m n)) /\ mfresh (PApply (fun _ => 7) (PExtend m n)) = true /\
    srespects Z.eqb (QWhere (Z.eqb 2) (PExtend m n)) /\ sfresh (QWhere (Z.eqb 2) (PExtend m n)) = true /\
    TotalOrd Z.compare /\ StepLaws Z.compare zst /\ PartialEquiv Z.eqb.
  Proof.
    repeat split; try (vm_compute; reflexivity); try exact I; try apply Z_order; try apply Z_per; try apply zst_laws.
    intros a b H. apply Z.eqb_eq in H. subst. reflexivity.
  Qed.
  Example C97_example_any :
    let ex a b := mkRI a b true in
    let m := PCall (PCall PNew (OInsert (ex 0 9) 1)) (OInsert (incl 20 29) 2) in
    let s := QCall QNew (SInsert (ex 20 24)) in
    mfresh m = false /\ sfresh s = false /\
    imrun Z.compare Z.eqb zst (PMinus m s) = Ret [(ex 0 9, 1); (incl 25 29, 2)] /\
    imrun Z.compare Z.eqb zst (PExtend (PMinus m s) (PMinus m (QMinus (keys m) s))) = Ret [(ex 0 9, 1); (incl 20 29, 2)] /\
    imrun Z.compare Z.eqb zst (PFill m (ex 5 39) 1) = Ret [(incl 0 19, 1); (incl 20 29, 2); (incl 30 39, 1)] /\
    isrun Z.compare Z.eqb zst (QOr (keys m) s) = Ret [(ex 0 9, tt); (incl 20 29, tt)] /\
    isrun Z.compare Z.eqb zst (QFree m (ex 5 39)) = Ret [(incl 10 19, tt); (incl 30 39, tt)] /\
    im_get_key_value Z.compare [(ex 0 9, 1)] 9 = Ret None.
  Proof. vm_compute. repeat split. Qed.
  Example C97_any_closure_example :
    let q a b := Z.eqb (a / 10) (b / 10) in
    let m := PCall (PCall (PCall PNew (OInsert (incl 0 9) 12)) (OInsert (incl 10 19) 11)) (OInsert (mkRI 30 39 true) 12) in
    let g v := if Z.even v then 50 else v in
    PartialEquiv q /\ ~ mrespects q (PApply g m) /\ ~ srespects q (QWhere Z.even m) /\
    imrun Z.compare q zst m = Ret [(incl 0 19, 11); (mkRI 30 39 true, 12)] /\
    imrun Z.compare q zst (PApply g m) = Ret [(incl 0 19, 11); (mkRI 30 39 true, 50)] /\
    isrun Z.compare q zst (QWhere Z.even m) = Ret [(mkRI 30 39 true, tt)].
  Proof.
    cbn zeta. repeat match goal with |- _ /\ _ => split end; try (vm_compute; reflexivity).
    - split; intros *; rewrite ?Z.eqb_eq; congruence.
    - intros [H _]. discriminate (H 11 12 eq_refl).
    - intros [H _]. discriminate (H 11 12 eq_refl).
  Qed.
End Inclusive.

(** The laws of the step functions are needed: with functions that panic, the
    same kinds of program panic, in whichever call makes the step. *)
Theorem C97_lawless_steps_refuted : exists (st : stepfns Z) (m n : mprog (rangei Z) Z) (s t : sprog (rangei Z) Z),
  TotalOrd Z.compare /\ PartialEquiv Z.eqb /\
  mrespects Z.eqb m /\ mrespects Z.eqb n /\ srespects Z.eqb s /\ srespects Z.eqb t /\
  mfresh m = true /\ mfresh n = true /\ sfresh s = true /\ sfresh t = true /\
  (exists a b c d, imrun Z.compare Z.eqb st m = Ret a /\ imrun Z.compare Z.eqb st n = Ret b /\
    isrun Z.compare Z.eqb st s = Ret c /\ isrun Z.compare Z.eqb st t = Ret d) /\
  imrun Z.compare Z.eqb st (PExtend m n) = Panicked PStep /\
  imrun Z.compare Z.eqb st (PMinus m s) = Panicked PStep /\
  imrun Z.compare Z.eqb st (PFill m (incl 0 39) 1) = Panicked PStep /\
  isrun Z.compare Z.eqb st (QExtend s (keys n)) = Panicked PStep /\
  isrun Z.compare Z.eqb st (QOr s (keys n)) = Panicked PStep /\
  isrun Z.compare Z.eqb st (QMinus t s) = Panicked PStep /\
  isrun Z.compare Z.eqb st (QFree m (incl 0 39)) = Panicked PStep.
Proof.
  exists (mkStep (fun _ => None) (fun _ => None)), (PCall PNew (OInsert (incl 5 9) 1)), (PCall PNew (OInsert (incl 20 29) 2)),
    (QCall QNew (SInsert (incl 8 8))), (QCall QNew (SInsert (incl 0 21))).
  repeat split; try (vm_compute; reflexivity); try exact I; try apply Z_order; try apply Z_per.
  do 4 eexists. repeat split; vm_compute; reflexivity.
Qed.

Print Assumptions C96_map_programs.
Print Assumptions C96_set_programs.
Print Assumptions C96_map_equality.
Print Assumptions C96_set_equality.
Print Assumptions C96_gap_count.
Print Assumptions C96_extend.
Print Assumptions C96_minus.
Print Assumptions C96_partition.
Print Assumptions C96_fill.
Print Assumptions C96_values.
Print Assumptions C96_complement.
Print Assumptions C96_difference.
Print Assumptions C97_map_programs.
Print Assumptions C97_set_programs.
Print Assumptions C97_map_equality.
Print Assumptions C97_set_equality.
Print Assumptions C97_map_programs_any.
Print Assumptions C97_set_programs_any.
Print Assumptions C97_map_cmp.
Print Assumptions C97_set_cmp.
Print Assumptions C97_gap_count.
Print Assumptions C97_extend.
Print Assumptions C97_minus.
Print Assumptions C97_partition.
Print Assumptions C97_fill.
Print Assumptions C97_values.
Print Assumptions C97_complement.
Print Assumptions C97_difference.
Print Assumptions C97_lawless_steps_refuted.
Print Assumptions C96_map_programs_any_closure.
Print Assumptions C96_set_programs_any_closure.
Print Assumptions C96_apply_any_closure.
Print Assumptions C96_where_any_closure.
Print Assumptions C97_map_programs_any_closure.
Print Assumptions C97_set_programs_any_closure.
Print Assumptions C97_apply_any_closure.
Print Assumptions C97_where_any_closure.
