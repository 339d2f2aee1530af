(** The facts behind the theorems of P_ISet.v about sets into which ranges that
    were iterated to exhaustion may have been inserted. *)
From Coq Require Import List Bool Sorting.Sorted Lia.
From Verif Require Import Order Outcome BTree Ranges History Spec MapModel IMapModel OpsModel SetModel ISetModel
  ListLemmas IterFacts OpsProofs SetFacts ISim Cuts IFacts IMapProps ISetProps Exhausted ExhaustedAny ExhaustedSet Tiling.
Import ListNotations.

Section Any.
  Context {K : Type} {cmp : K -> K -> comparison} {st : stepfns K}.
  Context (HO : TotalOrd cmp) (HS : StepLaws cmp st).
  Notation run := (is_run cmp st).
  Notation valid := (valid_rangei cmp).
  Notation covers := (in_rangei cmp).
  Notation mem := (mem_run valid covers).
  Notation memx := (mem_sexp valid covers).
  Notation ranges s := (map fst (is_iter s)).
  Notation covered s k := (exists q, In q (ranges s) /\ covers q k = true).

  Lemma runs_covered ops k : covered (run ops) k <-> mem ops k = true.
  Proof. apply (xs_runs' HO HS ops). Qed.
  Lemma to_ops_snoc ops o : to_ops (R := rangei K) (ops ++ [o]) = to_ops ops ++ [to_op o].
  Proof. unfold to_ops. rewrite map_app. reflexivity. Qed.
  Lemma anys_insert ops r :
    if valid r
    then is_insert cmp st r (run ops) = (Ret tt, run (ops ++ [SInsert r]))
    else is_insert cmp st r (run ops) = (Panicked PAssert, run ops).
  Proof.
    pose proof (ExhaustedAny.any_insert HO HS unit_per (to_ops ops) r tt) as H. unfold is_insert.
    rewrite !irun_to_ops, to_ops_snoc. exact H.
  Qed.
  Lemma anys_remove ops r :
    if valid r
    then is_remove cmp st r (run ops) = (Ret tt, run (ops ++ [SRemove r]))
    else is_remove cmp st r (run ops) = (Panicked PAssert, run ops).
  Proof.
    pose proof (ExhaustedAny.any_remove HO HS unit_per (to_ops ops) r) as H. unfold is_remove.
    rewrite !irun_to_ops, to_ops_snoc. exact H.
  Qed.
  Lemma anys_insert_outcome ops r :
    if valid r
    then exists s', is_insert cmp st r (run ops) = (Ret tt, s') /\
           (forall k, covered s' k <-> covers r k || mem ops k = true) /\
           (fresh_sops ops -> ri_exhausted r = false -> forall k, is_contains cmp s' k = Ret (covers r k || mem ops k))
    else is_insert cmp st r (run ops) = (Panicked PAssert, run ops).
  Proof.
    pose proof (anys_insert ops r) as H. destruct (valid r) eqn:E; [|exact H].
    eexists. refine (conj H (conj _ _)).
    - intros k. rewrite runs_covered, mem_snoc. cbn. rewrite E. reflexivity.
    - intros Hf Hr k. rewrite (isrun_contains HO HS), mem_snoc; [cbn; rewrite E; reflexivity|].
      apply fresh_snoc; [exact Hf|]. cbn. rewrite Hr. reflexivity.
  Qed.
  Lemma anys_remove_outcome ops r :
    if valid r
    then exists s', is_remove cmp st r (run ops) = (Ret tt, s') /\
           (forall k, covered s' k <-> negb (covers r k) && mem ops k = true) /\
           (fresh_sops ops -> forall k, is_contains cmp s' k = Ret (negb (covers r k) && mem ops k))
    else is_remove cmp st r (run ops) = (Panicked PAssert, run ops).
  Proof.
    pose proof (anys_remove ops r) as H. destruct (valid r) eqn:E; [|exact H].
    eexists. refine (conj H (conj _ _)).
    - intros k. rewrite runs_covered, mem_snoc. cbn. rewrite E. reflexivity.
    - intros Hf k. rewrite (isrun_contains HO HS), mem_snoc; [cbn; rewrite E; reflexivity|].
      apply fresh_snoc; [exact Hf|reflexivity].
  Qed.
  Lemma anys_maximal ops r r' : In r (ranges (run ops)) ->
    leb cmp (ri_start r') (ri_start r) = true -> leb cmp (ri_end r) (ri_end r') = true ->
    (forall k', covers r' k' = true -> mem ops k' = true) ->
    eqb cmp (ri_start r') (ri_start r) = true /\ eqb cmp (ri_end r') (ri_end r) = true.
  Proof.
    intros Hr H1 H2 H3. pose proof (xs_runs HO HS ops) as (R1 & _ & _).
    assert (Hv : valid r = true) by (apply (xs_runs' HO HS ops), Hr).
    assert (G : is_get cmp (run (map freshen_sop ops)) (ri_start r) = Ret (Some (freshen r))).
    { apply (isget_iff HO HS); [apply sfreshen_fresh|]. rewrite xs_run, franges. split; [apply in_map, Hr|].
      unfold valid_rangei, in_rangei in *. cbn. ord. }
    apply (isget_maximal HO HS _ _ (freshen r) (freshen r') (sfreshen_fresh ops) G H1 H2).
    rewrite xs_mem. exact H3.
  Qed.
  Lemma anys_get_maximal ops k r r' :
    is_get cmp (run ops) k = Ret (Some r) ->
    leb cmp (ri_start r') (ri_start r) = true -> leb cmp (ri_end r) (ri_end r') = true ->
    (forall k', covers r' k' = true -> mem ops k' = true) ->
    eqb cmp (ri_start r') (ri_start r) = true /\ eqb cmp (ri_end r') (ri_end r) = true.
  Proof. intros H. apply anys_maximal. apply (xs_get_iff HO HS) in H. apply H. Qed.
  Lemma anys_cmp : TotalOrd (is_cmp cmp) /\
    forall a b, is_cmp cmp (run a) (run b) = Eq <-> forall k, mem a k = mem b k.
  Proof. exact (conj (proj1 (iscmp_spec HO HS)) (xs_cmp HO HS)). Qed.
  Lemma eqb_freshen : forall a b : iset K, is_eqb cmp a b = true ->
    is_eqb cmp (map freshen_entry a) (map freshen_entry b) = true.
  Proof.
    unfold is_eqb, im_eqb, im_iter. induction a as [|x a IH]; intros [|y b] H; cbn [list_eqb map] in *; try exact H.
    apply andb_prop in H as [H1 H2]. rewrite (IH b H2), andb_true_r. apply andb_prop in H1 as [H1 _].
    unfold ri_eqb in *. cbn. apply andb_prop in H1 as [H1 _]. rewrite H1. reflexivity.
  Qed.
  Lemma anys_eq a b : (is_eqb cmp (run a) (run b) = true -> forall k, mem a k = mem b k) /\
    (fresh_sops a -> fresh_sops b -> (forall k, mem a k = mem b k) -> is_eqb cmp (run a) (run b) = true).
  Proof.
    split.
    - intros H. apply eqb_freshen in H. rewrite <- !xs_run, (iseqb_spec HO HS) in H by apply sfreshen_fresh.
      rewrite !xs_mem in H. exact H.
    - intros Ha Hb. apply (iseqb_spec HO HS a b Ha Hb).
  Qed.
  Lemma anys_bitor a b : exists ops, (fresh_sops a -> fresh_sops b -> fresh_sops ops) /\
    is_bitor cmp st (run a) (run b) = Ret (run ops) /\ forall k, mem ops k = mem a k || mem b k.
  Proof.
    destruct (forallb fresh_sop a && forallb fresh_sop b) eqn:E.
    - apply andb_prop in E as [Ha Hb]. destruct (isbitor HO HS a b Ha Hb) as (c & C1 & C2). exists c. auto.
    - destruct (xs_bitor HO HS a b) as (c & C). exists c. split; [|exact C]. intros Ha Hb. unfold fresh_sops in *.
      rewrite Ha, Hb in E. discriminate.
  Qed.
  Lemma anys_bitand a b : exists ops, (fresh_sops a -> fresh_sops b -> fresh_sops ops) /\
    is_bitand cmp st (run a) (run b) = Ret (run ops) /\ forall k, mem ops k = mem a k && mem b k.
  Proof.
    destruct (forallb fresh_sop a && forallb fresh_sop b) eqn:E.
    - apply andb_prop in E as [Ha Hb]. destruct (isbitand HO HS a b Ha Hb) as (c & C1 & C2). exists c. auto.
    - destruct (xs_bitand HO HS a b) as (c & C). exists c. split; [|exact C]. intros Ha Hb. unfold fresh_sops in *.
      rewrite Ha, Hb in E. discriminate.
  Qed.
  Lemma anys_eval x : exists ops, (fresh_sexp x = true -> fresh_sops ops) /\
    is_eval cmp st x = Ret (run ops) /\ forall k, mem ops k = memx x k.
  Proof.
    destruct (fresh_sexp x) eqn:E.
    - destruct (iseval HO HS x E) as (c & C1 & C2). exists c. auto.
    - destruct (xs_eval HO HS x) as (c & C). exists c. split; [discriminate|exact C].
  Qed.
  Lemma anys_overlaps ops q : valid q = true ->
    exists b, is_overlaps cmp (run ops) q = Ret b /\
      (b = true <-> exists k, covers q k = true /\ mem ops k = true).
  Proof.
    intros Hq. destruct (isoverlaps_exact HO HS _ (freshen q) (sfreshen_fresh ops) Hq) as (b & B1 & B2).
    exists b. rewrite xs_mem in B2. split; [|exact B2]. rewrite (xs_overlaps HO HS).
    rewrite (xs_overlaps HO HS), xs_run, franges in B1. rewrite <- B1. f_equal.
    generalize (ranges (run ops)). induction l as [|r l IH]; [reflexivity|]. cbn. rewrite IH. reflexivity.
  Qed.
  Lemma anys_gaps_collect ops outer : exists g gs c,
    is_gaps cmp (run ops) outer = Ret g /\ (forall n, nexts_m (is_gaps_next cmp st) n g = map Ret (yields n gs)) /\
    is_from_iter cmp st gs = Ret c /\
    forall k, is_contains cmp c k = Ret (covers outer k && negb (mem ops k)).
  Proof.
    destruct (xs_gaps HO HS ops outer) as (g & gs & H1 & H2 & H3 & H4 & H5).
    destruct (imem_all_valid gs H3) as [G1 G2].
    exists g, gs, (run (map SInsert gs)). splits; auto.
    - apply (xs_from_iter HO HS). intros r Hr. apply (H3 r Hr).
    - intros k. rewrite (isrun_contains HO HS), G2 by exact G1. f_equal.
      apply (existsb_cov covers gs (fun k => covers outer k && negb (mem ops k))). apply H5.
  Qed.
  Lemma anys_first_last ops :
    match is_first (run ops), is_last (run ops) with
    | None, None => forall k, mem ops k = false
    | Some a, Some b =>
        In a (ranges (run ops)) /\ In b (ranges (run ops)) /\
        (forall r, In r (ranges (run ops)) ->
           (r = a \/ ltb cmp (ri_end a) (ri_start r) = true) /\
           (r = b \/ ltb cmp (ri_end r) (ri_start b) = true))
    | _, _ => False
    end.
  Proof.
    pose proof (xs_runs' HO HS ops) as (H1 & H2 & H3).
    pose proof (ExhaustedAny.any_first_last HO HS unit_per (to_ops ops)) as H. rewrite <- irun_to_ops in H.
    unfold is_first, is_last.
    destruct (im_first_range_value (run ops)) as [[a []]|]; destruct (im_last_range_value (run ops)) as [[b []]|];
      cbn [option_map fst]; try contradiction.
    - destruct H as (F1 & L1 & H & _).
      assert (F1' := in_map fst _ _ F1). assert (L1' := in_map fst _ _ L1). cbn in F1', L1'.
      splits; auto. intros r Hr. apply in_map_iff in Hr as ([r' []] & <- & Hin).
      cbn [fst] in *. destruct (H _ Hin) as [A B]. cbn [fst] in *. split.
      + destruct A as [A|A]; [injection A; auto|auto].
      + destruct B as [B|B]; [injection B; auto|auto].
    - intros k. destruct (mem ops k) eqn:E; [|reflexivity]. apply H3 in E as (r & R & _).
      unfold im_is_empty in H. destruct (run ops); [destruct R|discriminate H].
  Qed.
  Lemma anys_len_empty ops :
    is_len (run ops) = length (ranges (run ops)) /\
    (is_is_empty (run ops) = true <-> forall k, mem ops k = false) /\
    run (ops ++ [SClear]) = is_new.
  Proof.
    split; [rewrite map_length; reflexivity|]. split; [|rewrite isrun_snoc; reflexivity].
    pose proof (proj1 (proj2 (islen_empty HO HS _ (sfreshen_fresh ops)))) as H. rewrite xs_mem, xs_run in H. rewrite <- H.
    unfold is_is_empty, im_is_empty. destruct (run ops); reflexivity.
  Qed.
  Lemma anys_extend good : forall ops bad,
    (forall r, In r good -> valid r = true) ->
    match bad with [] => True | r :: _ => valid r = false end ->
    is_extend cmp st (good ++ bad) (run ops) =
      (match bad with [] => Ret tt | _ => Panicked PAssert end, run (ops ++ map SInsert good)).
  Proof.
    unfold is_extend. induction good as [|r good IH]; intros ops bad Hg Hb.
    - cbn [app map]. rewrite app_nil_r. destruct bad as [|r bad]; [reflexivity|]. cbn [for_each].
      pose proof (anys_insert ops r) as H. rewrite Hb in H. unfold bind. rewrite H. reflexivity.
    - cbn [app for_each map]. pose proof (anys_insert ops r) as H.
      rewrite (Hg r (or_introl eq_refl)) in H. unfold bind. rewrite H.
      rewrite IH; [|intros e He; apply Hg; right; exact He|exact Hb]. rewrite <- app_assoc. reflexivity.
  Qed.
  Lemma anys_from_iter good bad :
    (forall r, In r good -> valid r = true) ->
    match bad with [] => True | r :: _ => valid r = false end ->
    is_from_iter cmp st (good ++ bad) =
      match bad with [] => Ret (run (map SInsert good)) | _ => Panicked PAssert end.
  Proof.
    intros H1 H2. unfold is_from_iter. change (@is_new K) with (run []). rewrite (anys_extend good [] bad H1 H2).
    destruct bad; reflexivity.
  Qed.
  Lemma anys_round_trip (E : Type) ops :
    is_deserialize (E := E) cmp st (map inr (snd (is_serialize (run ops)))) = Ret (inr (map freshen_entry (run ops))) /\
    fst (is_serialize (run ops)) = Some (length (snd (is_serialize (run ops)))) /\
    (fresh_sops ops -> map freshen_entry (run ops) = run ops).
  Proof.
    refine (conj (xs_round_trip HO HS E ops) (conj _ _)); [cbn; rewrite map_length; reflexivity|].
    intros Hf. pose proof (xs_round_trip HO HS E ops) as H. rewrite (proj1 (isround_trip HO HS E ops Hf)) in H.
    injection H as H. symmetry. exact H.
  Qed.
  Lemma anys_hash_separates {T} (hk : K -> list T) (hb : bool -> list T) :
    (forall x y s t, hk x ++ s = hk y ++ t -> eqb cmp x y = true /\ hk x = hk y) ->
    (forall x y s t, hb x ++ s = hb y ++ t -> x = y) ->
    forall a b s t, is_hash hk hb (run a) ++ s = is_hash hk hb (run b) ++ t -> (forall k, mem a k = mem b k) /\ s = t.
  Proof.
    intros Hk Hb a b s t H.
    destruct (ihash_inj (cmp := cmp) (veqb := unit_eqb) hk hb (fun _ => []) _ _ Hk Hb (fun _ _ _ _ _ => conj eq_refl eq_refl) _ _ H) as [H1 H2].
    split.
    - apply anys_eq, H1.
    - unfold is_hash in H. rewrite H2 in H. apply app_inv_head in H. exact H.
  Qed.
End Any.
