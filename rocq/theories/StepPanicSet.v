(** Sets and set programs over step functions that sometimes panic. *)
From Coq Require Import List Bool Sorting.Sorted.
From Verif Require Import Order Outcome BTree Ranges History Spec SpecStep MapModel IMapModel OpsModel SetModel ISetModel CrashModel
  ListLemmas IMapProps SetFacts ISetProps Exhausted ExhaustedSet CrashFacts CrashAny CrashSetModel CrashSet CrashProps ISetAny StepPanic.
Import ListNotations.

Section PanickingSets.
  Context {K : Type} {cmp : K -> K -> comparison} {st pst : stepfns K}.
  Context (HP : panics_more st pst).
  Notation Ha := (fun x => proj1 (HP x)).
  Notation Hb := (fun x => proj2 (HP x)).
  Notation run := (is_run cmp st).
  Notation prun := (is_run cmp pst).
  Notation eval := (is_eval cmp st).
  Notation peval := (is_eval cmp pst).
  Notation ranges s := (map fst (is_iter s)).

  Lemma sps_call o s : is_exec cmp pst o s = is_exec cmp st o s \/
    exists s', is_exec cmp pst o s = (Panicked PStep, s') /\ In s' (crash_states (isx_exec cmp st o) s).
  Proof. rewrite isx_exec_to, !iexec_to_op. exact (sp_call Ha Hb (to_op o) s). Qed.
  Lemma sps_from_iter l : is_from_iter cmp pst l = is_from_iter cmp st l \/ is_from_iter cmp pst l = Panicked PStep.
  Proof.
    unfold is_from_iter. destruct (sps_call (SExtend l) is_new) as [H | (s' & H & _)]; cbn [is_exec] in H; rewrite H; auto.
  Qed.
  Lemma sps_bitor a b : is_bitor cmp pst a b = is_bitor cmp st a b \/ is_bitor cmp pst a b = Panicked PStep.
  Proof. unfold is_bitor. destruct (fst (drain _ _ _)) as [l|p|]; cbn; auto. apply sps_from_iter. Qed.
  Lemma sps_bitand a b : is_bitand cmp pst a b = is_bitand cmp st a b \/ is_bitand cmp pst a b = Panicked PStep.
  Proof. unfold is_bitand. destruct (fst (drain _ _ _)) as [l|p|]; cbn; auto. apply sps_from_iter. Qed.
  Lemma sps_quiet ops :
    (forall l1 o l2, ops = l1 ++ o :: l2 -> fst (is_exec cmp pst o (prun l1)) <> Panicked PStep) -> prun ops = run ops.
  Proof.
    intros H. rewrite !irun_to_ops. apply (sp_quiet Ha Hb). intros l1 o l2 E.
    apply map_eq_app in E as (a & b & -> & <- & E). destruct b as [|o' b]; [discriminate E|]. injection E as <- <-.
    fold (to_ops a). rewrite <- irun_to_ops, <- iexec_to_op. exact (H a o' b eq_refl).
  Qed.
  Lemma sps_eval_quiet x :
    (forall y o s, In (y, o) (sexp_calls x) -> peval y = Ret s -> fst (is_exec cmp pst o s) <> Panicked PStep) ->
    peval x = eval x \/ peval x = Panicked PStep.
  Proof.
    induction x as [|x IH o|x IHx y IHy|x IHx y IHy]; intros H; cbn [is_eval].
    - left. reflexivity.
    - cbn [sexp_calls] in H. destruct IH as [E|E].
      + intros y o' s Hin. apply H. apply in_or_app. left. exact Hin.
      + left. destruct (peval x) as [s|p|] eqn:E'; rewrite <- E; [|reflexivity|reflexivity]. cbn. f_equal.
        destruct (sps_call o s) as [-> | (s' & X & _)]; [reflexivity|exfalso].
        apply (H x o s); [apply in_or_app; right; left; reflexivity|exact E'|]. rewrite X. reflexivity.
      + right. rewrite E. reflexivity.
    - cbn [sexp_calls] in H. destruct IHx as [E|E]; [intros z o s Hin; apply H, in_or_app; auto| |right; rewrite E; reflexivity].
      rewrite E. destruct (eval x) as [a|p|]; cbn; auto.
      destruct IHy as [F|F]; [intros z o s Hin; apply H, in_or_app; auto| |right; rewrite F; reflexivity].
      rewrite F. destruct (eval y) as [b|p|]; cbn; auto. apply sps_bitor.
    - cbn [sexp_calls] in H. destruct IHx as [E|E]; [intros z o s Hin; apply H, in_or_app; auto| |right; rewrite E; reflexivity].
      rewrite E. destruct (eval x) as [a|p|]; cbn; auto.
      destruct IHy as [F|F]; [intros z o s Hin; apply H, in_or_app; auto| |right; rewrite F; reflexivity].
      rewrite F. destruct (eval y) as [b|p|]; cbn; auto. apply sps_bitand.
  Qed.

  Context (HO : TotalOrd cmp) (HS : StepLaws cmp st).
  Lemma sps_step ops o : exists ops', snd (is_exec cmp pst o (run ops)) = run ops'.
  Proof.
    destruct (sps_call o (run ops)) as [-> | (s' & -> & Hin)].
    - exists (ops ++ [o]). symmetry. apply isrun_snoc.
    - exact (iscrash_reachable HO HS ops o s' Hin).
  Qed.
  Lemma sps_reachable ops : exists ops', prun ops = run ops'.
  Proof.
    induction ops as [|o ops (ops' & IH)] using rev_ind; [exists []; reflexivity|].
    rewrite isrun_snoc, IH. apply sps_step.
  Qed.
  Lemma sps_outcome ops o :
    fst (is_exec cmp pst o (prun ops)) = Ret tt \/ fst (is_exec cmp pst o (prun ops)) = Panicked PAssert \/
    fst (is_exec cmp pst o (prun ops)) = Panicked PStep.
  Proof. rewrite iexec_to_op, irun_to_ops. exact (sp_outcome Ha Hb HO HS unit_per (to_ops ops) (to_op o)). Qed.
  Lemma sps_eval x : peval x = Panicked PStep \/ exists ops, peval x = Ret (run ops).
  Proof.
    induction x as [|x IH o|x IHx y IHy|x IHx y IHy]; cbn [is_eval].
    - right. exists []. reflexivity.
    - destruct IH as [->|(ops & ->)]; [left; reflexivity|right]. cbn. destruct (sps_step ops o) as (ops' & ->). exists ops'. reflexivity.
    - destruct IHx as [->|(a & ->)]; [left; reflexivity|]. destruct IHy as [->|(b & ->)]; [left; reflexivity|]. cbn.
      destruct (sps_bitor (run a) (run b)) as [->| ->]; [right|left; reflexivity].
      destruct (xs_bitor HO HS a b) as (c & -> & _). exists c. reflexivity.
    - destruct IHx as [->|(a & ->)]; [left; reflexivity|]. destruct IHy as [->|(b & ->)]; [left; reflexivity|]. cbn.
      destruct (sps_bitand (run a) (run b)) as [->| ->]; [right|left; reflexivity].
      destruct (xs_bitand HO HS a b) as (c & -> & _). exists c. reflexivity.
  Qed.
  (** *** Without removals nothing is gained *)
  Notation mem := (mem_run (valid_rangei cmp) (in_rangei cmp)).
  Notation memo := (mem_op (valid_rangei cmp) (in_rangei cmp)).
  Notation addl := (add_all (valid_rangei cmp) (in_rangei cmp)).
  Notation below f g := (forall k : K, f k = true -> g k = true).
  Lemma addl_grows l : forall f, below f (addl l f).
  Proof.
    induction l as [|r l IH]; intros f k H; cbn; [exact H|]. destruct (valid_rangei cmp r); [|exact H].
    apply IH. rewrite H. apply orb_true_r.
  Qed.
  Lemma addl_mono l : forall f g, below f g -> below (addl l f) (addl l g).
  Proof.
    induction l as [|r l IH]; intros f g H; cbn; [exact H|]. destruct (valid_rangei cmp r); [|exact H].
    apply IH. intros k Hk. apply orb_prop in Hk as [Hk|Hk]; [rewrite Hk; reflexivity|]. rewrite (H k Hk). apply orb_true_r.
  Qed.
  Lemma run_below a b : (forall q k, In q (ranges (run a)) -> in_rangei cmp q k = true -> mem b k = true) -> below (mem a) (mem b).
  Proof. intros H k Hk. apply (runs_covered HO HS) in Hk as (q & Hq & Hk). exact (H q k Hq Hk). Qed.
  Lemma insert_below ops r : exists ops', snd (is_insert cmp pst r (run ops)) = run ops' /\
    below (mem ops') (memo (mem ops) (SInsert r)) /\
    (fst (is_insert cmp pst r (run ops)) = Ret tt -> ops' = ops ++ [SInsert r]).
  Proof.
    destruct (sps_call (SInsert r) (run ops)) as [H | (s' & H & Hin)]; cbn [is_exec] in H; rewrite H.
    - pose proof (anys_insert HO HS ops r) as G. destruct (valid_rangei cmp r) eqn:E; rewrite G.
      + exists (ops ++ [SInsert r]). split; [reflexivity|]. split; [|reflexivity]. intros k. rewrite mem_snoc. auto.
      + exists ops. split; [reflexivity|]. split; [|discriminate]. intros k Hk. cbn. rewrite E. exact Hk.
    - destruct (iscrash_reachable HO HS ops _ s' Hin) as (ops' & E). exists ops'. split; [exact E|].
      split; [|discriminate]. subst s'.
      destruct (proj1 (isinsert_interrupted HO HS ops r _ Hin)) as [G|G].
      + assert (B : below (mem ops') (mem (ops ++ [SInsert r]))).
        { apply run_below. rewrite G. intros q k Hq Hk. apply (runs_covered HO HS). exists q. auto. }
        rewrite mem_snoc in B. exact B.
      + intros k Hk. apply (run_below _ _ G) in Hk. cbn. destruct (valid_rangei cmp r); [|exact Hk]. rewrite Hk. apply orb_true_r.
  Qed.
  Lemma extend_below l : forall ops, exists ops', snd (is_extend cmp pst l (run ops)) = run ops' /\
    below (mem ops') (addl l (mem ops)).
  Proof.
    unfold is_extend. induction l as [|r l IH]; intros ops; cbn [for_each].
    - exists ops. split; [reflexivity|]. cbn. auto.
    - unfold bind. destruct (insert_below ops r) as (ops' & E & B & F).
      assert (G : below (memo (mem ops) (SInsert r)) (addl (r :: l) (mem ops))).
      { cbn. intros k Hk. destruct (valid_rangei cmp r); [|exact Hk]. apply addl_grows. exact Hk. }
      destruct (is_insert cmp pst r (run ops)) as [[[]|p|] s'] eqn:X; cbn [fst snd] in *.
      + rewrite (F eq_refl) in E. rewrite E. destruct (IH (ops ++ [SInsert r])) as (ops2 & E2 & B2). exists ops2. split; [exact E2|].
        intros k Hk. apply B2 in Hk. rewrite mem_snoc in Hk. cbn [mem_op] in Hk. cbn [add_all].
        destruct (valid_rangei cmp r) eqn:V; [exact Hk|].
        pose proof (anys_insert HO HS ops r) as Y. rewrite V in Y.
        destruct (sps_call (SInsert r) (run ops)) as [Z | (z & Z & _)]; cbn [is_exec] in Z; rewrite X in Z; [rewrite Y in Z|]; discriminate Z.
      + exists ops'. split; [exact E|]. intros k Hk. apply G, B, Hk.
      + exists ops'. split; [exact E|]. intros k Hk. apply G, B, Hk.
  Qed.
  Lemma sps_eval_below x : (forall y o, In (y, o) (sexp_calls x) -> forall r, o <> SRemove r) ->
    forall s, peval x = Ret s -> exists ops, s = run ops /\ below (mem ops) (mem_sexp (valid_rangei cmp) (in_rangei cmp) x).
  Proof.
    induction x as [|x IH o|x IHx y IHy|x IHx y IHy]; intros H s; cbn [is_eval mem_sexp]; cbn [sexp_calls] in H.
    - intros E. injection E as <-. exists []. split; [reflexivity|]. cbn. auto.
    - destruct (peval x) as [a|p|]; cbn; try discriminate. intros E. injection E as <-.
      destruct (IH (fun y o' Hin => H y o' (in_or_app _ _ _ (or_introl Hin))) a eq_refl) as (ops & -> & B).
      destruct o as [r|r| |l]; cbn [is_exec].
      + destruct (insert_below ops r) as (ops' & E & B' & _). exists ops'. split; [exact E|]. intros k Hk. apply B' in Hk.
        cbn in *. destruct (valid_rangei cmp r); [|exact (B k Hk)]. apply orb_prop in Hk as [Hk|Hk]; [rewrite Hk; reflexivity|].
        rewrite (B k Hk). apply orb_true_r.
      + exfalso. apply (H x (SRemove r)) with (r := r); [apply in_or_app; right; left; reflexivity|reflexivity].
      + exists []. split; [reflexivity|]. cbn. discriminate.
      + destruct (extend_below l ops) as (ops' & E & B'). exists ops'. split; [exact E|]. intros k Hk.
        apply (addl_mono l _ _ B), B', Hk.
    - destruct (peval x) as [a|p|]; cbn; try discriminate. destruct (peval y) as [b|p|]; cbn; try discriminate. intros E.
      destruct (IHx (fun y o' Hin => H y o' (in_or_app _ _ _ (or_introl Hin))) a eq_refl) as (u & -> & B).
      destruct (IHy (fun y o' Hin => H y o' (in_or_app _ _ _ (or_intror Hin))) b eq_refl) as (v & -> & C).
      destruct (sps_bitor (run u) (run v)) as [F|F]; rewrite E in F; [|discriminate F].
      destruct (xs_bitor HO HS u v) as (c & G & Hc). rewrite G in F. injection F as ->. exists c. split; [reflexivity|].
      intros k Hk. rewrite Hc in Hk. apply orb_prop in Hk as [Hk|Hk]; [rewrite (B k Hk); reflexivity|]. rewrite (C k Hk). apply orb_true_r.
    - destruct (peval x) as [a|p|]; cbn; try discriminate. destruct (peval y) as [b|p|]; cbn; try discriminate. intros E.
      destruct (IHx (fun y o' Hin => H y o' (in_or_app _ _ _ (or_introl Hin))) a eq_refl) as (u & -> & B).
      destruct (IHy (fun y o' Hin => H y o' (in_or_app _ _ _ (or_intror Hin))) b eq_refl) as (v & -> & C).
      destruct (sps_bitand (run u) (run v)) as [F|F]; rewrite E in F; [|discriminate F].
      destruct (xs_bitand HO HS u v) as (c & G & Hc). rewrite G in F. injection F as ->. exists c. split; [reflexivity|].
      intros k Hk. rewrite Hc in Hk. apply andb_prop in Hk as [Hk1 Hk2]. rewrite (B k Hk1), (C k Hk2). reflexivity.
  Qed.
  Lemma in_unit (s : iset K) q : In q (ranges s) <-> In (q, tt) s.
  Proof.
    split; [|intros H; exact (in_map fst _ _ H)]. intros H. apply in_map_iff in H as ([q' []] & <- & H). exact H.
  Qed.
  Lemma sps_insert ops r :
    if valid_rangei cmp r
    then (is_insert cmp pst r (prun ops) = is_insert cmp st r (prun ops) /\ fst (is_insert cmp pst r (prun ops)) = Ret tt) \/
         (exists x, is_insert cmp pst r (prun ops) = (Panicked PStep, x) /\
            (forall q k, In q (ranges x) -> in_rangei cmp q k = true ->
               exists q', In q' (ranges (prun ops)) /\ in_rangei cmp q' k = true) /\
            (forall q, In q (ranges (prun ops)) ->
               (exists k, ltb cmp (ri_end q) k = true /\ ltb cmp k (ri_start r) = true) \/
               (exists k, ltb cmp (ri_end r) k = true /\ ltb cmp k (ri_start q) = true) -> In q (ranges x)))
    else is_insert cmp pst r (prun ops) = (Panicked PAssert, prun ops).
  Proof.
    pose proof (sp_insert Ha Hb HO HS unit_per (to_ops ops) r tt) as H. rewrite <- irun_to_ops in H.
    unfold is_insert. destruct (valid_rangei cmp r); [|exact H]. destruct H as [H|(x & H1 & H2 & H3)]; [left; exact H|right].
    exists x. split; [exact H1|]. split.
    - intros q k Hq Hk. apply in_unit in Hq. destruct (H2 _ k Hq Hk) as (e & He & Hk' & _).
      exists (fst e). split; [apply in_map, He|exact Hk'].
    - intros q Hq Hd. apply in_unit. apply in_unit in Hq. apply (H3 _ Hq). unfold apart. cbn [fst snd].
      destruct Hd as [(k & K1 & K2)|(k & K1 & K2)]; [left|right].
      all: split; [ord|right; exists k; auto].
  Qed.
  Lemma sps_remove ops r :
    if valid_rangei cmp r
    then (is_remove cmp pst r (prun ops) = is_remove cmp st r (prun ops) /\ fst (is_remove cmp pst r (prun ops)) = Ret tt) \/
         (exists x, is_remove cmp pst r (prun ops) = (Panicked PStep, x) /\
            (forall q k, In q (ranges x) -> in_rangei cmp q k = true ->
               exists q', In q' (ranges (prun ops)) /\ in_rangei cmp q' k = true) /\
            (forall q, In q (ranges (prun ops)) ->
               ltb cmp (ri_end q) (ri_start r) = true \/ ltb cmp (ri_end r) (ri_start q) = true -> In q (ranges x)))
    else is_remove cmp pst r (prun ops) = (Panicked PAssert, prun ops).
  Proof.
    pose proof (sp_remove Ha Hb HO HS unit_per (to_ops ops) r) as H. rewrite <- irun_to_ops in H.
    unfold is_remove. destruct (valid_rangei cmp r); [|exact H]. destruct H as [H|(x & H1 & H2 & H3)]; [left; exact H|right].
    exists x. split; [exact H1|]. split.
    - intros q k Hq Hk. apply in_unit in Hq. destruct (H2 _ k Hq Hk) as (e & He & Hk' & _).
      exists (fst e). split; [apply in_map, He|exact Hk'].
    - intros q Hq Hd. apply in_unit. apply in_unit in Hq. exact (H3 _ Hq Hd).
  Qed.
End PanickingSets.
