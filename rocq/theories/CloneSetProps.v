(** CloneSetFacts.v for clones that are indistinguishable from their originals,
    and for clones that are identical to them. *)
From Coq Require Import List Bool Sorting.Sorted Lia.
From Verif Require Import Order Outcome BTree Ranges History Spec MapModel IMapModel OpsModel SetModel ISetModel
  CloneModel CloneSetModel ListLemmas IterFacts OpsProofs SetFacts SetProps ISetProps Exhausted ExhaustedSet CloneFacts CloneProps
  CloneSetFacts.
Import ListNotations.

(** an iterator that yields items related to those of [us] yields some list *)
Lemma nexts_like {S A} (R : A -> A -> Prop) (nx : M S (option A)) us : forall s,
  (forall n, Forall2 (orel (optrel R)) (map Ret (yields n us)) (nexts_m nx n s)) ->
  exists us', Forall2 R us us' /\ forall n, nexts_m nx n s = map Ret (yields n us').
Proof.
  induction us as [|a us IH]; intros s H.
  - exists []. split; [constructor|]. intros n. specialize (H n). rewrite yields_nil in *.
    revert H. generalize (nexts_m nx n s). induction n as [|n IHn]; intros l H; cbn in *; inversion H as [|x y t t' H1 H2]; subst.
    + reflexivity.
    + f_equal; [|apply IHn, H2]. inversion H1 as [? z Hz| |]; subst. destruct z; [contradiction Hz|reflexivity].
  - pose proof (H 1) as H1. rewrite yields_cons in H1. cbn [nexts_m] in H1.
    destruct (nx s) as [o s1] eqn:E. cbn [map] in H1. inversion H1 as [|x y t t' H2 _]; subst.
    inversion H2 as [? z Hz| |]; subst. destruct z as [z|]; [|contradiction Hz].
    destruct (IH s1) as (us' & A1 & A2).
    { intros n. specialize (H (Datatypes.S n)). rewrite yields_cons in H. cbn [nexts_m map] in H. rewrite E in H.
      inversion H; subst. assumption. }
    exists (z :: us'). split; [constructor; assumption|]. intros [|n]; [reflexivity|].
    cbn [nexts_m]. rewrite E, yields_cons, A2. reflexivity.
Qed.

Lemma f2_fst {A B} (R : A -> A -> Prop) (l l' : list (A * B)) :
  Forall2 (fun e e' => R (fst e) (fst e') /\ True) l l' -> Forall2 R (map fst l) (map fst l').
Proof. induction 1 as [|a b l l' [H _] _ IH]; constructor; assumption. Qed.
Lemma f2_in_r {A B} (R : A -> B -> Prop) l l' b : Forall2 R l l' -> In b l' -> exists a, In a l /\ R a b.
Proof.
  induction 1 as [|x y l l' H _ IH]; intros Hb; [contradiction Hb|]; destruct Hb as [<-|Hb].
  - exists x. split; [left; reflexivity|exact H].
  - destruct (IH Hb) as (a & H1 & H2). exists a. split; [right; exact H1|exact H2].
Qed.
Lemma f2_in_l {A B} (R : A -> B -> Prop) l l' a : Forall2 R l l' -> In a l -> exists b, In b l' /\ R a b.
Proof.
  induction 1 as [|x y l l' H _ IH]; intros Hb; [contradiction Hb|]; destruct Hb as [<-|Hb].
  - exists y. split; [left; reflexivity|exact H].
  - destruct (IH Hb) as (b & H1 & H2). exists b. split; [right; exact H1|exact H2].
Qed.
Lemma f2_sorted {A} (R S : A -> A -> Prop) l l' :
  (forall a b a' b', R a a' -> R b b' -> S a b -> S a' b') ->
  Forall2 R l l' -> StronglySorted S l -> StronglySorted S l'.
Proof.
  intros HS. induction 1 as [|a b l l' H Hl IH]; intros Hs; [constructor|].
  apply StronglySorted_inv in Hs as [Hs1 Hs2]. constructor; [apply IH, Hs1|].
  apply Forall_forall. intros x Hx. destruct (f2_in_r _ _ _ _ Hl Hx) as (y & Hy & Hyx).
  rewrite Forall_forall in Hs2. exact (HS _ _ _ _ H Hyx (Hs2 y Hy)).
Qed.

Section Half.
  Context {K : Type} {cmp : K -> K -> comparison} (HO : TotalOrd cmp).
  Context {kcl : nat -> K -> K} (CK : forall n k, alike_key cmp k (kcl n k)).
  Notation HK := (a_cmp HO).
  Notation CK' := (a_kcl HO CK).
  Notation mem := (mem_run (valid_range cmp) (in_range cmp)).
  Notation crun := (rsc_run kcl cmp).
  Notation like := (alike_range cmp).
  Notation ranges s := (map fst (rs_iter s)).

  Lemma like_covers r r' k : like r r' -> in_range cmp r k = in_range cmp r' k.
  Proof.
    intros [H1 H2]. unfold in_range, ltb.
    rewrite (HK k _ k _ (a_refl HO k) H1), (HK k _ k _ (a_refl HO k) H2). reflexivity.
  Qed.
  Lemma like_shape (P : comparison -> bool) f l l' : Forall2 like l l' ->
    ((forall r, In r l -> valid_range cmp r = true) /\
     StronglySorted (fun a b => P (cmp (r_end a) (r_start b)) = true) l /\
     (forall k, (exists r, In r l /\ in_range cmp r k = true) <-> f k = true)) ->
    (forall r, In r l' -> valid_range cmp r = true) /\
    StronglySorted (fun a b => P (cmp (r_end a) (r_start b)) = true) l' /\
    (forall k, (exists r, In r l' /\ in_range cmp r k = true) <-> f k = true).
  Proof.
    intros Hl (A & B & C). split; [|split].
    - intros r Hr. destruct (f2_in_r _ _ _ _ Hl Hr) as (x & Hx & [H1 H2]). specialize (A x Hx).
      unfold valid_range, ltb in *. rewrite (HK _ _ _ _ H1 H2). exact A.
    - eapply f2_sorted; [|exact Hl|exact B]. intros a b a' b' [_ H1] [H2 _] H. cbn.
      rewrite (HK _ _ _ _ H1 H2). exact H.
    - intros k. rewrite <- C. split; intros (r & Hr & Hk).
      + destruct (f2_in_r _ _ _ _ Hl Hr) as (x & Hx & H). exists x. split; [exact Hx|]. rewrite (like_covers _ _ _ H). exact Hk.
      + destruct (f2_in_l _ _ _ _ Hl Hr) as (x & Hx & H). exists x. split; [exact Hx|]. rewrite <- (like_covers _ _ _ H). exact Hk.
  Qed.
  Lemma like_runs f l l' : Forall2 like l l' -> runs_of cmp f l -> runs_of cmp f l'.
  Proof. exact (like_shape (fun c => match c with Lt => true | _ => false end) f l l'). Qed.
  Lemma like_pieces f l l' : Forall2 like l l' -> pieces_of cmp f l -> pieces_of cmp f l'.
  Proof. exact (like_shape (fun c => match c with Gt => false | _ => true end) f l l'). Qed.

  Lemma sops_refl {R} (RR : R -> R -> Prop) (Hr : forall r, RR r r) (ops : list (sop R)) :
    Forall2 (Rsop RR) ops ops.
  Proof. apply f2_refl. intros [r|r| |l]; cbn; auto. apply f2_refl. exact Hr. Qed.

  Lemma sclone_run ops ops' : Forall2 (Rsop like) ops ops' ->
    Forall2 like (ranges (rs_run cmp ops)) (ranges (snd (crun ops'))).
  Proof. intros H. apply f2_fst. exact (cs_run HK CK' ops ops' H). Qed.
  Lemma sclone_runs ops : runs_of cmp (mem ops) (ranges (snd (crun ops))).
  Proof.
    eapply like_runs; [apply sclone_run, sops_refl, (a_r_refl HO)|]. apply (srun_runs HO).
  Qed.
  Lemma sclone_outcome ops o : fst (rsc_exec kcl cmp o (crun ops)) = fst (rs_exec cmp o (rs_run cmp ops)).
  Proof.
    pose proof (cs_run HK CK' ops ops (sops_refl _ (a_r_refl HO) ops)) as Hs. destruct (crun ops) as [n0 s0].
    pose proof (sops_refl _ (a_r_refl HO) [o]) as Ho. inversion Ho as [|? ? ? ? H1 _]; subst.
    pose proof (cs_exec HK CK' o o H1 (rs_run cmp ops) n0 s0 Hs) as [H _]. exact (orel_unit _ _ H).
  Qed.
  Lemma sclone_contains ops k :
    fst (rsc_contains kcl cmp k (crun ops)) = Ret (mem ops k) /\
    snd (snd (rsc_contains kcl cmp k (crun ops))) = snd (crun ops).
  Proof.
    pose proof (cs_run HK CK' ops ops (sops_refl _ (a_r_refl HO) ops)) as Hs. destruct (crun ops) as [n0 s0].
    cbn [snd] in *. destruct (cs_contains HK CK' _ n0 _ k k Hs (a_refl HO k)) as [H1 H2].
    split; [|exact H2]. rewrite H1. apply (srun_contains HO).
  Qed.
  Lemma sclone_union a b c : exists us,
    pieces_of cmp (fun k => mem a k || mem b k) us /\
    forall n, nexts_m (rsc_union_next kcl cmp) n (c, rs_union (snd (crun a)) (snd (crun b))) = map Ret (yields n us).
  Proof.
    destruct (sunion HO a b) as (us & H1 & H2 & _).
    pose proof (cs_run HK CK' a a (sops_refl _ (a_r_refl HO) a)) as Ha.
    pose proof (cs_run HK CK' b b (sops_refl _ (a_r_refl HO) b)) as Hb.
    destruct (nexts_like like (rsc_union_next kcl cmp) us (c, rs_union (snd (crun a)) (snd (crun b)))) as (us' & E1 & E2).
    { intros n. rewrite <- H1. apply (c_nexts (RI := Forall2 (Re (RK := alike_key cmp) (RV := fun _ _ => True)))).
      - exact (cs_union_next HK CK').
      - apply cs_new; assumption. }
    exists us'. split; [|exact E2]. exact (like_pieces _ _ _ E1 H2).
  Qed.
  Lemma sclone_intersection a b c : exists us,
    runs_of cmp (fun k => mem a k && mem b k) us /\
    forall n, nexts_m (rsc_intersection_next kcl cmp) n (c, rs_intersection (snd (crun a)) (snd (crun b))) = map Ret (yields n us).
  Proof.
    destruct (sintersection HO a b) as (us & H1 & H2 & _).
    pose proof (cs_run HK CK' a a (sops_refl _ (a_r_refl HO) a)) as Ha.
    pose proof (cs_run HK CK' b b (sops_refl _ (a_r_refl HO) b)) as Hb.
    destruct (nexts_like like (rsc_intersection_next kcl cmp) us (c, rs_intersection (snd (crun a)) (snd (crun b)))) as (us' & E1 & E2).
    { intros n. rewrite <- H1. apply (c_nexts (RI := Forall2 (Re (RK := alike_key cmp) (RV := fun _ _ => True)))).
      - exact (cs_intersection_next HK CK').
      - apply cs_new; assumption. }
    exists us'. split; [|exact E2]. exact (like_runs _ _ _ E1 H2).
  Qed.
  Lemma sclone_eval x c : exists s,
    fst (rsc_eval kcl cmp x c) = Ret s /\
    runs_of cmp (mem_sexp (valid_range cmp) (in_range cmp) x) (ranges s) /\
    forall n k, fst (rsc_contains kcl cmp k (n, s)) = Ret (mem_sexp (valid_range cmp) (in_range cmp) x k).
  Proof.
    destruct (seval HO x) as (ops & E & Hm). destruct (cs_eval HK CK' (a_refl HO) x _ c E) as (s & E' & Hs).
    exists s. split; [exact E'|]. split.
    - apply f2_fst in Hs. eapply like_runs; [exact Hs|]. destruct (srun_runs HO ops) as (A & B & C).
      split; [exact A|]. split; [exact B|]. intros k. rewrite <- Hm. apply C.
    - intros n k. destruct (cs_contains HK CK' _ n _ k k Hs (a_refl HO k)) as [H1 _].
      rewrite H1, <- Hm. apply (srun_contains HO).
  Qed.
End Half.

Section Incl.
  Context {K : Type} {cmp : K -> K -> comparison} {st : stepfns K}.
  Context (HO : TotalOrd cmp) (HSt : StepLaws cmp st).
  Context {kcl : nat -> K -> K} (CK : forall n k, alike_key cmp k (kcl n k)).
  Notation HK := (a_cmp HO).
  Notation CK' := (a_kcl HO CK).
  Notation HA := (a_add HO HSt).
  Notation HD := (a_sub HO HSt).
  Notation mem := (mem_run (valid_rangei cmp) (in_rangei cmp)).
  Notation crun := (isc_run kcl cmp st).
  Notation like := (alike_rangei cmp).
  Notation ranges s := (map fst (is_iter s)).

  Lemma ilike_covers r r' k : like r r' -> in_rangei cmp r k = in_rangei cmp r' k.
  Proof.
    intros (H1 & H2 & _). unfold in_rangei, ltb.
    rewrite (HK k _ k _ (a_refl HO k) H1), (HK _ k _ k H2 (a_refl HO k)). reflexivity.
  Qed.
  Lemma ilike_shape (S : K -> K -> Prop) f l l' :
    (forall a b a' b', alike_key cmp a a' -> alike_key cmp b b' -> S a b -> S a' b') ->
    Forall2 like l l' ->
    ((forall r, In r l -> ri_exhausted r = false /\ valid_rangei cmp r = true) /\
     StronglySorted (fun a b => S (ri_end a) (ri_start b)) l /\
     (forall k, (exists r, In r l /\ in_rangei cmp r k = true) <-> f k = true)) ->
    (forall r, In r l' -> ri_exhausted r = false /\ valid_rangei cmp r = true) /\
    StronglySorted (fun a b => S (ri_end a) (ri_start b)) l' /\
    (forall k, (exists r, In r l' /\ in_rangei cmp r k = true) <-> f k = true).
  Proof.
    intros HP Hl (A & B & C). split; [|split].
    - intros r Hr. destruct (f2_in_r _ _ _ _ Hl Hr) as (x & Hx & (H1 & H2 & H3)). destruct (A x Hx) as [A1 A2].
      split; [congruence|]. unfold valid_rangei, ltb in *. rewrite (HK _ _ _ _ H2 H1). exact A2.
    - eapply f2_sorted; [|exact Hl|exact B]. intros a b a' b' (_ & H1 & _) (H2 & _) H. exact (HP _ _ _ _ H1 H2 H).
    - intros k. rewrite <- C. split; intros (r & Hr & Hk).
      + destruct (f2_in_r _ _ _ _ Hl Hr) as (x & Hx & H). exists x. split; [exact Hx|]. rewrite (ilike_covers _ _ _ H). exact Hk.
      + destruct (f2_in_l _ _ _ _ Hl Hr) as (x & Hx & H). exists x. split; [exact Hx|]. rewrite <- (ilike_covers _ _ _ H). exact Hk.
  Qed.
  Lemma ilike_runs f l l' : Forall2 like l l' -> runsi_of cmp f l -> runsi_of cmp f l'.
  Proof.
    apply (ilike_shape (fun a b => exists k, ltb cmp a k = true /\ ltb cmp k b = true)).
    intros a b a' b' H1 H2 (k & H3 & H4). exists k. unfold ltb in *.
    rewrite (HK _ k _ k H1 (a_refl HO k)), (HK k _ k _ (a_refl HO k) H2). auto.
  Qed.
  Lemma ilike_pieces f l l' : Forall2 like l l' -> piecesi_of cmp f l -> piecesi_of cmp f l'.
  Proof.
    apply (ilike_shape (fun a b => ltb cmp a b = true)).
    intros a b a' b' H1 H2 H. unfold ltb in *. rewrite (HK _ _ _ _ H1 H2). exact H.
  Qed.

  Lemma isclone_run ops ops' : Forall2 (Rsop like) ops ops' ->
    Forall2 like (ranges (is_run cmp st ops)) (ranges (snd (crun ops'))).
  Proof. intros H. apply f2_fst. exact (cis_run HK CK' HA HD ops ops' H). Qed.
  Lemma isclone_runs ops : fresh_sops ops -> runsi_of cmp (mem ops) (ranges (snd (crun ops))).
  Proof.
    intros Hf. eapply ilike_runs; [apply isclone_run, sops_refl, (a_ri_refl HO)|]. apply (isrun_runs HO HSt), Hf.
  Qed.
  Lemma isclone_outcome ops o : fst (isc_exec kcl cmp st o (crun ops)) = fst (is_exec cmp st o (is_run cmp st ops)).
  Proof.
    pose proof (cis_run HK CK' HA HD ops ops (sops_refl _ (a_ri_refl HO) ops)) as Hs. destruct (crun ops) as [n0 s0].
    pose proof (sops_refl _ (a_ri_refl HO) [o]) as Ho. inversion Ho as [|? ? ? ? H1 _]; subst.
    pose proof (cis_exec HK CK' HA HD o o H1 (is_run cmp st ops) n0 s0 Hs) as [H _]. exact (orel_unit _ _ H).
  Qed.
  Lemma isclone_contains ops k : fresh_sops ops ->
    fst (isc_contains kcl cmp k (crun ops)) = Ret (mem ops k) /\
    snd (snd (isc_contains kcl cmp k (crun ops))) = snd (crun ops).
  Proof.
    intros Hf.
    pose proof (cis_run HK CK' HA HD ops ops (sops_refl _ (a_ri_refl HO) ops)) as Hs. destruct (crun ops) as [n0 s0].
    cbn [snd] in *. destruct (cis_contains HK CK' _ n0 _ k k Hs (a_refl HO k)) as [H1 H2].
    split; [|exact H2]. rewrite H1. apply (isrun_contains HO HSt), Hf.
  Qed.
  Lemma isclone_union a b c : fresh_sops a -> fresh_sops b -> exists us,
    piecesi_of cmp (fun k => mem a k || mem b k) us /\
    forall n, nexts_m (isc_union_next kcl cmp) n (c, is_union (snd (crun a)) (snd (crun b))) = map Ret (yields n us).
  Proof.
    intros Hfa Hfb. destruct (isunion HO HSt a b Hfa Hfb) as (us & H1 & H2 & _).
    pose proof (cis_run HK CK' HA HD a a (sops_refl _ (a_ri_refl HO) a)) as Ha.
    pose proof (cis_run HK CK' HA HD b b (sops_refl _ (a_ri_refl HO) b)) as Hb.
    destruct (nexts_like like (isc_union_next kcl cmp) us (c, is_union (snd (crun a)) (snd (crun b)))) as (us' & E1 & E2).
    { intros n. rewrite <- H1. apply (c_nexts (RI := Forall2 (Rei (RK := alike_key cmp) (RV := fun _ _ => True)))).
      - exact (cis_union_next HK CK').
      - apply cis_new; assumption. }
    exists us'. split; [|exact E2]. exact (ilike_pieces _ _ _ E1 H2).
  Qed.
  Lemma isclone_intersection a b c : exists us,
    runsi_of cmp (fun k => mem a k && mem b k) us /\
    forall n, nexts_m (isc_intersection_next kcl cmp) n (c, is_intersection (snd (crun a)) (snd (crun b))) = map Ret (yields n us).
  Proof.
    destruct (xs_intersection HO HSt a b) as (us & H1 & H2 & _).
    pose proof (cis_run HK CK' HA HD a a (sops_refl _ (a_ri_refl HO) a)) as Ha.
    pose proof (cis_run HK CK' HA HD b b (sops_refl _ (a_ri_refl HO) b)) as Hb.
    destruct (nexts_like like (isc_intersection_next kcl cmp) us (c, is_intersection (snd (crun a)) (snd (crun b)))) as (us' & E1 & E2).
    { intros n. rewrite <- H1. apply (c_nexts (RI := Forall2 (Rei (RK := alike_key cmp) (RV := fun _ _ => True)))).
      - exact (cis_intersection_next HK CK').
      - apply cis_new; assumption. }
    exists us'. split; [|exact E2]. exact (ilike_runs _ _ _ E1 H2).
  Qed.
  Lemma isclone_eval x c : fresh_sexp x = true -> exists s,
    fst (isc_eval kcl cmp st x c) = Ret s /\
    runsi_of cmp (mem_sexp (valid_rangei cmp) (in_rangei cmp) x) (ranges s) /\
    forall n k, fst (isc_contains kcl cmp k (n, s)) = Ret (mem_sexp (valid_rangei cmp) (in_rangei cmp) x k).
  Proof.
    intros Hf. destruct (iseval HO HSt x Hf) as (ops & Ho & E & Hm). destruct (cis_eval HK CK' HA HD (a_refl HO) x _ c E) as (s & E' & Hs).
    exists s. split; [exact E'|]. split.
    - apply f2_fst in Hs. eapply ilike_runs; [exact Hs|]. destruct (isrun_runs HO HSt ops Ho) as (A & B & C).
      split; [exact A|]. split; [exact B|]. intros k. rewrite <- Hm. apply C.
    - intros n k. destruct (cis_contains HK CK' _ n _ k k Hs (a_refl HO k)) as [H1 _].
      rewrite H1, <- Hm. apply (isrun_contains HO HSt), Ho.
  Qed.

  (** *** Exhausted ranges included *)
  Lemma ilike_freshen l l' : Forall2 like l l' -> Forall2 like (map freshen l) (map freshen l').
  Proof. induction 1 as [|r r' l l' (H1 & H2 & _) _ IH]; cbn; constructor; [|exact IH]. repeat split; assumption. Qed.
  Lemma isclone_same ops : Forall2 like (ranges (is_run cmp st ops)) (ranges (snd (crun ops))).
  Proof. apply isclone_run, sops_refl, (a_ri_refl HO). Qed.
  Lemma isclone_any_runs ops : runsi_of cmp (mem ops) (map freshen (ranges (snd (crun ops)))).
  Proof. eapply ilike_runs; [apply ilike_freshen, isclone_same|]. rewrite <- franges. rewrite <- xs_run. rewrite <- xs_mem. apply (isrun_runs HO HSt), sfreshen_fresh. Qed.
  Lemma isclone_contains_same ops k :
    fst (isc_contains kcl cmp k (crun ops)) = is_contains cmp (is_run cmp st ops) k /\
    snd (snd (isc_contains kcl cmp k (crun ops))) = snd (crun ops).
  Proof.
    pose proof (cis_run HK CK' HA HD ops ops (sops_refl _ (a_ri_refl HO) ops)) as Hs. destruct (crun ops) as [n0 s0].
    exact (cis_contains HK CK' _ n0 _ k k Hs (a_refl HO k)).
  Qed.
  Lemma isclone_any_union a b c : exists us us',
    (forall n, nexts_m (is_union_next cmp) n (is_union (is_run cmp st a) (is_run cmp st b)) = map Ret (yields n us)) /\
    (forall n, nexts_m (isc_union_next kcl cmp) n (c, is_union (snd (crun a)) (snd (crun b))) = map Ret (yields n us')) /\
    Forall2 like us us' /\
    (forall r, In r us' -> valid_rangei cmp r = true) /\
    StronglySorted (fun p q => ltb cmp (ri_end p) (ri_start q) = true \/
                               ri_exhausted p = true /\ eqb cmp (ri_end p) (ri_start q) = true) us' /\
    (forall k, (exists r, In r us' /\ in_rangei cmp r k = true) <-> mem a k || mem b k = true).
  Proof.
    destruct (xs_union HO HSt a b) as (us & H1 & H2 & H3 & H4 & _).
    pose proof (cis_run HK CK' HA HD a a (sops_refl _ (a_ri_refl HO) a)) as Ha.
    pose proof (cis_run HK CK' HA HD b b (sops_refl _ (a_ri_refl HO) b)) as Hb.
    destruct (nexts_like like (isc_union_next kcl cmp) us (c, is_union (snd (crun a)) (snd (crun b)))) as (us' & E1 & E2).
    { intros n. rewrite <- H1. apply (c_nexts (RI := Forall2 (Rei (RK := alike_key cmp) (RV := fun _ _ => True)))).
      - exact (cis_union_next HK CK').
      - apply cis_new; assumption. }
    exists us, us'. split; [exact H1|]. split; [exact E2|]. split; [exact E1|]. split; [|split].
    - intros r Hr. destruct (f2_in_r _ _ _ _ E1 Hr) as (x & Hx & (X1 & X2 & X3)). pose proof (H2 x Hx) as A2.
      unfold valid_rangei, ltb in *. rewrite (HK _ _ _ _ X2 X1). exact A2.
    - eapply f2_sorted; [|exact E1|exact H3]. intros x y x' y' (_ & X1 & X2) (X3 & _) H. unfold ltb, eqb in *.
      rewrite (HK _ _ _ _ X1 X3), X2. exact H.
    - intros k. rewrite <- H4. split; intros (r & Hr & Hk).
      + destruct (f2_in_r _ _ _ _ E1 Hr) as (x & Hx & H). exists x. split; [exact Hx|]. rewrite (ilike_covers _ _ _ H). exact Hk.
      + destruct (f2_in_l _ _ _ _ E1 Hr) as (x & Hx & H). exists x. split; [exact Hx|]. rewrite <- (ilike_covers _ _ _ H). exact Hk.
  Qed.
  Lemma isclone_any_eval x c : exists s s',
    is_eval cmp st x = Ret s /\ fst (isc_eval kcl cmp st x c) = Ret s' /\
    Forall2 like (ranges s) (ranges s') /\
    runsi_of cmp (mem_sexp (valid_rangei cmp) (in_rangei cmp) x) (map freshen (ranges s')) /\
    forall n k, fst (isc_contains kcl cmp k (n, s')) = is_contains cmp s k.
  Proof.
    destruct (xs_eval HO HSt x) as (ops & E & Hm). destruct (cis_eval HK CK' HA HD (a_refl HO) x _ c E) as (s & E' & Hs).
    pose proof Hs as Hl. apply f2_fst in Hl.
    exists (is_run cmp st ops), s. split; [exact E|]. split; [exact E'|]. split; [exact Hl|]. split.
    - eapply ilike_runs; [apply ilike_freshen, Hl|]. destruct (isrun_runs HO HSt _ (sfreshen_fresh ops)) as (A & B & C).
      rewrite xs_run, franges in A, B, C. rewrite xs_mem in C.
      split; [exact A|]. split; [exact B|]. intros k. rewrite <- Hm. apply C.
    - intros n k. apply (cis_contains HK CK' _ n _ k k Hs (a_refl HO k)).
  Qed.
End Incl.

(** Clones identical to their originals: SetModel.v and ISetModel.v. *)
Section Identity.
  Context {K : Type} (cmp : K -> K -> comparison) (st : stepfns K).
  Notation kid := (fun (_ : nat) (k : K) => k).

  Lemma half_eq (l l' : rset K) : Forall2 (Re (RK := eq) (RV := fun _ _ => True)) l l' -> l = l'.
  Proof. apply f2_eq. intros [[a b] []] [[a' b'] []] [[H1 H2] _]. cbn in *. subst. reflexivity. Qed.
  Lemma incl_eq (l l' : iset K) : Forall2 (Rei (RK := eq) (RV := fun _ _ => True)) l l' -> l = l'.
  Proof. apply f2_eq. intros [[a b x] []] [[a' b' x'] []] [(H1 & H2 & H3) _]. cbn in *. subst. reflexivity. Qed.
  Lemma sclone_identity x c s : rs_eval cmp x = Ret s -> fst (rsc_eval kid cmp x c) = Ret s.
  Proof.
    intros E. destruct (cs_eval (RK := eq) (kcl := kid) (cmp := cmp)) with (x := x) (s := s) (n := c) as (s' & E' & H);
      try (intros; subst; reflexivity); [exact E|]. rewrite E'. f_equal. symmetry. apply half_eq, H.
  Qed.
  Lemma isclone_identity x c s : is_eval cmp st x = Ret s -> fst (isc_eval kid cmp st x c) = Ret s.
  Proof.
    intros E.
    assert (HKe : forall a b a' b' : K, a = a' -> b = b' -> cmp a' b' = cmp a b) by (intros; subst; reflexivity).
    assert (CKe : forall (n : nat) (a a' : K), a = a' -> a = kid n a') by (intros; subst; reflexivity).
    assert (HA : forall a a' y : K, a = a' -> ltb cmp a y = true ->
                   orel eq (step_o (add_one st a)) (step_o (add_one st a'))).
    { intros a a' y <- _. destruct (step_o (add_one st a)); constructor; reflexivity. }
    assert (HD : forall a a' y : K, a = a' -> ltb cmp y a = true ->
                   orel eq (step_o (sub_one st a)) (step_o (sub_one st a'))).
    { intros a a' y <- _. destruct (step_o (sub_one st a)); constructor; reflexivity. }
    destruct (cis_eval HKe CKe HA HD (@eq_refl K) x s c E) as (s' & E' & H).
    rewrite E'. f_equal. symmetry. apply incl_eq, H.
  Qed.
End Identity.
