(** The facts behind P_Rest.v: [Union::new] and [Intersection::new] on iterators
    that have been advanced. *)
From Coq Require Import List Bool Sorting.Sorted ZArith Lia.
From Verif Require Import Order Outcome BTree Ranges History Spec MapModel IMapModel OpsModel SetModel ISetModel
  ListLemmas IterFacts StepModel StepFacts Cuts OpsProofs SetProps ISetProps Exhausted ExhaustedSet Instances.
Import ListNotations.

(** ** What a schedule leaves *)
Lemma deque_rest_infix {A} (sched : list side) : forall l : list A, exists p q, l = p ++ deque_rest sched l ++ q.
Proof.
  induction sched as [|d sched IH]; intros l; [exists [], []; cbn; rewrite app_nil_r; reflexivity|].
  unfold deque_rest. cbn [sched_end]. fold (deque_rest sched (snd (deque_step d l))).
  destruct (IH (snd (deque_step d l))) as (p & q & E).
  destruct l as [|a l]; [exists p, q; exact E|]. destruct d; cbn [deque_step snd] in *.
  - exists (a :: p), q. rewrite E at 1. reflexivity.
  - exists p, (q ++ [last (a :: l) a]). rewrite (app_removelast_last a (l := a :: l)) at 1 by discriminate.
    rewrite E at 1. rewrite <- !app_assoc. reflexivity.
Qed.
Lemma deque_rest_len {A} sched : forall l : list A, length l <= length (deque_rest sched l) + length sched.
Proof.
  induction sched as [|d sched IH]; intros l; [cbn; lia|]. unfold deque_rest. cbn [sched_end].
  specialize (IH (snd (deque_step d l))). unfold deque_rest in IH.
  assert (length l <= S (length (snd (deque_step d l)))); [|cbn [length]; lia].
  destruct l as [|a l]; [cbn; lia|]. destruct d; cbn [deque_step snd]; [cbn; lia|].
  rewrite (app_removelast_last a (l := a :: l)) at 1 by discriminate. rewrite app_length. cbn [length]. lia.
Qed.
Lemma deque_rest_bound {A} sched (l : list A) :
  exists p q, l = p ++ deque_rest sched l ++ q /\ length (p ++ q) <= length sched.
Proof.
  destruct (deque_rest_infix sched l) as (p & q & E). exists p, q. split; [exact E|].
  pose proof (deque_rest_len sched l) as H. rewrite E in H at 1. rewrite !app_length in *. lia.
Qed.
Lemma deque_rest_In {A} sched (l : list A) x : In x (deque_rest sched l) -> In x l.
Proof.
  intros H. destruct (deque_rest_infix sched l) as (p & q & ->). apply in_or_app. right. apply in_or_app. auto.
Qed.
Lemma deque_rest_SS {A} (R : A -> A -> Prop) sched l : StronglySorted R l -> StronglySorted R (deque_rest sched l).
Proof.
  intros H. destruct (deque_rest_infix sched l) as (p & q & E). rewrite E in H. clear E.
  induction p as [|x p IH]; cbn in H.
  - induction (deque_rest sched l) as [|y m IH]; [constructor|]. cbn in H. apply StronglySorted_inv in H as [H HF].
    constructor; [apply IH, H|]. apply Forall_app in HF. tauto.
  - apply StronglySorted_inv in H as [H _]. auto.
Qed.
Lemma sched_end_sim {S T A} (f : S -> T) (step : side -> S -> option A * S) (step' : side -> T -> option A * T) :
  (forall d s, f (snd (step d s)) = snd (step' d (f s))) ->
  forall sched s, f (sched_end step sched s) = sched_end step' sched (f s).
Proof. intros H sched. induction sched as [|d sched IH]; intros s; [reflexivity|]. cbn. rewrite IH, H. reflexivity. Qed.
Lemma map_removelast {A B} (f : A -> B) l : map f (removelast l) = removelast (map f l).
Proof. induction l as [|a [|b l] IH]; [reflexivity|reflexivity|]. cbn in *. rewrite IH. reflexivity. Qed.
Lemma deque_step_map {A B} (f : A -> B) d l : snd (deque_step d (map f l)) = map f (snd (deque_step d l)).
Proof.
  destruct l as [|a l]; [reflexivity|]. destruct d; [reflexivity|]. unfold deque_step. cbn [snd].
  rewrite (map_removelast f (a :: l)). reflexivity.
Qed.

Section Half.
  Context {K : Type} {cmp : K -> K -> comparison} (HO : TotalOrd cmp).
  Notation run := (rs_run cmp).
  Notation covers := (in_range cmp).
  Notation ranges s := (map fst (rs_iter s)).
  Notation rest sched s := (sched_end (both rs_iter_next rs_iter_next_back) sched (rs_iter s)).

  Lemma rs_rest sched (s : rset K) : map fst (rest sched s) = deque_rest sched (ranges s).
  Proof.
    unfold deque_rest. apply (sched_end_sim (map fst)). intros d l. rewrite deque_step_map, <- (it_deque d l).
    destruct d; unfold both, rs_iter_next, rs_iter_next_back; [destruct (it_next l)|destruct (it_next_back l)]; reflexivity.
  Qed.
  Lemma rs_rest_part (s : rset K) sched : exists p q,
    ranges s = p ++ map fst (rest sched s) ++ q /\ length (p ++ q) <= length sched /\
    map fst (rest sched s) = deque_rest sched (ranges s).
  Proof.
    destruct (deque_rest_bound sched (ranges s)) as (p & q & H1 & H2). exists p, q. rewrite rs_rest. auto.
  Qed.
  Lemma rs_union_new a b sa sb : exists us,
    (forall n, nexts_m (rs_union_next cmp) n (op_new (rest sa (run a)) (rest sb (run b))) = map Ret (yields n us)) /\
    pieces_of cmp (fun k => existsb (fun r => covers r k) (deque_rest sa (ranges (run a))) ||
                            existsb (fun r => covers r k) (deque_rest sb (ranges (run b)))) us /\
    welded cmp (deque_rest sa (ranges (run a)) ++ deque_rest sb (ranges (run b))) us /\
    length us <= length (deque_rest sa (ranges (run a))) + length (deque_rest sb (ranges (run b))).
  Proof.
    destruct (srun_runs HO a) as (A1 & A2 & A3), (srun_runs HO b) as (B1 & B2 & B3).
    destruct (union_drains HO (s_laws HO) _ (op_new (rest sa (run a)) (rest sb (run b))) (le_n _))
      as (us & H1 & H2 & H3 & H4 & H5 & _ & H7 & H8); unfold lv, rv in *; cbn [op_new op_left op_right pk_new pview pk_peeked pk_iter] in *;
      rewrite ?rs_rest in *.
    - split; apply (pok_new (view := map fst)).
    - apply Forall_forall. intros r Hr. apply A1, (deque_rest_In sa), Hr.
    - apply Forall_forall. intros r Hr. apply B1, (deque_rest_In sb), Hr.
    - apply (sep_asc HO), deque_rest_SS, A2.
    - apply (sep_asc HO), deque_rest_SS, B2.
    - exists us. splits; [exact H1| | |exact H4].
      2:{ split; [exact H7|]. intros u z Hu Hz1 Hz2. destruct (H8 u z Hu (conj Hz1 Hz2)) as (r & Hr & G1 & G2). exists r. auto. }
      unfold pieces_of. splits.
      + apply Forall_forall. exact H2.
      + exact H3.
      + intros k. rewrite <- (cov_covers HO), H5, orb_true_iff, !existsb_exists, !(cov_covers HO). reflexivity.
  Qed.
  Lemma rs_intersection_new a b sa sb : exists us,
    (forall n, nexts_m (rs_intersection_next cmp) n (op_new (rest sa (run a)) (rest sb (run b))) = map Ret (yields n us)) /\
    runs_of cmp (fun k => existsb (fun r => covers r k) (deque_rest sa (ranges (run a))) &&
                          existsb (fun r => covers r k) (deque_rest sb (ranges (run b)))) us /\
    length us <= length (deque_rest sa (ranges (run a))) + length (deque_rest sb (ranges (run b))).
  Proof.
    destruct (srun_runs HO a) as (A1 & A2 & A3), (srun_runs HO b) as (B1 & B2 & B3).
    destruct (inter_drains HO (s_laws HO) _ (op_new (rest sa (run a)) (rest sb (run b))) (le_n _))
      as (us & H1 & H2 & H3 & H4 & H5 & _); unfold lv, rv in *; cbn [op_new op_left op_right pk_new pview pk_peeked pk_iter] in *;
      rewrite ?rs_rest in *.
    - split; apply (pok_new (view := map fst)).
    - apply Forall_forall. intros r Hr. apply A1, (deque_rest_In sa), Hr.
    - apply Forall_forall. intros r Hr. apply B1, (deque_rest_In sb), Hr.
    - apply deque_rest_SS, A2.
    - apply deque_rest_SS, B2.
    - exists us. splits; [exact H1| |exact H4]. unfold runs_of. splits.
      + apply Forall_forall. exact H2.
      + exact H3.
      + intros k. rewrite <- (cov_covers HO), H5, andb_true_iff, !existsb_exists, !(cov_covers HO). reflexivity.
  Qed.
End Half.

Section Inclusive.
  Context {K : Type} {cmp : K -> K -> comparison} {st st' : stepfns K}.
  Context (HO : TotalOrd cmp) (HS : StepLaws cmp st) (HS' : StepLaws cmp st').
  Notation covers := (in_rangei cmp).
  Notation valid := (valid_rangei cmp).
  Notation ranges s := (map fst (is_iter s)).
  Notation fr := (@freshen K).
  Notation fe := (@freshen_entry K unit).
  Notation HO' := (cut_order cmp st HO HS).
  Notation rest sched s := (sched_end (both is_iter_next is_iter_next_back) sched (is_iter s)).

  Lemma is_rest sched (s : iset K) : map fst (rest sched s) = deque_rest sched (ranges s).
  Proof.
    unfold deque_rest. apply (sched_end_sim (map fst)). intros d l. rewrite deque_step_map, <- (it_deque d l).
    destruct d; unfold both, is_iter_next, is_iter_next_back; [destruct (it_next l)|destruct (it_next_back l)]; reflexivity.
  Qed.
  Lemma is_rest_part (s : iset K) sched : exists p q,
    ranges s = p ++ map fst (rest sched s) ++ q /\ length (p ++ q) <= length sched /\
    map fst (rest sched s) = deque_rest sched (ranges s).
  Proof.
    destruct (deque_rest_bound sched (ranges s)) as (p & q & H1 & H2). exists p, q. rewrite is_rest. auto.
  Qed.
  Lemma is_union_new a b sa sb : exists us,
    (forall n, nexts_m (is_union_next cmp) n (op_new (rest sa (is_run cmp st a)) (rest sb (is_run cmp st' b))) =
       map Ret (yields n us)) /\
    (forall r, In r us -> valid r = true) /\
    StronglySorted (fun p q => ltb cmp (ri_end p) (ri_start q) = true \/
                               ri_exhausted p = true /\ eqb cmp (ri_end p) (ri_start q) = true) us /\
    (forall k, (exists r, In r us /\ covers r k = true) <->
       existsb (fun r => covers r k) (deque_rest sa (ranges (is_run cmp st a))) ||
       existsb (fun r => covers r k) (deque_rest sb (ranges (is_run cmp st' b))) = true) /\
    (forall r, In r us -> ri_exhausted r = true ->
       In r (deque_rest sa (ranges (is_run cmp st a))) \/ In r (deque_rest sb (ranges (is_run cmp st' b)))) /\
    length us <= length (deque_rest sa (ranges (is_run cmp st a))) + length (deque_rest sb (ranges (is_run cmp st' b))).
  Proof.
    destruct (xs_runs' HO HS a) as (A1 & A2 & A3), (xs_runs' HO HS' b) as (B1 & B2 & B3).
    destruct (xunion_drains HO HS _ (op_new (rest sa (is_run cmp st a)) (rest sb (is_run cmp st' b))) (le_n _))
      as (us & H1 & H2 & H3 & HF & H4 & H5 & _); unfold lv, rv in *;
      cbn [op_new op_left op_right pk_new pview pk_peeked pk_iter] in *; rewrite ?is_rest in *.
    - split; apply (pok_new (view := map fst)).
    - apply Forall_forall. intros r Hr. apply A1, (deque_rest_In sa), Hr.
    - apply Forall_forall. intros r Hr. apply B1, (deque_rest_In sb), Hr.
    - apply deque_rest_SS, (gap_asc HO), A2.
    - apply deque_rest_SS, (gap_asc HO), B2.
    - exists us. splits; auto.
      + apply Forall_forall. exact H2.
      + intros k. rewrite <- (xcovs_iff HO), H5, orb_true_iff, !existsb_exists, !(xcovs_iff HO). reflexivity.
  Qed.
  Lemma frest (l : list (rangei K * unit)) : map fst (map fe l) = map fr (map fst l).
  Proof. rewrite !map_map. reflexivity. Qed.
  Lemma is_intersection_new a b sa sb : exists us,
    (forall n, nexts_m (is_intersection_next cmp) n (op_new (rest sa (is_run cmp st a)) (rest sb (is_run cmp st' b))) =
       map Ret (yields n us)) /\
    runsi_of cmp (fun k => existsb (fun r => covers r k) (deque_rest sa (ranges (is_run cmp st a))) &&
                           existsb (fun r => covers r k) (deque_rest sb (ranges (is_run cmp st' b)))) us /\
    length us <= length (deque_rest sa (ranges (is_run cmp st a))) + length (deque_rest sb (ranges (is_run cmp st' b))).
  Proof.
    destruct (xs_runs' HO HS a) as (A1 & A2 & A3), (xs_runs' HO HS' b) as (B1 & B2 & B3).
    assert (Hc : forall l k, (exists r, In r (map fr l) /\ covers r k = true) <-> exists r, In r l /\ covers r k = true).
    { intros l k. split.
      - intros (r & Hr & Hk). apply in_map_iff in Hr as (r' & <- & Hr'). exists r'. auto.
      - intros (r & Hr & Hk). exists (fr r). split; [apply in_map, Hr|exact Hk]. }
    assert (Hg : forall l, StronglySorted (fun a b => exists k, ltb cmp (ri_end a) k = true /\ ltb cmp k (ri_start b) = true) l ->
       StronglySorted (fun a b => ltb (cmp_cut cmp st) (After (ri_end a)) (Before (ri_start b)) = true) (map fr l)).
    { intros l Hl. apply (sep_runs HO HS). induction Hl as [|x l Hl IH HFl]; [constructor|]. cbn. constructor; [exact IH|].
      rewrite Forall_forall in *. intros y Hy. apply in_map_iff in Hy as (y' & <- & Hy'). exact (HFl _ Hy'). }
    destruct (inter_drains HO' (is_laws HO HS) _
                (op_new (map fe (rest sa (is_run cmp st a))) (map fe (rest sb (is_run cmp st' b)))) (le_n _))
      as (us & H1 & H2 & H3 & H4 & H5 & _); unfold lv, rv in *;
      cbn [op_new op_left op_right pk_new pview pk_peeked pk_iter] in *; rewrite ?frest, ?is_rest in *.
    - split; apply (pok_new (view := map fst)).
    - apply Forall_forall. intros r Hr. apply in_map_iff in Hr as (r' & <- & Hr'). split; [reflexivity|].
      exact (A1 _ (deque_rest_In sa _ _ Hr')).
    - apply Forall_forall. intros r Hr. apply in_map_iff in Hr as (r' & <- & Hr'). split; [reflexivity|].
      exact (B1 _ (deque_rest_In sb _ _ Hr')).
    - apply Hg, deque_rest_SS, A2.
    - apply Hg, deque_rest_SS, B2.
    - rewrite !map_length in H4. exists us. splits; [| |exact H4].
      + intros n. rewrite <- H1. symmetry.
        apply (x_in_nexts n (op_new (rest sa (is_run cmp st a)) (rest sb (is_run cmp st' b)))).
      + unfold runsi_of. splits.
        * apply Forall_forall. exact H2.
        * apply (sep_runs HO HS). exact H3.
        * intros k. rewrite <- (icov_covers HO HS), H5, andb_true_iff, !existsb_exists, !(icov_covers HO HS), !Hc. reflexivity.
  Qed.
End Inclusive.
