(** Facts about interrupted queries (HaltModel.v). *)
From Coq Require Import List Bool Arith Lia Sorting.Sorted.
From Verif Require Import Order Outcome BTree Ranges History Spec SpecHalt ListLemmas IterFacts
  MapModel IMapModel MapProofs MapIter HaltModel.
Import ListNotations.

(** ** [drops] *)
Lemma drops_refl {A} (l : list A) : drops 0 l l.
Proof. induction l; constructor; assumption. Qed.
Lemma drops_app {A} (a a' b b' : list A) : forall i j, drops i a a' -> drops j b b' -> drops (i + j) (a ++ b) (a' ++ b').
Proof. intros i j H1 H2. induction H1; cbn; [exact H2|constructor; assumption|constructor; assumption]. Qed.
Lemma drops_In {A} n (l l' : list A) a : drops n l l' -> In a l' -> In a l.
Proof. induction 1; cbn; [auto| |auto]. intros [-> | H']; auto. Qed.
Lemma drops_length {A} n (l l' : list A) : drops n l l' -> length l = n + length l'.
Proof. induction 1; cbn; lia. Qed.
Lemma drops_nil_inv {A} n (l' : list A) : drops n [] l' -> n = 0 /\ l' = [].
Proof. intros H. inversion H; auto. Qed.
Lemma drops_SS {A} (R : A -> A -> Prop) n l l' : drops n l l' -> StronglySorted R l -> StronglySorted R l'.
Proof.
  induction 1; intros HS; [exact HS| |]; apply SS_cons in HS as [HS Ha].
  - apply SS_cons. split; [auto|]. intros b Hb. apply Ha. eapply drops_In; eauto.
  - auto.
Qed.
Lemma drops_map {A B} (f : A -> B) n l l' : drops n l l' -> drops n (map f l) (map f l').
Proof. induction 1; cbn; constructor; assumption. Qed.
Lemma drops_map_inv {A B} (f : A -> B) l : forall n l', drops n (map f l) l' -> exists l0, drops n l l0 /\ l' = map f l0.
Proof.
  induction l as [|a l IH]; cbn; intros n l' HD; inversion HD; subst.
  - exists []. split; [constructor|reflexivity].
  - match goal with X : drops _ (map f l) _ |- _ => destruct (IH _ _ X) as (l0 & H1 & ->) end. exists (a :: l0). split; [constructor; exact H1|reflexivity].
  - match goal with X : drops _ (map f l) _ |- _ => destruct (IH _ _ X) as (l0 & H1 & ->) end. exists l0. split; [constructor; exact H1|reflexivity].
Qed.
Lemma drops_filter {A} (p : A -> bool) n l l' : drops n l l' -> exists j, j <= n /\ drops j (filter p l) (filter p l').
Proof.
  induction 1 as [|n a l l' HD (j & Hj & IH)|n a l l' HD (j & Hj & IH)]; cbn.
  - exists 0. split; [lia|constructor].
  - exists j. split; [exact Hj|]. destruct (p a); [constructor; exact IH|exact IH].
  - destruct (p a); [exists (S j); split; [lia|constructor; exact IH]|exists j; split; [lia|exact IH]].
Qed.

(** ** Schedules *)
(** what can come of a call *)
Lemma halting_cases {S A} (c : H S A) cut s e s' : halting c cut s = (e, s') ->
  (e = Got (fst (snd (c s))) /\ s' = snd (snd (c s))) \/
  (exists u, e = Halt u /\ In (u, s') (fst (c s))).
Proof.
  unfold halting. destruct cut as [n|].
  - destruct (nth_error (fst (c s)) n) as [[u s1]|] eqn:E; intros [= <- <-].
    + right. exists u. split; [reflexivity|]. eapply nth_error_In; exact E.
    + left. auto.
  - intros [= <- <-]. left; auto.
Qed.

(** A double-ended iterator that holds the items [view s]: completed calls do what
    a deque does, an interrupted one loses at most the item at its end. *)
Section Deque.
  Context {S A : Type} (next : side -> H S (option A)) (R : S -> list A -> Prop).
  Context (Hdone : forall d s D, R s D ->
    fst (snd (next d s)) = Ret (fst (deque_step d D)) /\ R (snd (snd (next d s))) (snd (deque_step d D))).
  Context (Hhalt : forall d s D u s', R s D -> In (u, s') (fst (next d s)) ->
    R s' D \/ R s' (snd (deque_step d D))).

  (** removing what [deque_step] removes *)
  Lemma deque_step_drops d (D D1 : list A) j : drops j (snd (deque_step d D)) D1 ->
    exists D0, drops j D D0 /\ deque_step d D0 = (fst (deque_step d D), D1).
  Proof.
    destruct d.
    - destruct D as [|a D]; cbn.
      + intros H. apply drops_nil_inv in H as [-> ->]. exists []. split; [constructor|reflexivity].
      + intros H. exists (a :: D1). split; [constructor; exact H|reflexivity].
    - destruct (rev_cases D) as [-> | (l & a & ->)].
      + cbn. intros H. apply drops_nil_inv in H as [-> ->]. exists []. split; [constructor|reflexivity].
      + rewrite deque_back_snoc. cbn [fst snd]. intros H. exists (D1 ++ [a]). split.
        * replace j with (j + 0) by lia. apply drops_app; [exact H|apply drops_refl].
        * apply deque_back_snoc.
  Qed.
  Lemma deque_step_lose d (D D1 : list A) j : drops j (snd (deque_step d D)) D1 ->
    exists i, i <= Datatypes.S j /\ drops i D D1.
  Proof.
    destruct d.
    - destruct D as [|a D]; cbn; intros H; [exists j; split; [lia|exact H]|].
      exists (Datatypes.S j). split; [lia|constructor; exact H].
    - destruct (rev_cases D) as [-> | (l & a & ->)].
      + cbn. intros H. exists j. split; [lia|exact H].
      + rewrite deque_back_snoc. cbn [snd]. intros H. exists (j + 1). split; [lia|].
        rewrite <- (app_nil_r D1). apply drops_app; [exact H|]. do 2 constructor.
  Qed.
  Lemma deque_halts sched : forall s D, R s D ->
    exists j D', drops j D D' /\ j <= length (panics (halt_run next sched s)) /\
      map snd (completed (halt_run next sched s)) =
      map Ret (deque_run (map fst (completed (halt_run next sched s))) D').
  Proof.
    induction sched as [|[d cut] sched IH]; intros s D HR.
    - exists 0, D. split; [apply drops_refl|]. split; [cbn; lia|reflexivity].
    - cbn [halt_run]. destruct (halting (next d) cut s) as [e s'] eqn:E.
      apply halting_cases in E as [(-> & ->)|(u & -> & Hu)].
      + destruct (Hdone d s D HR) as [H1 H2]. destruct (IH _ _ H2) as (j & D' & I1 & I2 & I3).
        destruct (deque_step_drops d D D' j I1) as (D0 & J1 & J2).
        exists j, D0. split; [exact J1|]. cbn [panics completed map]. split; [exact I2|].
        unfold deque_run in *. cbn [sched_trace fst snd map]. rewrite J2, H1. cbn [map fst]. f_equal. exact I3.
      + cbn [panics completed length].
        destruct (Hhalt d s D u s' HR Hu) as [H2|H2]; destruct (IH _ _ H2) as (j & D' & I1 & I2 & I3).
        * exists j, D'. split; [exact I1|]. split; [lia|exact I3].
        * destruct (deque_step_lose d D D' j I1) as (i & Hi & J).
          exists i, D'. split; [exact J|]. split; [lia|exact I3].
  Qed.
End Deque.

(** A forward iterator that walks over the entries [iter s], and yields [rest s]
    if it is not interrupted.  An interruption leaves out an entry that has not
    been looked at, or an item. *)
Section Walk.
  Context {S E A : Type} (next : H S (option A)).
  Context (iter : S -> list E) (swap : S -> list E -> S) (rest : S -> list A) (inv : S -> Prop).
  Context (Hswap : forall s, swap s (iter s) = s).
  Context (Hdone : forall s, inv s ->
    exists o, fst (snd (next s)) = Ret o /\ inv (snd (snd (next s))) /\
    forall i l1, drops i (iter (snd (snd (next s)))) l1 -> exists l, drops i (iter s) l /\
      match o with
      | Some a => rest (swap s l) = a :: rest (swap (snd (snd (next s))) l1)
      | None => rest (swap s l) = [] /\ rest (swap (snd (snd (next s))) l1) = []
      end).
  Context (Hhalt : forall s u s', inv s -> In (u, s') (fst (next s)) -> inv s' /\
    exists di x, di + length x <= 1 /\ di <= length (filter is_cmp [u]) /\
    forall i l1, drops i (iter s') l1 -> exists l, drops (di + i) (iter s) l /\
      rest (swap s l) = x ++ rest (swap s' l1)).

  Lemma walk_halts (cuts : list (unit * option nat)) : forall s, inv s ->
    exists i l j gs, drops i (iter s) l /\ drops j (rest (swap s l)) gs /\
      i <= length (filter is_cmp (panics (halt_run (fun _ => next) cuts s))) /\
      i + j <= length (panics (halt_run (fun _ => next) cuts s)) /\
      map snd (completed (halt_run (fun _ => next) cuts s)) =
      map Ret (yields (length (completed (halt_run (fun _ => next) cuts s))) gs).
  Proof.
    induction cuts as [|[[] cut] cuts IH]; intros s HI.
    - exists 0, (iter s), 0, (rest s). rewrite Hswap. cbn. splits; auto using drops_refl.
    - cbn [halt_run]. destruct (halting next cut s) as [e s'] eqn:E0.
      apply halting_cases in E0 as [(-> & ->)|(u & -> & Hu)].
      + destruct (Hdone s HI) as (o & H1 & H2 & H3).
        destruct (IH _ H2) as (i & l1 & j & gs & I1 & I2 & I3 & I4 & I5).
        destruct (H3 i l1 I1) as (l & L1 & L2). cbn [panics completed map length]. destruct o as [a|].
        * exists i, l, j, (a :: gs). rewrite L2. splits; auto; [constructor; exact I2|].
          cbn [snd]. rewrite H1, I5, yields_cons. reflexivity.
        * destruct L2 as [L2 L3]. rewrite L3 in I2. apply drops_nil_inv in I2 as [-> ->].
          exists i, l, 0, []. rewrite L2. splits; auto; [constructor|].
          cbn [snd]. rewrite H1, I5, !yields_nil. reflexivity.
      + destruct (Hhalt s u s' HI Hu) as (H2 & di & x & D1 & D2 & H3).
        destruct (IH _ H2) as (i & l1 & j & gs & I1 & I2 & I3 & I4 & I5).
        destruct (H3 i l1 I1) as (l & L1 & L2). cbn [panics completed].
        exists (di + i), l, (length x + j), gs. rewrite L2. splits; auto.
        * clear - I2. induction x as [|a x IHx]; cbn; [exact I2|constructor; exact IHx].
        * change (u :: ?p) with ([u] ++ p). rewrite filter_app, app_length. lia.
        * cbn. lia.
  Qed.
End Walk.

(** ** [RangeMap] *)
Section Half.
  Context {K V : Type} {cmp : K -> K -> comparison} {veqb : V -> V -> bool} (HO : TotalOrd cmp).
  Notation ltb := (ltb cmp).
  Notation leb := (leb cmp).
  Notation WF := (@MapProofs.WF K V cmp veqb).
  Notation lk := (@MapProofs.lk K V cmp).
  Notation entry := (range K * V)%type.
  Notation ov_rel := (@ov_rel K V cmp veqb).
  Notation glist := (@glist K V cmp).

  (** forgetting the user calls *)
  Lemma ovh_next_erase (o : overlapping K V) :
    snd (ovh_next cmp o) = (Ret (fst (ov_next cmp o)), snd (ov_next cmp o)).
  Proof. destruct o as [q [|e l]]; reflexivity. Qed.
  Lemma ovh_loop_eq e rl (o : overlapping K V) :
    ovh_back_loop cmp (e :: rl) o =
    (let o' := mkOverlapping (ov_query o) (rev rl) in
     if ltb (r_start (fst e)) (r_end (ov_query o))
     then ([(UBorrow, o'); (UCmp, o')], (Ret (Some e), o'))
     else let (t, x) := ovh_back_loop cmp rl o' in ((UBorrow, o') :: (UCmp, o') :: t, x)).
  Proof.
    cbn [ovh_back_loop]. unfold hbind, hmodify, hget, user, hret. cbn [ov_query].
    destruct (ltb (r_start (fst e)) (r_end (ov_query o))); [reflexivity|].
    destruct (ovh_back_loop cmp rl (mkOverlapping (ov_query o) (rev rl))) as [t [[a|p|] x]]; reflexivity.
  Qed.
  Lemma ovh_loop_erase q rl : forall o : overlapping K V, ov_query o = q ->
    ov_iter o = rev rl ->
    snd (ovh_back_loop cmp rl o) =
    (Ret (fst (ov_back_loop cmp q rl)), mkOverlapping q (rev (snd (ov_back_loop cmp q rl)))).
  Proof.
    induction rl as [|e rl IH]; intros o <- Ho.
    - destruct o as [q l]. cbn in Ho |- *. subst l. reflexivity.
    - rewrite ovh_loop_eq. cbv zeta. cbn [ov_back_loop].
      destruct (ltb (r_start (fst e)) (r_end (ov_query o))); [reflexivity|].
      specialize (IH (mkOverlapping (ov_query o) (rev rl)) eq_refl eq_refl).
      destruct (ovh_back_loop cmp rl (mkOverlapping (ov_query o) (rev rl))) as [t x]. exact IH.
  Qed.
  Lemma ovh_back_erase (o : overlapping K V) :
    snd (ovh_next_back cmp o) = (Ret (fst (ov_next_back cmp o)), snd (ov_next_back cmp o)).
  Proof.
    assert (E : snd (ovh_next_back cmp o) = snd (ovh_back_loop cmp (rev (ov_iter o)) o)).
    { unfold ovh_next_back, hbind, hget. destruct (ovh_back_loop cmp (rev (ov_iter o)) o) as [t [[a|p|] x]]; reflexivity. }
    rewrite E, (ovh_loop_erase (ov_query o)) by (rewrite ?rev_involutive; reflexivity).
    unfold ov_next_back. destruct (ov_back_loop cmp (ov_query o) (rev (ov_iter o))). reflexivity.
  Qed.
  Lemma ovh_step_erase d (o : overlapping K V) :
    snd (ovh_step cmp d o) =
    (Ret (fst (both (ov_next cmp) (ov_next_back cmp) d o)), snd (both (ov_next cmp) (ov_next_back cmp) d o)).
  Proof. destruct d; [apply ovh_next_erase|apply ovh_back_erase]. Qed.

  Lemma ovh_halt q d (o : overlapping K V) D u o' : ov_rel q o D -> In (u, o') (fst (ovh_step cmp d o)) ->
    ov_rel q o' D \/ ov_rel q o' (snd (deque_step d D)).
  Proof.
    intros HR. destruct d.
    - (* the item is gone, as after the call *)
      intros Hin. right. destruct (ov_rel_step HO q Front o D HR) as [_ H].
      replace o' with (snd (both (ov_next cmp) (ov_next_back cmp) Front o)); [exact H|].
      destruct o as [q0 [|e l]]; cbn in Hin |- *; [destruct Hin|].
      destruct Hin as [[= _ <-] | [[= _ <-] | []]]; reflexivity.
    - cbn [ovh_step]. destruct HR as (<- & HW & ->). destruct o as [q l]. cbn [ov_query ov_iter] in *.
      assert (E : fst (ovh_next_back cmp (mkOverlapping q l)) = fst (ovh_back_loop cmp (rev l) (mkOverlapping q l))).
      { unfold ovh_next_back, hbind, hget. cbn [ov_iter].
        destruct (ovh_back_loop cmp (rev l) (mkOverlapping q l)) as [t [[a|p|] x]]; reflexivity. }
      rewrite E. clear E. generalize (mkOverlapping q l), (eq_refl : ov_query (mkOverlapping q l) = q).
      induction l as [|e l IH] using rev_ind; intros o Ho Hin; [destruct Hin|].
      rewrite rev_app_distr in Hin. cbn [rev app] in Hin. rewrite ovh_loop_eq in Hin. cbv zeta in Hin.
      rewrite rev_involutive, Ho in Hin. apply WF_app in HW as (HW & _ & _).
      rewrite filter_app. cbn [filter]. destruct (ltb (r_start (fst e)) (r_end q)) eqn:E.
      + rewrite deque_back_snoc. right. unfold MapIter.ov_rel. cbn [snd].
        destruct Hin as [[= _ <-] | [[= _ <-] | []]]; cbn; auto.
      + rewrite app_nil_r. destruct (ovh_back_loop cmp (rev l) (mkOverlapping q l)) as [t x] eqn:E2. cbn [fst] in Hin.
        destruct Hin as [[= _ <-] | [[= _ <-] | Hin]]; [left; unfold MapIter.ov_rel; cbn; auto..|].
        apply (IH HW (mkOverlapping q l) eq_refl). rewrite E2. exact Hin.
  Qed.

  Lemma overlapping_halts m q sched : WF m ->
    exists o, rm_overlapping cmp m q = Ret o /\
    exists j D, drops j (filter (fun e => meets cmp q (fst e)) m) D /\
      j <= length (panics (halt_run (ovh_step cmp) sched o)) /\
      map snd (completed (halt_run (ovh_step cmp) sched o)) =
      map Ret (deque_run (map fst (completed (halt_run (ovh_step cmp) sched o))) D).
  Proof.
    intros HW. destruct (overlapping_split HO m q HW) as (L & N & E & HL & HN & HR).
    exists (mkOverlapping q N). split; [exact HR|].
    apply (deque_halts (ovh_step cmp) (ov_rel q)).
    - intros d s D H. rewrite ovh_step_erase. cbn [fst snd].
      destruct (ov_rel_step HO q d s D H) as [H1 H2]. rewrite H1. auto.
    - intros d s D u s' H. apply ovh_halt; exact H.
    - unfold MapIter.ov_rel; cbn. pose proof (hits_filter HO m q L N E HL HN) as Hh. unfold hits in Hh.
      splits; auto. subst m. apply WF_app in HW as (_ & HW & _). exact HW.
  Qed.

  (** *** [Gaps] *)
  Lemma gph_loop_eq o (v : V) l cand qend l0 :
    gph_loop cmp ((o, v) :: l) (mkGaps cand qend l0) =
    (let g1 := mkGaps cand qend l in
     let g2 := mkGaps (r_end o) qend l in
     if leb qend (r_start o) then ([(UCmp, g1)], (Ret None, g1))
     else if ltb cand (r_start o)
     then ([(UCmp, g1); (UCmp, g2); (UClone, g2); (UClone, g2)], (Ret (Some (mkR cand (r_start o))), g2))
     else let (t, x) := gph_loop cmp l g2 in ((UCmp, g1) :: (UCmp, g2) :: t, x)).
  Proof.
    cbn [gph_loop]. unfold hbind, hmodify, hget, user, hret. cbn [gp_candidate_start gp_query_end gp_iter].
    destruct (leb qend (r_start o)); [reflexivity|]. destruct (ltb cand (r_start o)); [reflexivity|].
    cbn -[gph_loop]. destruct (gph_loop cmp l (mkGaps (r_end o) qend l)) as [t [[a|p|] x]]; reflexivity.
  Qed.
  Lemma gph_next_eq cand qend (l : list entry) :
    gph_next cmp (mkGaps cand qend l) =
    let (t, x) := gph_loop cmp l (mkGaps cand qend l) in
    match x with
    | (Ret None, g) =>
        if ltb (gp_candidate_start g) (gp_query_end g)
        then (t ++ [(UCmp, g); (UClone, g); (UClone, g)],
              (Ret (Some (mkR (gp_candidate_start g) (gp_query_end g))),
               mkGaps (gp_query_end g) (gp_query_end g) (gp_iter g)))
        else (t ++ [(UCmp, g)], (Ret None, g))
    | _ => (t, x)
    end.
  Proof.
    unfold gph_next. unfold hbind, hget, hmodify, user, hret. cbn [gp_iter].
    destruct (gph_loop cmp l (mkGaps cand qend l)) as [t [[[r|]|p|] g]]; cbn; rewrite ?app_nil_r; try reflexivity.
    destruct (ltb (gp_candidate_start g) (gp_query_end g)); reflexivity.
  Qed.
  Lemma gph_loop_erase qend (l : list entry) : forall cand,
    snd (gph_loop cmp l (mkGaps cand qend l)) =
    match gp_loop cmp cand qend l with (o, c, l1) => (Ret o, mkGaps c qend l1) end.
  Proof.
    induction l as [|[o v] l IH]; intros cand; [reflexivity|]. rewrite gph_loop_eq. cbv zeta. cbn [gp_loop].
    destruct (leb qend (r_start o)); [reflexivity|]. destruct (ltb cand (r_start o)); [reflexivity|].
    rewrite <- IH. destruct (gph_loop cmp l (mkGaps (r_end o) qend l)). reflexivity.
  Qed.
  Lemma gph_next_erase (g : gaps K V) : snd (gph_next cmp g) = (Ret (fst (gp_next cmp g)), snd (gp_next cmp g)).
  Proof.
    destruct g as [cand qend l]. rewrite gph_next_eq. unfold gp_next. cbn [gp_candidate_start gp_query_end gp_iter].
    pose proof (gph_loop_erase qend l cand) as E. destruct (gp_loop cmp cand qend l) as [[[r|] c] l1];
      destruct (gph_loop cmp l (mkGaps cand qend l)) as [t x]; cbn [snd] in E; subst x; [reflexivity|].
    cbn [gp_candidate_start gp_query_end gp_iter]. destruct (ltb c qend); reflexivity.
  Qed.

  Definition ginv (g : gaps K V) : Prop :=
    WF (gp_iter g) /\ (forall e, In e (gp_iter g) -> ltb (gp_candidate_start g) (r_end (fst e)) = true).
  Definition gswap (g : gaps K V) (l : list entry) : gaps K V := mkGaps (gp_candidate_start g) (gp_query_end g) l.
  Definition grest (g : gaps K V) : list (range K) := glist (gp_candidate_start g) (gp_query_end g) (gp_iter g).

  Lemma drops_WF n (l l' : list entry) : drops n l l' -> WF l -> WF l'.
  Proof.
    intros HD [H1 H2]. split; [eapply drops_SS; eassumption|]. intros e He. apply H2. eapply drops_In; eauto.
  Qed.
  (** nothing but a gap at the end is left once the entries are beyond the query *)
  Lemma glist_beyond cand qend l : (forall e, In e l -> leb qend (r_start (fst e)) = true) ->
    glist cand qend l = if ltb cand qend then [mkR cand qend] else [].
  Proof.
    destruct l as [|[o v] l]; intros Hb; [reflexivity|]. cbn [MapIter.glist].
    specialize (Hb (o, v) (or_introl eq_refl)). cbn [fst] in Hb. rewrite Hb. reflexivity.
  Qed.
  Lemma ginv_cons o (v : V) l cand qend : ginv (mkGaps cand qend ((o, v) :: l)) ->
    ginv (mkGaps cand qend l) /\ ginv (mkGaps (r_end o) qend l) /\
    (forall e, In e l -> leb (r_end o) (r_start (fst e)) = true) /\ ltb (r_start o) (r_end o) = true.
  Proof.
    unfold ginv. cbn [gp_iter gp_candidate_start]. intros [HW Hc].
    apply WF_cons in HW as (Ho & HW & Hs). cbn in Ho. splits; auto.
    - intros e He. apply Hc. right; exact He.
    - intros e He. destruct (Hs e He) as [H1 _]. cbn in H1. pose proof (proj2 HW e He). cbn in *. ord.
    - intros e He. apply (Hs e He).
  Qed.

  (** the loop of [Gaps::next] *)
  Lemma gph_loop_ok qend l : forall cand, ginv (mkGaps cand qend l) ->
    (* the states at its user calls *)
    (forall u g', In (u, g') (fst (gph_loop cmp l (mkGaps cand qend l))) ->
       gp_query_end g' = qend /\ ginv g' /\
       exists di x, di + length x <= 1 /\ di <= length (filter is_cmp [u]) /\
       forall i l1, drops i (gp_iter g') l1 -> exists l', drops (di + i) l l' /\
         glist cand qend l' = x ++ grest (gswap g' l1)) /\
    (* its result *)
    exists o g', snd (gph_loop cmp l (mkGaps cand qend l)) = (Ret o, g') /\ gp_query_end g' = qend /\ ginv g' /\
      forall i l1, drops i (gp_iter g') l1 -> exists l', drops i l l' /\
        match o with
        | Some a => glist cand qend l' = a :: grest (gswap g' l1)
        | None => (forall e, In e l1 -> leb qend (r_start (fst e)) = true) /\
                  glist cand qend l' = if ltb (gp_candidate_start g') qend
                                       then [mkR (gp_candidate_start g') qend] else []
        end.
  Proof.
    induction l as [|[o v] l IH]; intros cand HI.
    - split; [intros u g' []|]. eexists _, _. split; [reflexivity|]. split; [reflexivity|]. split; [exact HI|].
      cbn [gp_iter gp_candidate_start]. intros i l1 HD. apply drops_nil_inv in HD as [-> ->].
      exists []. split; [constructor|]. split; [intros e []|reflexivity].
    - destruct (ginv_cons _ _ _ _ _ HI) as (I1 & I2 & Hs & Hv). rewrite gph_loop_eq. cbv zeta.
      (* skipping this entry *)
      assert (Skip : forall u g', (u, g') = (UCmp, mkGaps cand qend l) ->
        gp_query_end g' = qend /\ ginv g' /\
        exists di x, di + length x <= 1 /\ di <= length (filter is_cmp [u]) /\
        forall i l1, drops i (gp_iter g') l1 -> exists l', drops (di + i) ((o, v) :: l) l' /\
          glist cand qend l' = x ++ grest (gswap g' l1)).
      { intros u g' [= -> ->]. split; [reflexivity|]. split; [exact I1|]. exists 1, []. cbn.
        split; [lia|]. split; [lia|]. intros i l1 HD. exists l1. split; [constructor; exact HD|reflexivity]. }
      destruct (leb qend (r_start o)) eqn:E1.
      + split; [intros u g' [E | []]; apply Skip; congruence|].
        eexists _, _. split; [reflexivity|]. split; [reflexivity|]. split; [exact I1|].
        cbn [gp_iter gp_candidate_start]. intros i l1 HD. exists ((o, v) :: l1).
        split; [constructor; exact HD|]. split.
        * intros e He. specialize (Hs e (drops_In _ _ _ _ HD He)). ord.
        * cbn [MapIter.glist]. rewrite E1. reflexivity.
      + (* moving on over this entry, which may lose a gap *)
        set (gap := if ltb cand (r_start o) then [mkR cand (r_start o)] else []).
        assert (Move : forall u, 
          gp_query_end (mkGaps (r_end o) qend l) = qend /\ ginv (mkGaps (r_end o) qend l) /\
          exists di x, di + length x <= 1 /\ di <= length (filter is_cmp [u]) /\
          forall i l1, drops i (gp_iter (mkGaps (r_end o) qend l)) l1 -> exists l', drops (di + i) ((o, v) :: l) l' /\
            glist cand qend l' = x ++ grest (gswap (mkGaps (r_end o) qend l) l1)).
        { intros u. split; [reflexivity|]. split; [exact I2|]. exists 0, gap.
          split; [unfold gap; destruct (ltb cand (r_start o)); cbn; lia|]. split; [lia|].
          cbn [gp_iter gp_candidate_start]. intros i l1 HD. exists ((o, v) :: l1).
          split; [constructor; exact HD|]. cbn [MapIter.glist]. rewrite E1. reflexivity. }
        destruct (ltb cand (r_start o)) eqn:E2.
        * split.
          -- intros u g' [E | [[= <- <-] | [[= <- <-] | [[= <- <-] | []]]]]; [apply Skip; congruence|apply Move..].
          -- eexists _, _. split; [reflexivity|]. split; [reflexivity|]. split; [exact I2|].
             cbn [gp_iter gp_candidate_start]. intros i l1 HD. exists ((o, v) :: l1).
             split; [constructor; exact HD|]. cbn [MapIter.glist]. rewrite E1, E2. reflexivity.
        * destruct (IH (r_end o) I2) as (J1 & o' & g' & J2 & J3 & J4 & J5).
          destruct (gph_loop cmp l (mkGaps (r_end o) qend l)) as [t x]. cbn [fst snd] in *. subst x. split.
          -- intros u g1 [E | [[= <- <-] | Hin]]; [apply Skip; congruence|apply Move|].
             destruct (J1 u g1 Hin) as (A1 & A2 & di & x & A3 & A4 & A5).
             split; [exact A1|]. split; [exact A2|]. exists di, x. split; [exact A3|]. split; [exact A4|].
             intros i l1 HD. destruct (A5 i l1 HD) as (l' & B1 & B2). exists ((o, v) :: l').
             split; [constructor; exact B1|]. cbn [MapIter.glist]. rewrite E1, E2. exact B2.
          -- exists o', g'. split; [reflexivity|]. split; [exact J3|]. split; [exact J4|].
             intros i l1 HD. destruct (J5 i l1 HD) as (l' & B1 & B2). exists ((o, v) :: l').
             split; [constructor; exact B1|]. cbn [MapIter.glist]. rewrite E1, E2. exact B2.
  Qed.

  Lemma gph_tail cand qend l : ginv (mkGaps cand qend l) ->
    (forall e, In e l -> leb qend (r_start (fst e)) = true) -> ltb cand qend = true -> ginv (mkGaps qend qend l).
  Proof.
    intros [HW Hc] Hb E. split; [exact HW|]. cbn [gp_iter gp_candidate_start] in *. intros e He.
    pose proof (proj2 HW e He) as Hv. specialize (Hb e He). cbn in Hv. ord.
  Qed.

  Lemma gaps_halts m outer cuts : WF m ->
    exists g, rm_gaps cmp m outer = Ret g /\
    exists i kept gs j gs', drops i m kept /\ gaps_of cmp (lk kept) outer gs /\ drops j gs gs' /\
      i <= length (filter is_cmp (panics (halt_run (fun _ : unit => gph_next cmp) cuts g))) /\
      i + j <= length (panics (halt_run (fun _ : unit => gph_next cmp) cuts g)) /\
      map snd (completed (halt_run (fun _ : unit => gph_next cmp) cuts g)) =
      map Ret (yields (length (completed (halt_run (fun _ : unit => gph_next cmp) cuts g))) gs').
  Proof.
    intros HW. destruct (gaps_iter_ok HO m outer HW) as (g & L & N & E & -> & HL & HN & HG).
    exists g. split; [exact E|].
    assert (Eg : g = mkGaps (r_start outer) (r_end outer) N).
    { destruct (overlapping_split HO (L ++ N) outer HW) as (L1 & N1 & E1 & HL1 & HN1 & HR1).
      unfold rm_gaps, omap in E. rewrite HR1 in E. cbn in E. injection E as <-. f_equal.
      pose proof (gp_query_end (mkGaps (r_start outer) (r_end outer) N1)) as _.
      clear - HO E1 HL HN HL1 HN1. revert L1 E1 HL1. induction L as [|a L IH]; intros L1 E1 HL1.
      - destruct L1 as [|b L1]; [symmetry; exact E1|]. cbn in E1. subst N. exfalso.
        specialize (HN b (or_introl eq_refl)). specialize (HL1 b (or_introl eq_refl)). ord.
      - destruct L1 as [|b L1].
        + cbn in E1. subst N1. exfalso. specialize (HN1 a (or_introl eq_refl)).
          specialize (HL a (or_introl eq_refl)). ord.
        + cbn in E1. injection E1 as -> E1. apply (IH (fun x Hx => HL x (or_intror Hx)) L1 E1).
          intros x Hx. apply HL1. right; exact Hx. }
    destruct (walk_halts (gph_next cmp) (@gp_iter K V) gswap grest ginv) with (cuts := cuts) (s := g)
      as (i & l & j & gs & H1 & H2 & H3 & H4 & H5).
    - intros [c q l]. reflexivity.
    - intros [cand qend l] HI. destruct (gph_loop_ok qend l cand HI) as (_ & o & g' & J2 & J3 & J4 & J5).
      rewrite gph_next_eq. destruct (gph_loop cmp l (mkGaps cand qend l)) as [t x]. cbn [snd] in J2. subst x.
      destruct g' as [c q l']. cbn in J3. subst q. cbn [gp_candidate_start gp_query_end gp_iter] in *.
      destruct o as [a|].
      + exists (Some a). cbn [fst snd]. split; [reflexivity|]. split; [exact J4|exact J5].
      + destruct (ltb c qend) eqn:Ec.
        * exists (Some (mkR c qend)). cbn [fst snd]. split; [reflexivity|].
          destruct (J5 0 l' (drops_refl _)) as (_ & _ & Hb & _).
          split; [apply (gph_tail c); assumption|]. cbn [gp_iter]. intros i l1 HD.
          destruct (J5 i l1 HD) as (l2 & B1 & B2 & B3). exists l2. split; [exact B1|].
          unfold grest, gswap. cbn [gp_candidate_start gp_query_end gp_iter]. rewrite B3. f_equal.
          rewrite glist_beyond by exact B2. assert (X : ltb qend qend = false) by ord. rewrite X. reflexivity.
        * exists None. cbn [fst snd]. split; [reflexivity|]. split; [exact J4|]. cbn [gp_iter]. intros i l1 HD.
          destruct (J5 i l1 HD) as (l2 & B1 & B2 & B3). exists l2. split; [exact B1|].
          unfold grest, gswap. cbn [gp_candidate_start gp_query_end gp_iter]. rewrite B3. split; [reflexivity|].
          rewrite glist_beyond by exact B2. rewrite Ec. reflexivity.
    - intros [cand qend l] u g' HI Hin. destruct (gph_loop_ok qend l cand HI) as (J1 & o & g1 & J2 & J3 & J4 & J5).
      rewrite gph_next_eq in Hin. destruct (gph_loop cmp l (mkGaps cand qend l)) as [t x]. cbn [fst snd] in *. subst x.
      assert (Loop : In (u, g') t -> ginv g' /\
        exists di x, di + length x <= 1 /\ di <= length (filter is_cmp [u]) /\
        forall i l1, drops i (gp_iter g') l1 -> exists l', drops (di + i) l l' /\
          grest (gswap (mkGaps cand qend l) l') = x ++ grest (gswap g' l1)).
      { intros Ht. destruct (J1 u g' Ht) as (_ & A2 & A3). auto. }
      destruct o as [a|]; [apply Loop, Hin|].
      assert (Tail : g' = g1 -> ginv g' /\
        exists di x, di + length x <= 1 /\ di <= length (filter is_cmp [u]) /\
        forall i l1, drops i (gp_iter g') l1 -> exists l', drops (di + i) l l' /\
          grest (gswap (mkGaps cand qend l) l') = x ++ grest (gswap g' l1)).
      { intros ->. split; [exact J4|]. exists 0, []. cbn [length]. split; [lia|]. split; [lia|].
        intros i l1 HD. destruct (J5 i l1 HD) as (l2 & B1 & B2 & B3). exists l2. split; [exact B1|].
        unfold grest, gswap. cbn [gp_candidate_start gp_query_end gp_iter]. rewrite B3, J3. cbn [app].
        rewrite glist_beyond by exact B2. reflexivity. }
      destruct (ltb (gp_candidate_start g1) (gp_query_end g1)); cbn [fst] in Hin; apply in_app_or in Hin as [Hin|Hin];
        [apply Loop, Hin| |apply Loop, Hin|].
      + destruct Hin as [[= _ <-] | [[= _ <-] | [[= _ <-] | []]]]; apply Tail; reflexivity.
      + destruct Hin as [[= _ <-] | []]; apply Tail; reflexivity.
    - destruct HG as (G1 & G2 & _). split; [exact G1|exact G2].
    - subst g. cbn [gp_iter] in H1. exists i, (L ++ l), (glist (r_start outer) (r_end outer) l), j, gs.
      assert (HD : drops i (L ++ N) (L ++ l)) by (apply (drops_app L L N l 0 i); [apply drops_refl|exact H1]).
      split; [exact HD|]. split.
      + apply (glist_gaps_of HO (veqb := veqb)); [eapply drops_WF; eassumption|exact HL|].
        intros b Hb. apply HN. eapply drops_In; eauto.
      + splits; assumption.
  Qed.
End Half.
