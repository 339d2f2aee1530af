(** Facts shared by the two kinds of set: a set history is a map history with
    unit values. *)
From Coq Require Import List Bool.
From Verif Require Import Order Outcome Ranges History Spec BTree IterFacts SetModel.
Import ListNotations.

Lemma unit_per : PartialEquiv unit_eqb.
Proof. split; reflexivity. Qed.
Lemma unit_order : TotalOrd unit_cmp.
Proof. split; intros; unfold unit_cmp in *; auto. Qed.

Definition to_op {R} (o : sop R) : op R unit :=
  match o with
  | SInsert r => OInsert r tt
  | SRemove r => ORemove r
  | SClear => OClear
  | SExtend l => OExtend (map (fun r => (r, tt)) l)
  end.
Definition to_ops {R} (ops : list (sop R)) : list (op R unit) := map to_op ops.
Definition opt_of (b : bool) : option unit := if b then Some tt else None.

Section Mem.
  Context {K R : Type} (valid : R -> bool) (covers : R -> K -> bool).

  Lemma put_all_add l : forall (f : K -> bool) (g : K -> option unit),
    (forall k, g k = opt_of (f k)) ->
    forall k, put_all valid covers (map (fun r => (r, tt)) l) g k = opt_of (add_all valid covers l f k).
  Proof.
    induction l as [|r l IH]; intros f g H k; cbn; [apply H|].
    destruct (valid r); [|apply H]. apply IH. intros k'. unfold put. rewrite H.
    destruct (covers r k'); reflexivity.
  Qed.
  Lemma spec_mem ops k :
    spec_run valid covers (to_ops ops) k = opt_of (mem_run valid covers ops k).
  Proof.
    unfold spec_run, mem_run, to_ops. generalize (fun _ : K => @eq_refl (option unit) None).
    change (forall k : K, None = None) with (forall k : K, (fun _ : K => @None unit) k = opt_of ((fun _ => false) k)).
    generalize (fun _ : K => @None unit) (fun _ : K => false). revert k.
    induction ops as [|o ops IH]; intros k g f H; cbn; [apply H|]. apply IH. clear k. intros k.
    destruct o as [r|r| |l]; cbn.
    - destruct (valid r); [|apply H]. unfold put. rewrite H. destruct (covers r k); reflexivity.
    - destruct (valid r); [|apply H]. unfold del. rewrite H. destruct (covers r k); reflexivity.
    - reflexivity.
    - apply put_all_add. exact H.
  Qed.
  Lemma same_opt_of a b : same_opt unit_eqb (opt_of a) (opt_of b) <-> a = b.
  Proof. destruct a, b; cbn; split; intros H; try tauto; try discriminate. left. reflexivity. Qed.
  Lemma mem_inserts l : forallb valid l = true ->
    forall k, mem_run valid covers (map SInsert l) k = existsb (fun r => covers r k) l.
  Proof.
    intros H k. unfold mem_run.
    assert (G : forall f, fold_left (mem_op valid covers) (map SInsert l) f k =
                          existsb (fun r => covers r k) l || f k); [|rewrite G, orb_false_r; reflexivity].
    induction l as [|r l IH]; intros f; [reflexivity|]. cbn in H. apply andb_prop in H as [H1 H2].
    cbn. rewrite H1, (IH H2), orb_assoc. f_equal. apply orb_comm.
  Qed.
  Lemma existsb_cov l (f : K -> bool) k :
    ((exists r, In r l /\ covers r k = true) <-> f k = true) -> existsb (fun r => covers r k) l = f k.
  Proof.
    intros H. destruct (f k).
    - apply existsb_exists, H. reflexivity.
    - destruct (existsb _ l) eqn:E; [|reflexivity]. apply existsb_exists in E.
      apply H in E. discriminate.
  Qed.
  Lemma mem_snoc ops o : mem_run valid covers (ops ++ [o]) = mem_op valid covers (mem_run valid covers ops) o.
  Proof. unfold mem_run. rewrite fold_left_app. reflexivity. Qed.
  Lemma to_ops_app a b : to_ops (R := R) (a ++ b) = to_ops a ++ to_ops b.
  Proof. apply map_app. Qed.
  Lemma to_ops_inserts (l : list R) :
    to_ops (map SInsert l) = map (fun e : R * unit => OInsert (fst e) (snd e)) (map (fun r => (r, tt)) l).
  Proof. unfold to_ops. rewrite !map_map. reflexivity. Qed.
End Mem.

Lemma fresh_to_ops {K} (ops : list (sop (rangei K))) : fresh_sops ops -> fresh_ops (to_ops ops).
Proof.
  unfold fresh_sops, fresh_ops, to_ops. intros H. rewrite forallb_forall in *. intros o Ho.
  apply in_map_iff in Ho as (so & <- & Hin). specialize (H _ Hin).
  destruct so as [r|r| |l]; cbn in *; auto.
  rewrite forallb_forall in *. intros e He. apply in_map_iff in He as (r & <- & Hr). cbn. auto.
Qed.

(** Extensional equality of the loops *)
Lemma for_each_map {S A B} (g : A -> B) (f : B -> M S unit) (f' : A -> M S unit) :
  (forall a s, f' a s = f (g a) s) ->
  forall l s, for_each f' l s = for_each f (map g l) s.
Proof.
  intros H l. induction l as [|a l IH]; intros s; [reflexivity|]. cbn. unfold bind. rewrite H.
  destruct (f (g a) s) as [[u|p|] s']; auto.
Qed.
Lemma run_ops_map {S O O'} (g : O -> O') (exec : O' -> M S unit) (exec' : O -> M S unit) :
  (forall o s, exec' o s = exec (g o) s) ->
  forall ops s, run_ops exec' ops s = run_ops exec (map g ops) s.
Proof.
  intros H ops. induction ops as [|o ops IH]; intros s; [reflexivity|].
  unfold run_ops in *. cbn. rewrite H. apply IH.
Qed.

(** Iterators with the value projected away *)
Lemma sched_map {S A A' B} (f : A -> A') (step : side -> S -> option A * S) (step' : side -> S -> option A' * S)
    (obs : S -> B) :
  (forall d s, step' d s = (option_map f (fst (step d s)), snd (step d s))) ->
  forall sched s, sched_trace step' obs sched s =
    map (fun x => (option_map f (fst x), snd x)) (sched_trace step obs sched s).
Proof.
  intros H sched. induction sched as [|d sched IH]; intros s; [reflexivity|].
  cbn. rewrite H. destruct (step d s) as [o s']. cbn. rewrite IH. reflexivity.
Qed.
Lemma map_removelast {A B} (f : A -> B) l : map f (removelast l) = removelast (map f l).
Proof.
  induction l as [|a [|b l] IH]; [reflexivity|reflexivity|].
  change (f a :: map f (removelast (b :: l)) = removelast (f a :: f b :: map f l)).
  rewrite IH. reflexivity.
Qed.
Lemma map_last {A B} (f : A -> B) l d : f (last l d) = last (map f l) (f d).
Proof.
  induction l as [|a [|b l] IH]; [reflexivity|reflexivity|].
  change (f (last (b :: l) d) = last (map f (b :: l)) (f d)). exact IH.
Qed.
Lemma deque_map {A B} (f : A -> B) sched : forall l,
  deque_run sched (map f l) = map (option_map f) (deque_run sched l).
Proof.
  unfold deque_run. induction sched as [|d sched IH]; intros l; [reflexivity|].
  cbn [sched_trace].
  assert (E : deque_step d (map f l) = (option_map f (fst (deque_step d l)), map f (snd (deque_step d l)))).
  { destruct l as [|a l]; [reflexivity|]. destruct d; [reflexivity|].
    unfold deque_step. cbn [map fst snd]. rewrite map_removelast. cbn [option_map].
    f_equal. f_equal. change (last (map f (a :: l)) (f a) = f (last (a :: l) a)). symmetry. apply map_last. }
  rewrite E. destruct (deque_step d l) as [o l']. cbn. rewrite IH. reflexivity.
Qed.
Lemma filter_map {A B} (f : A -> B) (p : B -> bool) l :
  filter p (map f l) = map f (filter (fun a => p (f a)) l).
Proof. induction l as [|a l IH]; [reflexivity|]. cbn. rewrite IH. destruct (p (f a)); reflexivity. Qed.
Lemma SS_map {A B} (f : A -> B) (P : B -> B -> Prop) l :
  Sorted.StronglySorted (fun a b => P (f a) (f b)) l -> Sorted.StronglySorted P (map f l).
Proof.
  induction 1 as [|a l H IH HF]; cbn; constructor; auto. apply Forall_map. exact HF.
Qed.
Lemma mem_op_ext {K R} (valid : R -> bool) (covers : R -> K -> bool) o : forall f g,
  (forall k, f k = g k) -> forall k, mem_op valid covers f o k = mem_op valid covers g o k.
Proof.
  destruct o as [r|r| |l]; cbn; intros f g H k; try (destruct (valid r); rewrite H; reflexivity); [reflexivity|].
  revert f g H k. induction l as [|r l IH]; intros f g H k; cbn; [apply H|].
  destruct (valid r); [|apply H]. apply IH. intros k'. rewrite H. reflexivity.
Qed.

(** The map iterators with a projection [f] *)
Lemma iter_schedule_map {A B} (f : A -> B) (l : list A) sched :
  sched_trace (both (fun i => let (o, i') := it_next i in (option_map f o, i'))
                    (fun i => let (o, i') := it_next_back i in (option_map f o, i')))
              it_size_hint sched l =
  sched_trace deque_step (fun r => (length r, Some (length r))) sched (map f l).
Proof.
  apply (sched_trace_sim (fun l r => r = map f l)); [|intros s t ->; rewrite map_length; reflexivity|reflexivity].
  intros d s t ->. pose proof (it_deque d s) as F.
  assert (E : deque_step d (map f s) = (option_map f (fst (deque_step d s)), map f (snd (deque_step d s)))).
  { destruct s as [|a s]; [reflexivity|]. destruct d; [reflexivity|].
    unfold deque_step. cbn [map fst snd]. rewrite map_removelast. cbn [option_map].
    f_equal. f_equal. change (last (map f (a :: s)) (f a) = f (last (a :: s) a)). symmetry. apply map_last. }
  rewrite E. destruct d; cbn [both] in *.
  - destruct (it_next s) as [o i']. rewrite <- F. auto.
  - destruct (it_next_back s) as [o i']. rewrite <- F. auto.
Qed.
