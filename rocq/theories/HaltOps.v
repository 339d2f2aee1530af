(** Interrupted unions and intersections. *)
From Coq Require Import List Bool Arith Lia Sorting.Sorted.
From Verif Require Import Order Outcome Ranges History Spec SpecOps SpecHalt ListLemmas IterFacts OpsModel OpsProofs
  OpsAny HaltModel HaltFacts SetModel ISetModel Cuts.
Import ListNotations.

(** ** [deals] *)
Lemma deals_all {A} (l : list A) : deals l l [].
Proof. induction l; constructor; assumption. Qed.
Lemma deals_lost {A} (l : list A) : deals l [] l.
Proof. induction l; constructor; assumption. Qed.
Lemma deals_app {A} (l l' k k' d d' : list A) : deals l k d -> deals l' k' d' -> deals (l ++ l') (k ++ k') (d ++ d').
Proof. intros H1 H2. induction H1; cbn; [exact H2|constructor; assumption|constructor; assumption]. Qed.
Lemma deals_In {A} (l k d : list A) : deals l k d -> forall x, In x l <-> In x k \/ In x d.
Proof. induction 1 as [|a l k d H IH|a l k d H IH]; intros x; cbn; [tauto| |]; rewrite IH; tauto. Qed.
Lemma deals_nil_inv {A} (k d : list A) : deals [] k d -> k = [] /\ d = [].
Proof. intros H. inversion H; auto. Qed.
Lemma deals_drops {A} (l k d : list A) : deals l k d -> drops (length d) l k.
Proof. induction 1; cbn; constructor; assumption. Qed.
Lemma deals_len {A} (l k d : list A) : deals l k d -> length l = length k + length d.
Proof. induction 1; cbn; lia. Qed.

(** ** Forgetting the record *)
Definition er {S A} (c : H S A) : M S A := fun s => snd (c s).
Lemma er_bind {S A B} (c : H S A) (f : A -> H S B) s : snd (hbind c f s) = bind (er c) (fun a => er (f a)) s.
Proof. unfold hbind, bind, er. destruct (c s) as [t [[a|p|] s']]; cbn; [destruct (f a s'); reflexivity|reflexivity..]. Qed.
Lemma bind_same {S A B} (c c' : M S A) (f f' : A -> M S B) s : c s = c' s -> (forall a s', f a s' = f' a s') -> bind c f s = bind c' f' s.
Proof. intros H1 H2. unfold bind. rewrite H1. destruct (c' s) as [[a|p|] s']; auto. Qed.
Lemma users_bind {S A} us (c : H S A) s : snd (hbind (users us) (fun _ => c) s) = snd (c s).
Proof. unfold hbind, users. destruct (c s). reflexivity. Qed.

Section Erase.
  Context {R I : Type} (inext : I -> option R * I) (ilen : I -> nat).
  Context (order_start order_end : R -> R -> comparison).
  Context (merge : R -> R -> bool * R) (intersect : R -> R -> option R).
  Context (ccalls : R -> list ucall) (scalls ecalls mcalls icalls : R -> R -> list ucall).

  Lemma unh_join_erase peek next range u :
    snd (unh_join merge mcalls peek next range u) = @un_join R I merge peek next range u.
  Proof.
    unfold unh_join, un_join. rewrite er_bind. apply bind_same; [reflexivity|]. intros [x|] s; [|reflexivity].
    unfold er. rewrite users_bind. destruct (merge range x) as [[|] rg]; [|reflexivity].
    rewrite er_bind. apply bind_same; reflexivity.
  Qed.
  Lemma unh_loop_erase fuel : forall range u,
    snd (unh_loop inext merge mcalls fuel range u) = un_loop inext merge fuel range u.
  Proof.
    induction fuel as [|fuel IH]; intros range u; [reflexivity|]. cbn [unh_loop un_loop]. rewrite er_bind.
    apply bind_same; [apply unh_join_erase|]. intros [b rg] s. unfold er. cbn [fst snd]. destruct b; [apply IH|].
    rewrite er_bind. apply bind_same; [apply unh_join_erase|]. intros [b' rg'] s'. unfold er. cbn [fst snd].
    destruct b'; [apply IH|reflexivity].
  Qed.
  Lemma unh_next_erase u :
    snd (unh_next inext ilen order_start merge ccalls scalls mcalls u) = un_next inext ilen order_start merge u.
  Proof.
    unfold unh_next, un_next. rewrite er_bind. apply bind_same; [reflexivity|]. intros l s1. unfold er at 1.
    rewrite er_bind. apply bind_same; [reflexivity|]. intros r s2. unfold er at 1. rewrite er_bind. apply bind_same.
    - assert (X : forall (nx : M (pair_iter R I) (option R)) s,
        er (o <- hcalm nx ;; r <- hcalm (unwrap o) ;; hret (Some r))%H s = (o <- nx ;; r <- unwrap o ;; ret (Some r))%M s).
      { intros nx s. unfold er at 1. rewrite er_bind. apply bind_same; [reflexivity|]. intros o s'. unfold er at 1.
        rewrite er_bind. apply bind_same; reflexivity. }
      destruct l as [a|], r as [b|]; [|apply X|apply X|reflexivity].
      unfold er at 1. rewrite users_bind. destruct (order_start a b); apply X.
    - intros [range|] s3; [|reflexivity]. unfold er. rewrite users_bind, er_bind. apply bind_same; [reflexivity|].
      intros v s4. unfold er at 1. rewrite er_bind. apply bind_same; [apply unh_loop_erase|reflexivity].
  Qed.
  Lemma inh_loop_erase fuel : forall u,
    snd (inh_loop inext order_end intersect ecalls icalls fuel u) = in_loop inext order_end intersect fuel u.
  Proof.
    induction fuel as [|fuel IH]; intros u; [reflexivity|]. cbn [inh_loop in_loop]. rewrite er_bind.
    apply bind_same; [reflexivity|]. intros l s1. unfold er at 1. rewrite er_bind. apply bind_same; [reflexivity|].
    intros r s2. unfold er. destruct l as [a|], r as [b|]; try reflexivity. rewrite !users_bind, er_bind.
    apply bind_same; [destruct (order_end a b); reflexivity|]. intros _ s3. unfold er.
    destruct (intersect a b); [reflexivity|apply IH].
  Qed.
  Lemma inh_next_erase u :
    snd (inh_next inext ilen order_end intersect ecalls icalls u) = in_next inext ilen order_end intersect u.
  Proof.
    unfold inh_next, in_next. rewrite er_bind. apply bind_same; [reflexivity|]. intros v s. apply inh_loop_erase.
  Qed.
End Erase.

(** ** An iterator from which interruptions take nothing away *)
Section Line.
  Context {S A : Type} (next : H S (option A)) (Inv : S -> list A -> Prop).
  Context (Hdone : forall s l, Inv s l -> fst (snd (next s)) = Ret (hd_error l) /\ Inv (snd (snd (next s))) (tl l)).
  Context (Hhalt : forall s l u s', Inv s l -> In (u, s') (fst (next s)) -> Inv s' l).
  Lemma yields_step {B} n (l : list B) : yields (Datatypes.S n) l = hd_error l :: yields n (tl l).
  Proof. destruct l; [cbn [tl]; rewrite !yields_nil; reflexivity|apply yields_cons]. Qed.
  Lemma line_halts : forall cuts s l, Inv s l ->
    map snd (completed (halt_run (fun _ : unit => next) cuts s)) =
    map Ret (yields (length (completed (halt_run (fun _ : unit => next) cuts s))) l).
  Proof.
    induction cuts as [|[[] cut] cuts IH]; intros s l HI; [reflexivity|]. cbn [halt_run].
    destruct (halting next cut s) as [e s'] eqn:E. apply halting_cases in E as [[-> ->]|(u & -> & Hin)].
    - destruct (Hdone s l HI) as [H1 H2]. cbn [completed map snd length]. rewrite yields_step, H1. cbn [map].
      f_equal. apply IH. exact H2.
    - cbn [completed]. apply IH. eapply Hhalt; eassumption.
  Qed.
  Lemma line_calm n : forall s l, Inv s l -> nexts_m (er next) n s = map Ret (yields n l).
  Proof.
    induction n as [|n IH]; intros s l HI; [reflexivity|]. destruct (Hdone s l HI) as [H1 H2].
    cbn [nexts_m]. rewrite yields_step. unfold er at 1. destruct (next s) as [t [o s']]. cbn [fst snd] in *. subst o.
    cbn [map]. f_equal. apply IH. exact H2.
  Qed.
End Line.

(** ** Over iterators that supply two lists *)
Section Calm.
  Context {R I : Type} (inext : I -> option R * I).
  Notation has u l r := (hu inext (fun _ => 0) u l r 0 0).
  Lemma zero_cnt : forall i : I, (fun _ : I => 0) (snd (inext i)) <= Datatypes.S ((fun _ : I => 0) i).
  Proof. intros i. lia. Qed.
  Lemma has_any u l r n m : hu inext (fun _ => 0) u l r n m -> has u l r.
  Proof.
    assert (X : forall p x y, holds inext (fun _ => 0) p x y -> holds inext (fun _ => 0) p x 0).
    { unfold holds. intros p x y. destruct (pk_peeked p) as [[a|]|]; intros [H1 _]; (split; [exact H1|lia]). }
    intros [H1 H2]. split; eapply X; eassumption.
  Qed.
  Lemma has_pl u l r : has u l r -> exists u', peek_left inext u = (Ret (hd_error l), u') /\ has u' l r.
  Proof. exact (pl_holds inext _ zero_cnt u l r 0 0). Qed.
  Lemma has_pr u l r : has u l r -> exists u', peek_right inext u = (Ret (hd_error r), u') /\ has u' l r.
  Proof. exact (pr_holds inext _ zero_cnt u l r 0 0). Qed.
  Lemma has_nl u a l r : has u (a :: l) r -> exists u', next_left inext u = (Ret (Some a), u') /\ has u' l r.
  Proof.
    intros Hu. destruct (nl_holds inext _ zero_cnt u a l r 0 0 Hu) as (u' & H1 & H2). exists u'. split; [exact H1|].
    eapply has_any; exact H2.
  Qed.
  Lemma has_nr u b l r : has u l (b :: r) -> exists u', next_right inext u = (Ret (Some b), u') /\ has u' l r.
  Proof.
    intros Hu. destruct (nr_holds inext _ zero_cnt u b l r 0 0 Hu) as (u' & H1 & H2). exists u'. split; [exact H1|].
    eapply has_any; exact H2.
  Qed.
End Calm.

(** ** [Intersection]: nothing is lost *)
Section Inter.
  Context {R I : Type} (inext : I -> option R * I) (ilen : I -> nat) (N : nat).
  Context (Hfill : forall i l, supplies inext i l -> length l <= N -> length l <= ilen i).
  Context (order_end : R -> R -> comparison) (intersect : R -> R -> option R).
  Context (ecalls icalls : R -> R -> list ucall).
  Notation has u l r := (hu inext (fun _ => 0) u l r 0 0).
  Notation inh := (inh_next inext ilen order_end intersect ecalls icalls).

  (** what a call does to the two lists *)
  Definition popped (a b : R) (l r : list R) : list R * list R :=
    match order_end a b with Lt => (l, b :: r) | _ => (a :: l, r) end.
  Inductive istep : list R -> list R -> option R -> list R -> list R -> Prop :=
  | istep_end l r : l = [] \/ r = [] -> istep l r None l r
  | istep_hit a b l r q : intersect a b = Some q ->
      istep (a :: l) (b :: r) (Some q) (fst (popped a b l r)) (snd (popped a b l r))
  | istep_miss a b l r o l' r' : intersect a b = None ->
      istep (fst (popped a b l r)) (snd (popped a b l r)) o l' r' -> istep (a :: l) (b :: r) o l' r'.
  Inductive iruns : list R -> list R -> list R -> Prop :=
  | iruns_done l r l' r' : istep l r None l' r' -> iruns l r []
  | iruns_more l r q l' r' us : istep l r (Some q) l' r' -> iruns l' r' us -> iruns l r (q :: us).

  Lemma popped_len a b l r : length (fst (popped a b l r)) + length (snd (popped a b l r)) = length l + length r + 1.
  Proof. unfold popped. destruct (order_end a b); cbn; lia. Qed.
  Lemma istep_det l r o l' r' : istep l r o l' r' -> forall o2 l2 r2, istep l r o2 l2 r2 -> o2 = o /\ l2 = l' /\ r2 = r'.
  Proof.
    induction 1 as [l r HE|a b l r q HQ|a b l r o l' r' HQ HS IH]; intros o2 l2 r2 H2.
    - inversion H2; subst; [auto|destruct HE; discriminate..].
    - inversion H2; subst.
      + match goal with X : _ \/ _ |- _ => destruct X; discriminate end.
      + split; [congruence|auto].
      + congruence.
    - inversion H2; subst.
      + match goal with X : _ \/ _ |- _ => destruct X; discriminate end.
      + congruence.
      + apply IH. assumption.
  Qed.
  Lemma istep_len l r o l' r' : istep l r o l' r' -> length l' + length r' + (match o with Some _ => 1 | None => 0 end) <= length l + length r.
  Proof.
    induction 1 as [l r HE|a b l r q HQ|a b l r o l' r' HQ HS IH]; cbn [length]; [lia| |];
      pose proof (popped_len a b l r); lia.
  Qed.
  Lemma istep_none l r l' r' : istep l r None l' r' -> istep l' r' None l' r'.
  Proof.
    remember None as o eqn:Eo. induction 1 as [l r HE|a b l r q HQ|a b l r o l' r' HQ HS IH]; [constructor; exact HE|discriminate|auto].
  Qed.
  Lemma istep_total : forall n l r, length l + length r <= n -> exists o l' r', istep l r o l' r'.
  Proof.
    induction n as [|n IH]; intros [|a l] [|b r] Hn; cbn in Hn;
      try (eexists _, _, _; constructor; auto; fail); try lia.
    destruct (intersect a b) as [q|] eqn:E.
    - eexists _, _, _. apply istep_hit. exact E.
    - destruct (IH (fst (popped a b l r)) (snd (popped a b l r))) as (o & l' & r' & H); [rewrite popped_len; lia|].
      exists o, l', r'. eapply istep_miss; eassumption.
  Qed.
  Lemma iruns_total : forall n l r, length l + length r <= n -> exists us, iruns l r us.
  Proof.
    induction n as [|n IH]; intros l r Hn; destruct (istep_total _ l r (le_n _)) as ([q|] & l' & r' & H).
    - apply istep_len in H. lia.
    - eexists. eapply iruns_done; exact H.
    - destruct (IH l' r') as (us & Hus); [apply istep_len in H; lia|]. eexists. eapply iruns_more; eassumption.
    - eexists. eapply iruns_done; exact H.
  Qed.

  Lemma has_pop u a b l r : has u (a :: l) (b :: r) ->
    exists x u', (match order_end a b with Lt => next_left inext | _ => next_right inext end) u = (Ret x, u') /\
      has u' (fst (popped a b l r)) (snd (popped a b l r)).
  Proof.
    intros Hu. unfold popped. destruct (order_end a b); cbn [fst snd].
    - destruct (has_nr inext _ _ _ _ Hu) as (u' & -> & H'). eauto.
    - destruct (has_nl inext _ _ _ _ Hu) as (u' & -> & H'). eauto.
    - destruct (has_nr inext _ _ _ _ Hu) as (u' & -> & H'). eauto.
  Qed.
  Lemma inh_loop_eq fuel u u1 u2 l r : peek_left inext u = (Ret l, u1) -> peek_right inext u1 = (Ret r, u2) ->
    inh_loop inext order_end intersect ecalls icalls (S fuel) u =
    match l, r with
    | Some a, Some b =>
        let pre := map (fun c => (c, u2)) (icalls a b) ++ map (fun c => (c, u2)) (ecalls a b) in
        match (match order_end a b with Lt => next_left inext | _ => next_right inext end) u2 with
        | (Ret _, u3) =>
            match intersect a b with
            | Some q => (pre, (Ret (Some q), u3))
            | None => let (t, x) := inh_loop inext order_end intersect ecalls icalls fuel u3 in (pre ++ t, x)
            end
        | (Panicked p, u3) => (pre, (Panicked p, u3))
        | (OutOfFuel, u3) => (pre, (OutOfFuel, u3))
        end
    | _, _ => ([], (Ret None, u2))
    end.
  Proof.
    intros H1 H2. cbn [inh_loop]. unfold hbind, hcalm, users, hret. rewrite H1, H2.
    destruct l as [a|], r as [b|]; try reflexivity. cbv zeta.
    destruct (order_end a b);
      [destruct (next_right inext u2) as [[x|p|] u3]|destruct (next_left inext u2) as [[x|p|] u3]
      |destruct (next_right inext u2) as [[x|p|] u3]]; cbn -[inh_loop]; rewrite ?app_nil_r; try reflexivity;
      (destruct (intersect a b); [cbn; rewrite ?app_nil_r; reflexivity|]);
      destruct (inh_loop inext order_end intersect ecalls icalls fuel u3); cbn; rewrite app_assoc; reflexivity.
  Qed.
  Lemma inh_loop_ok : forall fuel u l r, has u l r -> length l + length r < fuel ->
    (exists o u' l' r', snd (inh_loop inext order_end intersect ecalls icalls fuel u) = (Ret o, u') /\ has u' l' r' /\ istep l r o l' r') /\
    forall c s', In (c, s') (fst (inh_loop inext order_end intersect ecalls icalls fuel u)) ->
      exists l1 r1, has s' l1 r1 /\ length l1 + length r1 <= length l + length r /\
        forall o l' r', istep l r o l' r' -> istep l1 r1 o l' r'.
  Proof.
    induction fuel as [|fuel IH]; intros u l r Hu Hf; [lia|].
    destruct (has_pl inext _ _ _ Hu) as (u1 & P1 & U1). destruct (has_pr inext _ _ _ U1) as (u2 & P2 & U2).
    rewrite (inh_loop_eq fuel u u1 u2 _ _ P1 P2).
    destruct l as [|a l], r as [|b r]; cbn [hd_error];
      try (split; [exists None, u2; eexists _, _; split; [reflexivity|]; split; [exact U2|constructor; auto]|intros c s' []]).
    destruct (has_pop u2 a b l r U2) as (x & u3 & P3 & U3). cbv zeta. rewrite P3.
    assert (Pre : forall c s', In (c, s') (map (fun c => (c, u2)) (icalls a b) ++ map (fun c => (c, u2)) (ecalls a b)) ->
      exists l1 r1, has s' l1 r1 /\ length l1 + length r1 <= length (a :: l) + length (b :: r) /\
        forall o l' r', istep (a :: l) (b :: r) o l' r' -> istep l1 r1 o l' r').
    { intros c s' Hin. assert (s' = u2) as ->.
      { apply in_app_or in Hin as [Hin|Hin]; apply in_map_iff in Hin as (c' & [= _ <-] & _); reflexivity. }
      exists (a :: l), (b :: r). auto. }
    destruct (intersect a b) as [q|] eqn:Eq.
    - split; [|exact Pre]. exists (Some q), u3. eexists _, _. split; [reflexivity|]. split; [exact U3|constructor; exact Eq].
    - pose proof (popped_len a b l r) as HP.
      destruct (IH u3 (fst (popped a b l r)) (snd (popped a b l r)) U3) as [(o & u' & l' & r' & E & U' & HS) Hrec];
        [cbn [length] in Hf; lia|].
      destruct (inh_loop inext order_end intersect ecalls icalls fuel u3) as [t y]. cbn [fst snd] in *. split.
      + exists o, u', l', r'. split; [exact E|]. split; [exact U'|]. eapply istep_miss; eassumption.
      + intros c s' Hin. apply in_app_or in Hin as [Hin|Hin]; [apply Pre with c, Hin|].
        destruct (Hrec c s' Hin) as (l1 & r1 & V1 & V2 & V3). exists l1, r1. split; [exact V1|]. split; [cbn [length]; lia|].
        intros o2 l2 r2 H2. apply V3. inversion H2; subst.
        * match goal with X : _ \/ _ |- _ => destruct X; discriminate end.
        * congruence.
        * assumption.
  Qed.

  Definition iinv (u : pair_iter R I) (us : list R) : Prop :=
    exists l r, has u l r /\ length l + length r <= N /\ iruns l r us.
  Lemma inh_eq u : inh u = inh_loop inext order_end intersect ecalls icalls (pk_len ilen (op_left u) + pk_len ilen (op_right u) + 1) u.
  Proof.
    unfold inh_next, hbind, hget. cbn.
    destruct (inh_loop inext order_end intersect ecalls icalls (pk_len ilen (op_left u) + pk_len ilen (op_right u) + 1) u)
      as [t [[a|p|] s]]; reflexivity.
  Qed.
  Lemma inh_both u us : iinv u us ->
    (fst (snd (inh u)) = Ret (hd_error us) /\ iinv (snd (snd (inh u))) (tl us)) /\
    (forall c s', In (c, s') (fst (inh u)) -> iinv s' us).
  Proof.
    intros (l & r & Hu & HN & HR). rewrite inh_eq.
    destruct (inh_loop_ok (pk_len ilen (op_left u) + pk_len ilen (op_right u) + 1) u l r Hu) as [(o & u' & l' & r' & E & U' & HS) Hrec].
    { pose proof (hu_fuel inext _ ilen N Hfill _ _ _ _ _ Hu HN). lia. }
    pose proof (istep_len _ _ _ _ _ HS) as HL. split.
    - rewrite E. cbn [fst snd]. inversion HR as [l0 r0 l2 r2 H2|l0 r0 q l2 r2 us' H2 HR2]; subst;
        destruct (istep_det _ _ _ _ _ HS _ _ _ H2) as (<- & -> & ->).
      + split; [reflexivity|]. exists l', r'. split; [exact U'|]. split; [lia|]. eapply iruns_done, istep_none; eassumption.
      + split; [reflexivity|]. exists l', r'. split; [exact U'|]. split; [cbn in HL; lia|exact HR2].
    - intros c s' Hin. destruct (Hrec c s' Hin) as (l1 & r1 & V1 & V2 & V3). exists l1, r1. split; [exact V1|]. split; [lia|].
      inversion HR; subst; [eapply iruns_done|eapply iruns_more]; eauto.
  Qed.

  Lemma inter_halts i j l r : supplies inext i l -> supplies inext j r -> length l + length r <= N ->
    exists us, (forall n, nexts_m (in_next inext ilen order_end intersect) n (op_new i j) = map Ret (yields n us)) /\
    forall cuts, map snd (completed (halt_run (fun _ : unit => inh) cuts (op_new i j))) =
                 map Ret (yields (length (completed (halt_run (fun _ : unit => inh) cuts (op_new i j)))) us).
  Proof.
    intros Hi Hj HN. destruct (iruns_total _ l r (le_n _)) as (us & HR). exists us.
    assert (HI : iinv (op_new i j) us).
    { exists l, r. split; [|auto]. apply (hu_new inext (fun _ => 0)); auto. }
    assert (Hd : forall s l, iinv s l -> fst (snd (inh s)) = Ret (hd_error l) /\ iinv (snd (snd (inh s))) (tl l))
      by (intros s0 l0 H0; apply (inh_both _ _ H0)).
    split.
    - intros n. rewrite <- (line_calm inh iinv Hd n _ _ HI). generalize (op_new (R := R) i j). clear.
      induction n as [|n IH]; intros u; [reflexivity|]. cbn [nexts_m]. unfold er. rewrite inh_next_erase.
      destruct (in_next inext ilen order_end intersect u). f_equal. apply IH.
    - intros cuts. apply (line_halts inh iinv Hd); [|exact HI]. intros s0 l0 c s1 H0. apply (inh_both _ _ H0).
  Qed.
End Inter.

(** ** [Union]: an interruption loses what the call has taken, a chain of
    overlapping ranges *)
Section Union.
  Context {R I P : Type} {c : P -> P -> comparison} (HO : TotalOrd c).
  Context {s e g : R -> P} {ok fin : R -> Prop}.
  Context {order_start order_end : R -> R -> comparison}.
  Context {merge : R -> R -> bool * R} {intersect : R -> R -> option R}.
  Context (HL : AnyLaws c s e g ok fin order_start order_end merge intersect).
  Context (inext : I -> option R * I) (ilen : I -> nat) (N : nat).
  Context (Hfill : forall i l, supplies inext i l -> length l <= N -> length l <= ilen i).
  Context (ccalls : R -> list ucall) (scalls mcalls : R -> R -> list ucall).
  Notation has u l r := (hu inext (fun _ => 0) u l r 0 0).
  Notation unh := (unh_next inext ilen order_start merge ccalls scalls mcalls).
  Notation loop := (unh_loop inext merge mcalls).
  Notation ltb := (ltb c).
  Notation leb := (leb c).
  Notation covs := (covs (c := c) (s := s) (e := e)).
  Notation ins := (ins (c := c) (s := s) (e := e)).
  Notation within := (within (c := c) (s := s) (e := e)).
  Notation starts := (StronglySorted (fun a b => leb (s a) (s b) = true)).
  Notation grown := (grown (c := c) (s := s) (e := e) (ok := ok)).
  Notation valid := (fun x => ltb (s x) (e x) = true).

  (** what is left when the loop is interrupted *)
  Lemma unh_join_eq peek next range (u : pair_iter R I) o u1 : peek u = (Ret o, u1) ->
    unh_join merge mcalls peek next range u =
    match o with
    | Some x =>
        let pre := map (fun a => (a, u1)) (mcalls range x) in
        if fst (merge range x)
        then match next u1 with
             | (Ret _, u2) => (pre, (Ret (true, snd (merge range x)), u2))
             | (Panicked p, u2) => (pre, (Panicked p, u2))
             | (OutOfFuel, u2) => (pre, (OutOfFuel, u2))
             end
        else (pre, (Ret (false, snd (merge range x)), u1))
    | None => ([], (Ret (false, range), u1))
    end.
  Proof.
    intros H1. unfold unh_join, hbind, hcalm, users, hret. rewrite H1. destruct o as [x|]; [|reflexivity].
    destruct (merge range x) as [[|] rg]; cbn [fst snd].
    - destruct (next u1) as [[y|p|] u2]; rewrite ?app_nil_r; reflexivity.
    - rewrite app_nil_r. reflexivity.
  Qed.
  Lemma unh_loop_halt : forall fuel range u l r a s', has u l r -> ok range -> Forall ok l -> Forall ok r ->
    In (a, s') (fst (loop fuel range u)) ->
    exists l1 l2 r1 r2 hole, l = l1 ++ l2 /\ r = r1 ++ r2 /\ has s' l2 r2 /\ grown range hole (l1 ++ r1).
  Proof.
    induction fuel as [|fuel IH]; intros range u l r a s' Hu Hr Hl1 Hr1 Hin; [destruct Hin|].
    cbn [unh_loop] in Hin.
    assert (Here : forall v, has v l r -> s' = v -> exists l1 l2 r1 r2 hole,
      l = l1 ++ l2 /\ r = r1 ++ r2 /\ has s' l2 r2 /\ grown range hole (l1 ++ r1)).
    { intros v Hv ->. exists [], l, [], r, range. splits; auto. apply (grown_refl HO). exact Hr. }
    destruct (has_pl inext _ _ _ Hu) as (u1 & P1 & U1).
    assert (Hright : forall rg, rg = range ->
      In (a, s') (fst ((y <- unh_join merge mcalls (peek_right inext) (next_right inext) rg ;;
                        (if fst y then loop fuel (snd y) else hret (snd y)))%H u1)) ->
      exists l1 l2 r1 r2 hole, l = l1 ++ l2 /\ r = r1 ++ r2 /\ has s' l2 r2 /\ grown range hole (l1 ++ r1)).
    { intros rg -> Hin2. clear Hin. destruct (has_pr inext _ _ _ U1) as (u2 & P2 & U2).
      unfold hbind in Hin2. rewrite (unh_join_eq _ _ _ _ _ _ P2) in Hin2.
      destruct r as [|b r]; cbn [hd_error] in Hin2; [destruct Hin2|]. cbv zeta in Hin2.
      apply Forall_cons_iff in Hr1 as [Hb Hr1].
      destruct (any_merge HL range b Hr Hb) as [(C & rg & M1 & M2 & M3 & M4)|(C & M1)]; rewrite M1 in Hin2; cbn [fst snd] in Hin2.
      - destruct (has_nr inext _ _ _ _ U2) as (u3 & P3 & U3). rewrite P3 in Hin2. cbn [fst snd] in Hin2.
        destruct (loop fuel rg u3) as [t x] eqn:EL. cbn [fst] in Hin2. apply in_app_or in Hin2 as [Hin2|Hin2].
        + apply in_map_iff in Hin2 as (a' & [= _ <-] & _). apply (Here u2 U2 eq_refl).
        + destruct (IH rg u3 l r a s' U3 M2 Hl1 Hr1) as (l1 & l2 & r1 & r2 & hole & A & B & D & G); [rewrite EL; exact Hin2|].
          exists l1, l2, (b :: r1), r2, hole. splits; auto; [rewrite B; reflexivity|].
          apply (grown_step HO HL range b rg hole _ _ Hr Hb C M2 M3 M4 G).
          intros y. rewrite !in_app_iff. cbn. intuition congruence.
      - cbn in Hin2. rewrite app_nil_r in Hin2. apply in_map_iff in Hin2 as (a' & [= _ <-] & _). apply (Here u2 U2 eq_refl). }
    unfold hbind at 1 in Hin. rewrite (unh_join_eq _ _ _ _ _ _ P1) in Hin.
    destruct l as [|x l]; cbn [hd_error] in Hin.
    - cbn [fst snd] in Hin. apply (Hright range eq_refl).
      match type of Hin with In _ (fst (let (_, _) := ?X in _)) => destruct X as [t y] end. exact Hin.
    - cbv zeta in Hin. apply Forall_cons_iff in Hl1 as [Ha Hl1].
      destruct (any_merge HL range x Hr Ha) as [(C & rg & M1 & M2 & M3 & M4)|(C & M1)]; rewrite M1 in Hin; cbn [fst snd] in Hin.
      + destruct (has_nl inext _ _ _ _ U1) as (u3 & P3 & U3). rewrite P3 in Hin. cbn [fst snd] in Hin.
        destruct (loop fuel rg u3) as [t y] eqn:EL. cbn [fst] in Hin. apply in_app_or in Hin as [Hin|Hin].
        * apply in_map_iff in Hin as (a' & [= _ <-] & _). apply (Here u1 U1 eq_refl).
        * destruct (IH rg u3 l r a s' U3 M2 Hl1 Hr1) as (l1 & l2 & r1 & r2 & hole & A & B & D & G); [rewrite EL; exact Hin|].
          exists (x :: l1), l2, r1, r2, hole. splits; auto; [rewrite A; reflexivity|].
          apply (grown_step HO HL range x rg hole _ _ Hr Ha C M2 M3 M4 G). intros y'. cbn. intuition congruence.
      + match type of Hin with In _ (fst (let (_, _) := ?X in _)) => destruct X as [t y] eqn:EX end.
        cbn [fst] in Hin. apply in_app_or in Hin as [Hin|Hin].
        * apply in_map_iff in Hin as (a' & [= _ <-] & _). apply (Here u1 U1 eq_refl).
        * apply (Hright range eq_refl). rewrite EX. exact Hin.
  Qed.

  (** [hole] is a chain of the ranges of [q] *)
  Definition chain (hole : R) (q : list R) : Prop :=
    ok hole /\ Forall (within hole) q /\ (forall x, ins hole x -> exists y, In y q /\ ins y x).
  Lemma unh_halt u l r a s' : has u l r -> Forall ok l -> Forall ok r -> In (a, s') (fst (unh u)) ->
    exists l1 l2 r1 r2, l = l1 ++ l2 /\ r = r1 ++ r2 /\ has s' l2 r2 /\
      (l1 ++ r1 = [] \/ exists hole, chain hole (l1 ++ r1)).
  Proof.
    intros Hu Hl Hr Hin. destruct (has_pl inext _ _ _ Hu) as (u1 & P1 & U1). destruct (has_pr inext _ _ _ U1) as (u2 & P2 & U2).
    unfold unh_next in Hin. unfold hbind at 1, hcalm at 1 in Hin. rewrite P1 in Hin. unfold hbind at 1, hcalm at 1 in Hin. rewrite P2 in Hin.
    assert (Stay : s' = u2 -> exists l1 l2 r1 r2, l = l1 ++ l2 /\ r = r1 ++ r2 /\ has s' l2 r2 /\
      (l1 ++ r1 = [] \/ exists hole, chain hole (l1 ++ r1))).
    { intros ->. exists [], l, [], r. splits; auto. }
    set (rest := fun first : option R => match first with
       | None => hret None
       | Some range => (users (ccalls range) ;;; v <- hget ;;
           range' <- loop (pk_len ilen (op_left v) + pk_len ilen (op_right v) + 1) range ;; hret (Some range'))%H
       end) in *.
    assert (Hrest : forall range u3 l' r', has u3 l' r' -> ok range -> Forall ok l' -> Forall ok r' ->
      In (a, s') (fst (rest (Some range) u3)) ->
      exists l1 l2 r1 r2 hole, l' = l1 ++ l2 /\ r' = r1 ++ r2 /\ has s' l2 r2 /\ grown range hole (l1 ++ r1)).
    { intros range u3 l' r' V1 V2 V3 V4 Hin2. cbn in Hin2. unfold hbind, users, hget in Hin2.
      destruct (loop (pk_len ilen (op_left u3) + pk_len ilen (op_right u3) + 1) range u3) as [t [[x|p|] y]] eqn:EL;
        cbn in Hin2; rewrite ?app_nil_r in Hin2; (apply in_app_or in Hin2 as [Hin2|Hin2];
        [apply in_map_iff in Hin2 as (a' & [= _ <-] & _); exists [], l', [], r', range; splits; auto; apply (grown_refl HO), V2
        |apply (unh_loop_halt (pk_len ilen (op_left u3) + pk_len ilen (op_right u3) + 1) range u3 l' r' a s' V1 V2 V3 V4); rewrite EL; exact Hin2]). }
    assert (Hchain : forall f hole q, grown f hole q -> forall q', (forall y, In y q' <-> y = f \/ In y q) -> chain hole q').
    { intros f hole q (G1 & G2 & G3 & G4 & G5 & G6) q' Hq'. rewrite Forall_forall in G4. unfold chain. splits; auto.
      - apply Forall_forall. intros y Hy. apply Hq' in Hy as [-> | Hy]; [split; ord|auto].
      - intros x Hx. destruct (G6 x Hx) as [Hf|(y & Hy & Hy2)]; [exists f|exists y]; rewrite Hq'; auto. }
    assert (Hleft : forall x l0, l = x :: l0 ->
      In (a, s') (fst ((first <- (o <- hcalm (next_left inext) ;; r <- hcalm (unwrap o) ;; hret (Some r)) ;; rest first)%H u2)) ->
      exists l1 l2 r1 r2, l = l1 ++ l2 /\ r = r1 ++ r2 /\ has s' l2 r2 /\ (l1 ++ r1 = [] \/ exists hole, chain hole (l1 ++ r1))).
    { intros x l0 -> Hin2. destruct (has_nl inext _ _ _ _ U2) as (u3 & P3 & U3). unfold hbind at 1 2, hcalm at 1 in Hin2.
      rewrite P3 in Hin2. cbn -[rest] in Hin2. destruct (rest (Some x) u3) as [t y] eqn:ER. cbn [fst] in Hin2.
      apply Forall_cons_iff in Hl as [Hx Hl].
      destruct (Hrest x u3 l0 r U3 Hx Hl Hr) as (l1 & l2 & r1 & r2 & hole & A & B & D & G); [rewrite ER; exact Hin2|].
      exists (x :: l1), l2, r1, r2. splits; auto; [rewrite A; reflexivity|]. right. exists hole.
      apply (Hchain x hole _ G). intros z. cbn. intuition congruence. }
    assert (Hright : forall x r0, r = x :: r0 ->
      In (a, s') (fst ((first <- (o <- hcalm (next_right inext) ;; r <- hcalm (unwrap o) ;; hret (Some r)) ;; rest first)%H u2)) ->
      exists l1 l2 r1 r2, l = l1 ++ l2 /\ r = r1 ++ r2 /\ has s' l2 r2 /\ (l1 ++ r1 = [] \/ exists hole, chain hole (l1 ++ r1))).
    { intros x r0 -> Hin2. destruct (has_nr inext _ _ _ _ U2) as (u3 & P3 & U3). unfold hbind at 1 2, hcalm at 1 in Hin2.
      rewrite P3 in Hin2. cbn -[rest] in Hin2. destruct (rest (Some x) u3) as [t y] eqn:ER. cbn [fst] in Hin2.
      apply Forall_cons_iff in Hr as [Hx Hr].
      destruct (Hrest x u3 l r0 U3 Hx Hl Hr) as (l1 & l2 & r1 & r2 & hole & A & B & D & G); [rewrite ER; exact Hin2|].
      exists l1, l2, (x :: r1), r2. splits; auto; [rewrite B; reflexivity|]. right. exists hole.
      apply (Hchain x hole _ G). intros z. rewrite !in_app_iff. cbn. intuition congruence. }
    destruct l as [|x l0], r as [|y r0]; cbn [hd_error] in Hin.
    - destruct Hin.
    - apply (Hright y r0 eq_refl). match type of Hin with In _ (fst (let (_, _) := let (_, _) := ?X in _ in _)) => destruct X as [t z] end. exact Hin.
    - apply (Hleft x l0 eq_refl). match type of Hin with In _ (fst (let (_, _) := let (_, _) := ?X in _ in _)) => destruct X as [t z] end. exact Hin.
    - assert (Hs : forall first, In (a, s') (fst ((first <- (users (scalls x y) ;;; first) ;; rest first)%H u2)) ->
        In (a, s') (map (fun b => (b, u2)) (scalls x y)) \/ In (a, s') (fst ((first <- first ;; rest first)%H u2))).
      { intros first. unfold hbind, users. destruct (first u2) as [t [[z|p|] u3]]; cbn -[rest].
        - destruct (rest z u3) as [t' z']. cbn [fst]. rewrite <- app_assoc. apply in_app_or.
        - apply in_app_or.
        - apply in_app_or. }
      match type of Hin with In _ (fst (let (_, _) := let (_, _) := ?X in _ in _)) => destruct X as [t z] eqn:EX end.
      cbn [fst app] in Hin. destruct (Hs _ ltac:(rewrite EX; exact Hin)) as [H1|H1].
      + apply Stay. apply in_map_iff in H1 as (a' & [= _ <-] & _). reflexivity.
      + destruct (order_start x y); [apply (Hright y r0 eq_refl), H1|apply (Hleft x l0 eq_refl), H1|apply (Hright y r0 eq_refl), H1].
  Qed.

  Lemma union_halts : forall cuts u l r, has u l r -> Forall ok l -> Forall ok r -> length l + length r <= N ->
    let evs := halt_run (fun _ : unit => unh) cuts u in
    exists kl dl kr dr holes us, deals l kl dl /\ deals r kr dr /\ length holes <= length (panics evs) /\
      Forall ok holes /\ Forall (fun x => exists h, In h holes /\ within h x) (dl ++ dr) /\
      (forall h x, In h holes -> ins h x -> exists y, In y (dl ++ dr) /\ ins y x) /\
      map snd (completed evs) = map Ret (yields (length (completed evs)) us) /\
      Forall ok us /\ length us <= length kl + length kr /\
      (Forall valid (kl ++ kr) -> Forall valid us) /\
      Forall (fun x => exists y, In y us /\ within y x) (kl ++ kr) /\
      (forall x, covs us x <-> covs (kl ++ kr) x) /\
      (forall q x, In q us -> ins q x -> exists y, In y (kl ++ kr) /\ ins y x) /\
      (starts l -> starts r -> StronglySorted (fun a b => leb (g a) (s b) = true) us /\
         forall z, Forall (fun x => leb z (s x) = true) (kl ++ kr) -> Forall (fun x => leb z (s x) = true) us).
  Proof.
    induction cuts as [|[[] cut] cuts IH]; intros u l r Hu Hl Hr HN; cbv zeta.
    - destruct (any_union_run HO HL inext (fun _ => 0) (zero_cnt inext) ilen N Hfill _ u l r 0 0 (le_n _) HN Hu Hl Hr)
        as (us & _ & H2 & H3 & H4 & H5 & H6 & H7 & H8 & _).
      exists l, [], r, [], [], us. splits; auto using deals_all; try (cbn; lia); try constructor; try (intros h x []; fail).
    - cbn [halt_run]. destruct (halting unh cut u) as [ev u'] eqn:E.
      apply halting_cases in E as [[-> ->]|(a & -> & Hin)].
      + rewrite (unh_next_erase inext ilen order_start merge ccalls scalls mcalls).
        destruct (any_union HO HL inext (fun _ => 0) (zero_cnt inext) ilen N Hfill u l r 0 0 Hu Hl Hr HN) as (o & u' & E & Ho).
        rewrite E. cbn [fst snd completed panics map length].
        destruct o as [q|].
        * destruct Ho as (l1 & l2 & r1 & r2 & A & B & D & Hpos & Hq & Hv & Hw & Hc & Hi & (y0 & Hy0 & Hs0) & Hs).
          assert (Q1 : Forall ok l2) by (rewrite A in Hl; apply Forall_app in Hl; tauto).
          assert (Q2 : Forall ok r2) by (rewrite B in Hr; apply Forall_app in Hr; tauto).
          apply has_any in D.
          destruct (IH u' l2 r2 D Q1 Q2) as (kl & dl & kr & dr & holes & us & D1 & D2 & G0 & G0b & G1 & G1b & G & G2 & G3 & G4 & G5 & G6 & G7 & G8);
            [rewrite A, B, !app_length in HN; lia|]. cbv zeta in *.
          assert (HIn : forall x, In x ((l1 ++ kl) ++ (r1 ++ kr)) <-> In x (l1 ++ r1) \/ In x (kl ++ kr))
            by (intros x; rewrite !in_app_iff; tauto).
          exists (l1 ++ kl), dl, (r1 ++ kr), dr, holes, (q :: us).
          split; [rewrite A; apply (deals_app l1 l2 l1 kl [] dl); [apply deals_all|exact D1]|].
          split; [rewrite B; apply (deals_app r1 r2 r1 kr [] dr); [apply deals_all|exact D2]|].
          splits; auto.
          -- rewrite yields_cons. cbn [map]. f_equal. exact G.
          -- cbn [length]. rewrite !app_length. lia.
          -- intros HV. rewrite Forall_forall in *. assert (HVV : forall x, In x us -> ltb (s x) (e x) = true).
             { apply Forall_forall. apply G4. intros x Hx. apply HV, HIn. auto. }
             intros x [<- | Hx]; [|auto].
             (* the piece starts with one of its ranges and contains it *)
             assert (V0 : ltb (s y0) (e y0) = true) by (apply HV, HIn; auto).
             destruct (Hw y0 Hy0) as [W1 W2]. ord.
          -- rewrite Forall_forall in *. intros x Hx. apply HIn in Hx as [Hx|Hx].
             ++ exists q. split; [left; reflexivity|auto].
             ++ destruct (G5 x Hx) as (y & Hy & H). exists y. split; [right; exact Hy|exact H].
          -- intros x. rewrite (covs_cons (c := c) (s := s) (e := e)), Hc, G6.
             rewrite !(covs_app (c := c) (s := s) (e := e)). tauto.
          -- intros y x [<- | Hy] Hx.
             ++ destruct (Hi x Hx) as (z & Hz & H). exists z. rewrite HIn. auto.
             ++ destruct (G7 y x Hy Hx) as (z & Hz & H). exists z. rewrite HIn. auto.
          -- intros S1 S2. pose proof (Hs S1 S2) as Hb.
             assert (S3 : starts l2) by (rewrite A in S1; apply SS_app in S1; tauto).
             assert (S4 : starts r2) by (rewrite B in S2; apply SS_app in S2; tauto).
             destruct (G8 S3 S4) as [G8a G8b]. split.
             ++ constructor; [exact G8a|]. apply G8b. rewrite Forall_forall in *. intros x Hx. apply Hb.
                rewrite in_app_iff in *. rewrite (deals_In _ _ _ D1), (deals_In _ _ _ D2). tauto.
             ++ intros z Hz. rewrite Forall_forall in *. intros x [<- | Hx].
                ** assert (leb z (s y0) = true) by (apply Hz, HIn; auto). ord.
                ** revert x Hx. apply Forall_forall. apply G8b. apply Forall_forall. intros x Hx. apply Hz, HIn. auto.
        * destruct Ho as (-> & -> & D).
          destruct (IH u' [] [] D ltac:(constructor) ltac:(constructor)) as (kl & dl & kr & dr & holes & us & D1 & D2 & G0 & G0b & G1 & G1b & G & G2 & G3 & G4);
            [cbn; lia|]. cbv zeta in *.
          assert (us = []) as -> by (apply deals_nil_inv in D1 as [-> _], D2 as [-> _]; destruct us; [reflexivity|cbn in G3; lia]).
          exists kl, dl, kr, dr, holes, []. splits; auto; try tauto; try (apply G4).
          rewrite yields_step. cbn [map hd_error tl]. f_equal. exact G.
      + destruct (unh_halt u l r a u' Hu Hl Hr Hin) as (l1 & l2 & r1 & r2 & A & B & D & Hh).
        assert (Q1 : Forall ok l2) by (rewrite A in Hl; apply Forall_app in Hl; tauto).
        assert (Q2 : Forall ok r2) by (rewrite B in Hr; apply Forall_app in Hr; tauto).
        destruct (IH u' l2 r2 D Q1 Q2) as (kl & dl & kr & dr & holes & us & D1 & D2 & G0 & G0b & G1 & G1b & G & G2 & G3 & G4 & G5 & G6 & G7 & G8);
          [rewrite A, B, !app_length in HN; lia|]. cbv zeta in *. cbn [completed panics].
        assert (HIn : forall x, In x ((l1 ++ dl) ++ (r1 ++ dr)) <-> In x (l1 ++ r1) \/ In x (dl ++ dr))
            by (intros x; rewrite !in_app_iff; tauto).
        assert (HS : starts l -> starts r -> starts l2 /\ starts r2).
        { intros S1 S2. split; [rewrite A in S1; apply SS_app in S1|rewrite B in S2; apply SS_app in S2]; tauto. }
        assert (Hx : exists hs, length hs <= 1 /\ Forall ok hs /\ Forall (fun x => exists h, In h hs /\ within h x) (l1 ++ r1) /\
          (forall h x, In h hs -> ins h x -> exists y, In y (l1 ++ r1) /\ ins y x)).
        { destruct Hh as [-> | (h & C1 & C2 & C3)].
          - exists []. splits; auto; try (cbn; lia); try constructor; try (intros h x []; fail).
          - exists [h]. splits; auto.
            + eapply Forall_impl; [|exact C2]. cbn. intros x Hx. exists h. auto.
            + intros h' x [<- | []]. apply C3. }
        destruct Hx as (hs & Y1 & Y2 & Y3 & Y4).
        exists kl, (l1 ++ dl), kr, (r1 ++ dr), (hs ++ holes), us.
        split; [rewrite A; apply (deals_app l1 l2 [] kl l1 dl); [apply deals_lost|exact D1]|].
        split; [rewrite B; apply (deals_app r1 r2 [] kr r1 dr); [apply deals_lost|exact D2]|].
        splits; auto.
        * rewrite app_length. cbn [length]. lia.
        * apply Forall_app. auto.
        * rewrite Forall_forall in *. intros x Hx. apply HIn in Hx as [Hx|Hx].
          -- destruct (Y3 x Hx) as (h & H1 & H2). exists h. rewrite in_app_iff. auto.
          -- destruct (G1 x Hx) as (h & H1 & H2). exists h. rewrite in_app_iff. auto.
        * intros h x Hh2 Hx. apply in_app_or in Hh2 as [Hh2|Hh2].
          -- destruct (Y4 h x Hh2 Hx) as (y & H1 & H2). exists y. rewrite HIn. auto.
          -- destruct (G1b h x Hh2 Hx) as (y & H1 & H2). exists y. rewrite HIn. auto.
        * intros S1 S2. destruct (HS S1 S2) as [S3 S4]. apply (G8 S3 S4).
  Qed.
End Union.

(** ** [Range] *)
Section HalfOps.
  Context {K : Type} {cmp : K -> K -> comparison} (HO : TotalOrd cmp).
  Notation valid := (valid_range cmp).
  Notation covers := (in_range cmp).
  Context {I : Type} (next : I -> option (range K) * I) (ilen : I -> nat) (N : nat).
  Context (Hfill : forall i l, supplies next i l -> length l <= N -> length l <= ilen i).
  Context (ccalls : range K -> list ucall) (scalls mcalls : range K -> range K -> list ucall).
  Notation unh := (unh_next next ilen (r_order_start cmp) (r_merge cmp) ccalls scalls mcalls).

  Lemma half_union_halts i j l r : supplies next i l -> supplies next j r -> length l + length r <= N ->
    forall cuts, let evs := halt_run (fun _ : unit => unh) cuts (op_new i j) in
    exists kl dl kr dr holes us, deals l kl dl /\ deals r kr dr /\
      welded cmp (dl ++ dr) holes /\ length holes <= length (panics evs) /\
      map snd (completed evs) = map Ret (yields (length (completed evs)) us) /\
      (forall k, (exists u, In u us /\ covers u k = true) <-> (exists x, In x (kl ++ kr) /\ covers x k = true)) /\
      welded cmp (kl ++ kr) us /\ length us <= length kl + length kr /\
      (Forall (fun x => valid x = true) (kl ++ kr) -> Forall (fun x => valid x = true) us) /\
      (by_start cmp l -> by_start cmp r -> in_turn cmp us).
  Proof.
    intros Hi Hj HN cuts evs.
    destruct (union_halts HO (half_laws HO) next ilen N Hfill ccalls scalls mcalls cuts (op_new i j) l r
                (hu_new _ (fun _ => 0) _ _ _ _ Hi Hj eq_refl eq_refl) (all_true _) (all_true _) HN)
      as (kl & dl & kr & dr & holes & us & D1 & D2 & D3 & _ & D4 & D5 & D6 & _ & D7 & D8 & D9 & D10 & D11 & D12).
    fold evs in D3, D6. exists kl, dl, kr, dr, holes, us. unfold welded. splits; auto.
    - rewrite Forall_forall in D4. intros x Hx. destruct (D4 x Hx) as (y & Hy & [W1 W2]). eauto.
    - intros u z Hu Hz1 Hz2. destruct (D5 u z Hu (conj Hz1 Hz2)) as (y & Hy & [W1 W2]). eauto.
    - intros k. rewrite <- !(half_cov HO). apply D10.
    - rewrite Forall_forall in D9. intros x Hx. destruct (D9 x Hx) as (y & Hy & [W1 W2]). eauto.
    - intros u z Hu Hz1 Hz2. destruct (D11 u z Hu (conj Hz1 Hz2)) as (y & Hy & [W1 W2]). eauto.
    - intros S1 S2. apply (D12 S1 S2).
  Qed.
End HalfOps.

(** ** [RangeInclusive] *)
Section InclOps.
  Context {K : Type} {cmp : K -> K -> comparison} (HO : TotalOrd cmp).
  Notation fresh := (fun r : rangei K => ri_exhausted r = false).
  Notation valid := (valid_rangei cmp).
  Notation covers := (in_rangei cmp).
  Context {I : Type} (next : I -> option (rangei K) * I) (ilen : I -> nat) (N : nat).
  Context (Hfill : forall i l, supplies next i l -> length l <= N -> length l <= ilen i).
  Context (ccalls : rangei K -> list ucall) (scalls mcalls : rangei K -> rangei K -> list ucall).
  Notation unh := (unh_next next ilen (ri_order_start cmp) (ri_merge cmp) ccalls scalls mcalls).

  Lemma incl_union_halts i j l r : supplies next i l -> supplies next j r -> length l + length r <= N ->
    forall cuts, let evs := halt_run (fun _ : unit => unh) cuts (op_new i j) in
    exists kl dl kr dr holes us, deals l kl dl /\ deals r kr dr /\
      weldedi cmp (dl ++ dr) holes /\ length holes <= length (panics evs) /\
      map snd (completed evs) = map Ret (yields (length (completed evs)) us) /\
      (forall k, (exists u, In u us /\ covers u k = true) <-> (exists x, In x (kl ++ kr) /\ covers x k = true)) /\
      weldedi cmp (kl ++ kr) us /\ length us <= length kl + length kr /\
      (Forall fresh (l ++ r) -> Forall fresh us) /\
      (Forall (fun x => valid x = true) (kl ++ kr) -> Forall (fun x => valid x = true) us) /\
      (by_starti cmp l -> by_starti cmp r ->
         in_turnx cmp us /\ (Forall fresh (l ++ r) -> in_turni cmp us)).
  Proof.
    intros Hi Hj HN cuts evs.
    destruct (union_halts (lex_order HO) (incl_laws HO (Forall fresh (l ++ r))) next ilen N Hfill ccalls scalls mcalls cuts (op_new i j) l r
                (hu_new _ (fun _ => 0) _ _ _ _ Hi Hj eq_refl eq_refl)
                (okifs (Forall fresh (l ++ r)) l (fun h => proj1 (proj1 (Forall_app _ _ _) h)))
                (okifs (Forall fresh (l ++ r)) r (fun h => proj2 (proj1 (Forall_app _ _ _) h))) HN)
      as (kl & dl & kr & dr & holes & us & D1 & D2 & D3 & _ & D4 & D5 & D6 & D7 & D8 & D9 & D10 & D11 & D12 & D13).
    fold evs in D3, D6. exists kl, dl, kr, dr, holes, us. unfold weldedi.
    assert (W : forall us' l', (forall q x, In q us' ->
        ins (c := cmp_of (lex_le (cmp := cmp))) (s := fun r : rangei K => Before (ri_start r)) (e := fun r : rangei K => After (ri_end r)) q x ->
        exists y, In y l' /\ ins (c := cmp_of (lex_le (cmp := cmp))) (s := fun r : rangei K => Before (ri_start r)) (e := fun r : rangei K => After (ri_end r)) y x) ->
      forall u z, In u us' -> ltb cmp (ri_start u) z = true -> leb cmp z (ri_end u) = true ->
      exists r, In r l' /\ ltb cmp (ri_start r) z = true /\ leb cmp z (ri_end r) = true).
    { intros us' l' H u z Hu Hz1 Hz2. destruct (H u (Before z) Hu) as (y & Hy & [W1 W2]).
      - split; rewrite (lex_ltb HO); cbn [lex_le]; apply negb_true_iff; ord.
      - rewrite (lex_ltb HO) in W1, W2. cbn [lex_le] in W1, W2. apply negb_true_iff in W1, W2. exists y. splits; auto; ord. }
    splits; auto.
    - rewrite Forall_forall in D4. intros x Hx. destruct (D4 x Hx) as (y & Hy & Wy). apply (incl_within) in Wy as [W1 W2]. eauto.
    - exact (W _ _ D5).
    - intros k. rewrite <- !(incl_cov HO). apply D11.
    - rewrite Forall_forall in D10. intros x Hx. destruct (D10 x Hx) as (y & Hy & Wy). apply (incl_within) in Wy as [W1 W2]. eauto.
    - exact (W _ _ D12).
    - exact (okifs_inv _ _ D7).
    - rewrite !(incl_valids HO) in D9. exact D9.
    - intros S1 S2. apply incl_starts in S1, S2. pose proof (incl_turnx HO _ (proj1 (D13 S1 S2))) as HT. split; [exact HT|].
      intros h. exact (incl_turnx_fresh _ HT (okifs_inv _ _ D7 h)).
  Qed.
End InclOps.

(** ** The iterators of the sets *)
Lemma rs_supplies {K} (s : list (range K * unit)) : supplies rs_iter_next s (map fst s).
Proof. induction s as [|e s IH]; [reflexivity|]. split; [reflexivity|exact IH]. Qed.
Lemma rs_fill {K} N (i : list (range K * unit)) l : supplies rs_iter_next i l -> length l <= N -> length l <= length i.
Proof.
  intros H _. revert i H. induction l as [|x l IH]; intros i H; [cbn; lia|]. destruct i as [|e i]; cbn in H |- *.
  - destruct H; discriminate.
  - destruct H as [_ H]. apply IH in H. lia.
Qed.
Lemma is_supplies {K} (s : list (rangei K * unit)) : supplies is_iter_next s (map fst s).
Proof. induction s as [|e s IH]; [reflexivity|]. split; [reflexivity|exact IH]. Qed.
Lemma is_fill {K} N (i : list (rangei K * unit)) l : supplies is_iter_next i l -> length l <= N -> length l <= length i.
Proof.
  intros H _. revert i H. induction l as [|x l IH]; intros i H; [cbn; lia|]. destruct i as [|e i]; cbn in H |- *.
  - destruct H; discriminate.
  - destruct H as [_ H]. apply IH in H. lia.
Qed.
