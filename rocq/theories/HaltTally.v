(** The calls of user code that HaltModel.v records are those that AskIterModel.v,
    OpsCostModel.v (comparisons), CloneModel.v and CloneSetModel.v (clones) count. *)
From Coq Require Import List Bool Arith Lia.
From Verif Require Import Order Outcome BTree Ranges History MapModel IMapModel OpsModel SetModel ISetModel CloneModel
  CloneSetModel OpsCostModel ListLemmas AskIterModel HaltModel.
Import ListNotations.

(** how many calls of a kind a computation makes *)
Definition calls {S A} (p : ucall -> bool) (c : H S A) (s : S) : nat := length (filter p (map fst (fst (c s)))).
Definition is_clone (u : ucall) : bool := match u with UClone => true | _ => false end.

(** [q] does what [h] does, and counts the calls of kind [p] that [h] records *)
Definition tallies {S A} (p : ucall -> bool) (h : H S A) (q : M (counted S) A) : Prop :=
  forall n s, q (n, s) = (fst (snd (h s)), (n + calls p h s, snd (snd (h s)))).

Section Tally.
  Context {S : Type} (p : ucall -> bool).
  Notation tl := (tallies (S := S) p).

  Lemma tl_ret {A} (a : A) : tl (hret a) (ret a).
  Proof. intros n s. cbn. rewrite Nat.add_0_r. reflexivity. Qed.
  Lemma tl_get : tl hget cget.
  Proof. intros n s. cbn. rewrite Nat.add_0_r. reflexivity. Qed.
  Lemma tl_modify f : tl (hmodify f) (cmodify f).
  Proof. intros n s. cbn. rewrite Nat.add_0_r. reflexivity. Qed.
  Lemma tl_lift {A} (o : outcome A) : tl (hlift o) (lift o).
  Proof. intros n s. cbn. rewrite Nat.add_0_r. reflexivity. Qed.
  Lemma tl_nofuel {A} : tl (hnofuel (A := A)) nofuel.
  Proof. intros n s. cbn. rewrite Nat.add_0_r. reflexivity. Qed.
  Lemma tl_calm {A} (c : M S A) : tl (hcalm c) (nocl c).
  Proof. intros n s. unfold nocl, hcalm, calls. cbn. destruct (c s). rewrite Nat.add_0_r. reflexivity. Qed.
  Lemma tl_unwrap {R} (o : option R) : tl (hcalm (unwrap o)) (unwrap o).
  Proof. intros n s. unfold hcalm, calls. cbn. rewrite Nat.add_0_r. destruct o; reflexivity. Qed.
  Lemma tl_bind {A B} (h : H S A) q (f : A -> H S B) g :
    tl h q -> (forall a, tl (f a) (g a)) -> tl (hbind h f) (bind q g).
  Proof.
    intros Hh Hf n s. unfold bind. rewrite Hh. unfold calls, hbind. destruct (h s) as [t [[a|e|] s']]; cbn [fst snd]; [|reflexivity..].
    rewrite Hf. unfold calls. destruct (f a s') as [t' [o s'']]. cbn [fst snd]. rewrite map_app, filter_app, app_length.
    do 2 f_equal. lia.
  Qed.
  (** calls followed by what is computed from their answers *)
  Lemma tl_ask {A B} us (x : A) q (f : A -> H S B) g :
    tl (hbind (users us) (fun _ => hret x)) q -> (forall a, tl (f a) (g a)) ->
    tl (hbind (users us) (fun _ => f x)) (bind q g).
  Proof.
    intros Hq Hf n s. unfold bind. rewrite Hq. unfold hbind, users, hret, calls. cbn [fst snd]. rewrite app_nil_r, Hf. unfold calls.
    destruct (f x s) as [t [o s']]. cbn [fst snd]. rewrite map_app, filter_app, app_length. do 2 f_equal. lia.
  Qed.
  (** calls of a kind that is not counted *)
  Lemma tl_skips {A} us (h : H S A) q : filter p us = [] -> tl h q -> tl (hbind (users us) (fun _ => h)) q.
  Proof.
    intros E Hh n s. rewrite Hh. unfold calls, hbind, users. destruct (h s) as [t [o s']]. cbn [fst snd].
    rewrite map_app, map_map, map_id, filter_app, E. reflexivity.
  Qed.
  Lemma tl_skip {A} u (h : H S A) q : p u = false -> tl h q -> tl (hbind (user u) (fun _ => h)) q.
  Proof. intros E. apply (tl_skips [u]). cbn. rewrite E. reflexivity. Qed.
End Tally.

(** ** Comparisons *)
Section Cmp.
  Context {K : Type} {S : Type} (cmp : K -> K -> comparison).
  Notation tl := (tallies (S := S) is_cmp).
  Notation kc := (fun _ : nat => cmp).
  Lemma tl_cmp a b : tl (hbind (users [UCmp]) (fun _ => hret (cmp a b))) (qcmp kc a b).
  Proof. intros n s. cbn. rewrite Nat.add_1_r. reflexivity. Qed.
  Lemma tl_cmp_map {A} a b (f : comparison -> A) x : f (cmp a b) = x ->
    tl (hbind (users [UCmp]) (fun _ => hret x)) (c <- qcmp kc a b ;; ret (f c))%M.
  Proof. intros <- n s. cbn. rewrite Nat.add_1_r. reflexivity. Qed.
  Lemma tl_lt a b : tl (hbind (users [UCmp]) (fun _ => hret (ltb cmp a b))) (qlt kc a b).
  Proof. apply (tl_cmp_map a b (fun c => match c with Lt => true | _ => false end)). reflexivity. Qed.
  Lemma tl_le a b : tl (hbind (users [UCmp]) (fun _ => hret (leb cmp a b))) (qle kc a b).
  Proof. apply (tl_cmp_map a b (fun c => match c with Gt => false | _ => true end)). unfold leb. destruct (cmp a b); reflexivity. Qed.
  (** one comparison, then what depends on it *)
  Lemma tl_iflt {B} a b (h1 h2 : H S B) q1 q2 : tl h1 q1 -> tl h2 q2 ->
    tl (hbind (user UCmp) (fun _ => if ltb cmp a b then h1 else h2)) (bind (qlt kc a b) (fun b : bool => if b then q1 else q2)).
  Proof.
    intros H1 H2. apply (tl_ask is_cmp [UCmp] (ltb cmp a b) _ (fun b : bool => if b then h1 else h2)); [apply tl_lt|].
    intros []; assumption.
  Qed.
  Lemma tl_ifle {B} a b (h1 h2 : H S B) q1 q2 : tl h1 q1 -> tl h2 q2 ->
    tl (hbind (user UCmp) (fun _ => if leb cmp a b then h1 else h2)) (bind (qle kc a b) (fun b : bool => if b then q1 else q2)).
  Proof.
    intros H1 H2. apply (tl_ask is_cmp [UCmp] (leb cmp a b) _ (fun b : bool => if b then h1 else h2)); [apply tl_le|].
    intros []; assumption.
  Qed.
End Cmp.

Section Gaps.
  Context {K V : Type} (cmp : K -> K -> comparison).
  Notation kc := (fun _ : nat => cmp).
  Lemma tl_gaps : tallies is_cmp (gph_next (V := V) cmp) (gpq_next kc).
  Proof.
    apply tl_bind; [apply tl_get|]. intros g. apply tl_bind.
    - induction (gp_iter g) as [|[o v] l IH]; cbn [gph_loop gpq_loop]; [apply tl_ret|].
      apply tl_bind; [apply tl_modify|]. intros _. apply tl_bind; [apply tl_get|]. intros g'.
      apply tl_ifle; [apply tl_ret|]. apply tl_bind; [apply tl_modify|]. intros _.
      apply tl_iflt; [|exact IH]. do 2 (apply tl_skip; [reflexivity|]). apply tl_ret.
    - intros [r|]; [apply tl_ret|]. apply tl_bind; [apply tl_get|]. intros g'.
      apply tl_iflt; [|apply tl_ret]. do 2 (apply tl_skip; [reflexivity|]).
      apply tl_bind; [apply tl_modify|]. intros _. apply tl_ret.
  Qed.
  Context (st : stepfns K).
  (** where no comparison is made before the state is read *)
  Lemma tl_igaps : tallies is_cmp (gphi_next (V := V) cmp st) (gpiq_next kc st).
  Proof.
    apply tl_bind; [apply tl_get|]. intros g. apply tl_bind.
    - induction (gpi_iter g) as [|[o v] l IH]; cbn [gphi_loop gpiq_loop]; [apply tl_ret|].
      apply tl_bind; [apply tl_modify|]. intros _. apply tl_bind; [apply tl_get|]. intros g'.
      apply tl_iflt; [apply tl_ret|]. apply tl_bind; [apply tl_modify|]. intros _.
      apply tl_bind; [destruct (gpi_needs_plus_one g'); (apply tl_skip; [reflexivity|]); [apply tl_lift|apply tl_ret]|].
      intros cur. apply tl_iflt; [|exact IH]. apply tl_skip; [reflexivity|].
      apply tl_bind; [apply tl_lift|]. intros q. apply tl_ret.
    - intros [r|]; [apply tl_ret|]. apply tl_bind; [apply tl_get|]. intros g'.
      apply tl_bind; [apply tl_modify|]. intros _. destruct (gpi_needs_plus_one g').
      + apply tl_iflt; [|apply tl_ret]. apply tl_skip; [reflexivity|]. apply tl_bind; [apply tl_lift|].
        intros q. apply tl_skip; [reflexivity|]. apply tl_ret.
      + apply tl_ifle; [|apply tl_ret]. do 2 (apply tl_skip; [reflexivity|]). apply tl_ret.
  Qed.
End Gaps.

(** ** The iterators of operations.rs, for any kind of call *)
Section Ops.
  Context {R I : Type} (p : ucall -> bool) (inext : I -> option R * I) (ilen : I -> nat).
  Context (os oe : R -> R -> comparison) (mg : R -> R -> bool * R) (is_ : R -> R -> option R).
  Context (cc : R -> list ucall) (sc ec mc ic : R -> R -> list ucall).
  Notation CP := (M (counted (pair_iter R I))).
  Notation ans us x := (hbind (users us) (fun _ => hret x)).
  Notation tl := (tallies (S := pair_iter R I) p).

  (** comparisons *)
  Context (osq oeq : R -> R -> CP comparison) (mgq : R -> R -> CP (bool * R)) (isq : R -> R -> CP (option R)).
  Context (Hos : forall a b, tl (ans (sc a b) (os a b)) (osq a b)) (Hoe : forall a b, tl (ans (ec a b) (oe a b)) (oeq a b)).
  Context (Hmg : forall a b, tl (ans (mc a b) (mg a b)) (mgq a b)) (His : forall a b, tl (ans (ic a b) (is_ a b)) (isq a b)).
  Context (Hcc : forall a, filter p (cc a) = []).

  Lemma tl_join pk nx r : tl (unh_join mg mc pk nx r) (unq_join mgq (nocl pk) (nocl nx) r).
  Proof.
    apply tl_bind; [apply tl_calm|]. intros [y|]; [|apply tl_ret].
    apply (tl_ask p (mc r y) (mg r y) (mgq r y) (fun x : bool * R => let (b, z) := x in
      if b then hbind (hcalm nx) (fun _ => hret (true, z)) else hret (false, z))); [apply Hmg|].
    intros [[] z]; cbn [fst snd]; [|apply tl_ret].
    apply tl_bind; [apply tl_calm|]. intros _. apply tl_ret.
  Qed.
  Lemma tl_loop fuel : forall r, tl (unh_loop inext mg mc fuel r) (unq_loop inext mgq fuel r).
  Proof.
    induction fuel as [|fuel IH]; intros r; cbn [unh_loop unq_loop]; [apply tl_nofuel|].
    apply tl_bind; [apply tl_join|]. intros [[] z]; cbn [fst snd]; [apply IH|].
    apply tl_bind; [apply tl_join|]. intros [[] z']; cbn [fst snd]; [apply IH|apply tl_ret].
  Qed.
  Lemma tl_union : tl (unh_next inext ilen os mg cc sc mc) (unq_next inext ilen osq mgq).
  Proof.
    assert (T : forall c : M (pair_iter R I) (option R),
      tl (hbind (hcalm c) (fun o => hbind (hcalm (unwrap o)) (fun r => hret (Some r)))) (o <- nocl c ;; r <- unwrap o ;; ret (Some r))%M).
    { intros c. apply tl_bind; [apply tl_calm|]. intros o. apply tl_bind; [apply tl_unwrap|]. intros r. apply tl_ret. }
    apply tl_bind; [apply tl_calm|]. intros l. apply tl_bind; [apply tl_calm|]. intros r. apply tl_bind.
    - destruct l as [l|], r as [r|]; [|apply T|apply T|apply tl_ret].
      apply (tl_ask p (sc l r) (os l r) (osq l r) (fun c => match c with
        | Lt => hbind (hcalm (next_left inext)) (fun o => hbind (hcalm (unwrap o)) (fun r => hret (Some r)))
        | _ => hbind (hcalm (next_right inext)) (fun o => hbind (hcalm (unwrap o)) (fun r => hret (Some r))) end)); [apply Hos|].
      intros []; apply T.
    - intros [z|]; [|apply tl_ret]. apply tl_skips; [apply Hcc|]. apply tl_bind; [apply tl_get|]. intros u.
      apply tl_bind; [apply tl_loop|]. intros z'. apply tl_ret.
  Qed.
  Lemma tl_iloop fuel : tl (inh_loop inext oe is_ ec ic fuel) (inq_loop inext oeq isq fuel).
  Proof.
    induction fuel as [|fuel IH]; cbn [inh_loop inq_loop]; [apply tl_nofuel|].
    apply tl_bind; [apply tl_calm|]. intros l. apply tl_bind; [apply tl_calm|]. intros r.
    destruct l as [l|], r as [r|]; try apply tl_ret.
    apply (tl_ask p (ic l r) (is_ l r) (isq l r) (fun x => hbind (users (ec l r)) (fun _ => hbind
       match oe l r with Lt => hcalm (next_left inext) | _ => hcalm (next_right inext) end
       (fun _ => match x with Some i => hret (Some i) | None => inh_loop inext oe is_ ec ic fuel end)))); [apply His|].
    intros x. apply (tl_ask p (ec l r) (oe l r) (oeq l r) (fun c => hbind
       match c with Lt => hcalm (next_left inext) | _ => hcalm (next_right inext) end
       (fun _ => match x with Some i => hret (Some i) | None => inh_loop inext oe is_ ec ic fuel end))); [apply Hoe|].
    intros c. apply tl_bind; [destruct c; apply tl_calm|]. intros _. destruct x; [apply tl_ret|exact IH].
  Qed.
  Lemma tl_intersection : tl (inh_next inext ilen oe is_ ec ic) (inq_next inext ilen oeq isq).
  Proof. apply tl_bind; [apply tl_get|]. intros u. apply tl_iloop. Qed.
End Ops.

(** clones *)
Section OpsC.
  Context {R I : Type} (inext : I -> option R * I) (ilen : I -> nat).
  Context (os oe : R -> R -> comparison) (mg : R -> R -> bool * R) (is_ : R -> R -> option R).
  Context (cc : R -> list ucall) (sc ec mc ic : R -> R -> list ucall).
  Notation CP := (M (counted (pair_iter R I))).
  Notation ans us x := (hbind (users us) (fun _ => hret x)).
  Notation tl := (tallies (S := pair_iter R I) is_clone).
  Context (rcl : R -> CP R) (mgc : R -> R -> CP (bool * R)) (isc : R -> R -> CP (option R)).
  Context (Hsc : forall a b, filter is_clone (sc a b) = []) (Hec : forall a b, filter is_clone (ec a b) = []).
  Context (Hcc : forall a, tl (ans (cc a) a) (rcl a)).
  Context (Hmg : forall a b, tl (ans (mc a b) (mg a b)) (mgc a b)) (His : forall a b, tl (ans (ic a b) (is_ a b)) (isc a b)).

  Lemma tc_loop fuel : forall r, tl (unh_loop inext mg mc fuel r) (unc_loop inext mgc fuel r).
  Proof. exact (tl_loop is_clone inext mg mc mgc Hmg fuel). Qed.
  Lemma tc_union : tl (unh_next inext ilen os mg cc sc mc) (unc_next inext ilen os rcl mgc).
  Proof.
    assert (T : forall c : M (pair_iter R I) (option R),
      tl (hbind (hcalm c) (fun o => hbind (hcalm (unwrap o)) (fun r => hret (Some r)))) (o <- nocl c ;; r <- unwrap o ;; ret (Some r))%M).
    { intros c. apply tl_bind; [apply tl_calm|]. intros o. apply tl_bind; [apply tl_unwrap|]. intros r. apply tl_ret. }
    apply tl_bind; [apply tl_calm|]. intros l. apply tl_bind; [apply tl_calm|]. intros r. apply tl_bind.
    - destruct l as [l|], r as [r|]; [|apply T|apply T|apply tl_ret].
      apply tl_skips; [apply Hsc|]. destruct (os l r); apply T.
    - intros [z|]; [|apply tl_ret]. 
      apply (tl_ask is_clone (cc z) z (rcl z) (fun z => hbind hget (fun u => hbind (unh_loop inext mg mc (pk_len ilen (op_left u) + pk_len ilen (op_right u) + 1) z)
        (fun z => hret (Some z))))); [apply Hcc|]. intros z'. apply tl_bind; [apply tl_get|]. intros u.
      apply tl_bind; [apply tc_loop|]. intros z''. apply tl_ret.
  Qed.
  Lemma tc_iloop fuel : tl (inh_loop inext oe is_ ec ic fuel) (inc_loop inext oe isc fuel).
  Proof.
    induction fuel as [|fuel IH]; cbn [inh_loop inc_loop]; [apply tl_nofuel|].
    apply tl_bind; [apply tl_calm|]. intros l. apply tl_bind; [apply tl_calm|]. intros r.
    destruct l as [l|], r as [r|]; try apply tl_ret.
    apply (tl_ask is_clone (ic l r) (is_ l r) (isc l r) (fun x => hbind (users (ec l r)) (fun _ => hbind
       match oe l r with Lt => hcalm (next_left inext) | _ => hcalm (next_right inext) end
       (fun _ => match x with Some i => hret (Some i) | None => inh_loop inext oe is_ ec ic fuel end)))); [apply His|].
    intros x. apply tl_skips; [apply Hec|]. apply tl_bind; [destruct (oe l r); apply tl_calm|].
    intros _. destruct x; [apply tl_ret|exact IH].
  Qed.
  Lemma tc_intersection : tl (inh_next inext ilen oe is_ ec ic) (inc_next inext ilen oe isc).
  Proof. apply tl_bind; [apply tl_get|]. intros u. apply tc_iloop. Qed.
End OpsC.

(** ** The traits' methods *)
Section Traits.
  Context {K : Type} {S : Type} {cmp : K -> K -> comparison} (HO : TotalOrd cmp).
  Notation ans us x := (hbind (users us) (fun _ => hret x)).
  Notation kc := (fun _ : nat => cmp).
  Notation kid := (fun (_ : nat) (k : K) => k).
  Lemma tl_ans {A} p us (x : A) (q : M (counted S) A) :
    (forall n s, q (n, s) = (Ret x, (n + length (filter p us), s))) -> tallies p (ans us x) q.
  Proof. intros E n s. rewrite E. unfold calls. cbn. rewrite app_nil_r, map_map, map_id. reflexivity. Qed.

  (** each comparison method makes one call *)
  Section Ops1.
    Context (n : nat) (s : S) (a b : K).
    Lemma qcmp_1 : qcmp kc a b (n, s) = (Ret (cmp a b), (1 + n, s)).
    Proof. reflexivity. Qed.
    Lemma qlt_1 : qlt kc a b (n, s) = (Ret (ltb cmp a b), (1 + n, s)).
    Proof. reflexivity. Qed.
    Lemma qle_1 : qle kc a b (n, s) = (Ret (leb cmp a b), (1 + n, s)).
    Proof. reflexivity. Qed.
    Lemma qgt_1 : qgt kc a b (n, s) = (Ret (gtb cmp a b), (1 + n, s)).
    Proof. unfold gtb, ltb. rewrite (ord_dual _ HO a b). cbn. destruct (cmp a b); reflexivity. Qed.
    Lemma qge_1 : qge kc a b (n, s) = (Ret (geb cmp a b), (1 + n, s)).
    Proof. unfold geb, leb. rewrite (ord_dual _ HO a b). cbn. destruct (cmp a b); reflexivity. Qed.
    Lemma qmax_1 : qmax kc a b (n, s) = (Ret (kmax cmp a b), (1 + n, s)).
    Proof. unfold kmax, ltb. rewrite (ord_dual _ HO a b). cbn. destruct (cmp a b); reflexivity. Qed.
    Lemma qmin_1 : qmin kc a b (n, s) = (Ret (kmin cmp a b), (1 + n, s)).
    Proof. unfold kmin, ltb. rewrite (ord_dual _ HO a b). cbn. destruct (cmp a b); reflexivity. Qed.
    Lemma kclone_1 : kclone kid a (n, s) = (Ret a, (1 + n, s)).
    Proof. reflexivity. Qed.
  End Ops1.
  Ltac fin := cbn; rewrite ?Nat.add_succ_r, ?Nat.add_0_r; reflexivity.

  Lemma tq_order_start (a b : range K) : tallies (S := S) is_cmp (ans (order_calls a b) (r_order_start cmp a b)) (r_order_startq kc a b).
  Proof. apply tl_ans. intros n s. unfold r_order_startq. rewrite qcmp_1. fin. Qed.
  Lemma tq_order_end (a b : range K) : tallies (S := S) is_cmp (ans (order_calls a b) (r_order_end cmp a b)) (r_order_endq kc a b).
  Proof. apply tl_ans. intros n s. unfold r_order_endq. rewrite qcmp_1. fin. Qed.
  Lemma tiq_order_start (a b : rangei K) : tallies (S := S) is_cmp (ans (order_calls a b) (ri_order_start cmp a b)) (ri_order_startq kc a b).
  Proof. apply tl_ans. intros n s. unfold ri_order_startq. rewrite qcmp_1. fin. Qed.
  Lemma tiq_order_end (a b : rangei K) : tallies (S := S) is_cmp (ans (order_calls a b) (ri_order_end cmp a b)) (ri_order_endq kc a b).
  Proof. apply tl_ans. intros n s. unfold ri_order_endq. rewrite qcmp_1. fin. Qed.
  Lemma tq_merge a b : tallies (S := S) is_cmp (ans (r_merge_calls cmp a b) (r_merge cmp a b)) (r_mergeq kc a b).
  Proof.
    apply tl_ans. intros n s. unfold r_mergeq, r_containsq, r_merge_calls, r_merge, r_contains, contains_calls, bind.
    rewrite qle_1. destruct (leb cmp (r_start a) (r_start b)); cbn [andb negb]; [|fin].
    rewrite qlt_1. destruct (ltb cmp (r_start b) (r_end a)); cbn [andb negb]; [|fin].
    rewrite qgt_1. destruct (gtb cmp (r_end b) (r_end a)); fin.
  Qed.
  Lemma tiq_merge a b : tallies (S := S) is_cmp (ans (ri_merge_calls cmp a b) (ri_merge cmp a b)) (ri_mergeq kc a b).
  Proof.
    apply tl_ans. intros n s. unfold ri_mergeq, ri_containsq, ri_merge_calls, ri_merge, ri_contains, contains_calls, bind.
    rewrite qle_1. destruct (leb cmp (ri_start a) (ri_start b)); cbn [andb negb]; [|fin].
    destruct (ri_exhausted a); [rewrite qlt_1; destruct (ltb cmp (ri_start b) (ri_end a))|rewrite qle_1; destruct (leb cmp (ri_start b) (ri_end a))];
      cbn [andb negb]; try fin; rewrite qgt_1; destruct (gtb cmp (ri_end b) (ri_end a)); fin.
  Qed.
  Lemma tq_intersect a b : tallies (S := S) is_cmp (ans (r_intersect_calls cmp a b) (r_intersect cmp a b)) (r_intersectq kc a b).
  Proof.
    apply tl_ans. intros n s. unfold r_intersectq, r_intersect_calls, r_intersect, bind.
    rewrite qmax_1, qmin_1, qge_1. destruct (geb cmp _ _); fin.
  Qed.
  Lemma tiq_intersect a b : tallies (S := S) is_cmp (ans (ri_intersect_calls cmp a b) (ri_intersect cmp a b)) (ri_intersectq kc a b).
  Proof.
    apply tl_ans. intros n s. unfold ri_intersectq, ri_intersect_calls, ri_intersect, bind.
    rewrite qmax_1, qmin_1, qgt_1. destruct (gtb cmp _ _); fin.
  Qed.
  (** clones *)
  Lemma tc_clone (a : range K) : tallies (S := S) is_clone (ans (clone_calls a) a) (r_clone kid a).
  Proof. apply tl_ans. intros n s. unfold r_clone, bind. rewrite !kclone_1. destruct a. fin. Qed.
  Lemma tic_clone (a : rangei K) : tallies (S := S) is_clone (ans (clone_calls a) a) (ri_clone kid a).
  Proof. apply tl_ans. intros n s. unfold ri_clone, bind. rewrite !kclone_1. destruct a. fin. Qed.
  Lemma tc_contains a b : filter is_clone (contains_calls cmp a b) = [].
  Proof. unfold contains_calls. destruct (leb cmp a b); reflexivity. Qed.
  Lemma tc_merge a b : tallies (S := S) is_clone (ans (r_merge_calls cmp a b) (r_merge cmp a b)) (r_mergec kid cmp a b).
  Proof.
    apply tl_ans. intros n s. unfold r_mergec, r_merge_calls, r_merge. rewrite filter_app, tc_contains.
    destruct (negb (r_contains cmp a (r_start b))); [fin|]. destruct (gtb cmp (r_end b) (r_end a)); fin.
  Qed.
  Lemma tic_merge a b : tallies (S := S) is_clone (ans (ri_merge_calls cmp a b) (ri_merge cmp a b)) (ri_mergec kid cmp a b).
  Proof.
    apply tl_ans. intros n s. unfold ri_mergec, ri_merge_calls, ri_merge. rewrite filter_app, tc_contains.
    destruct (negb (ri_contains cmp a (ri_start b))); [fin|]. destruct (gtb cmp (ri_end b) (ri_end a)); fin.
  Qed.
  Lemma tc_intersect a b : tallies (S := S) is_clone (ans (r_intersect_calls cmp a b) (r_intersect cmp a b)) (r_intersectc kid cmp a b).
  Proof. apply tl_ans. intros n s. unfold r_intersectc, r_intersect_calls, r_intersect. destruct (geb cmp _ _); fin. Qed.
  Lemma tic_intersect a b : tallies (S := S) is_clone (ans (ri_intersect_calls cmp a b) (ri_intersect cmp a b)) (ri_intersectc kid cmp a b).
  Proof. apply tl_ans. intros n s. unfold ri_intersectc, ri_intersect_calls, ri_intersect. destruct (gtb cmp _ _); fin. Qed.
End Traits.

(** ** The sets' iterators *)
Section Sets.
  Context {K : Type} {cmp : K -> K -> comparison} (HO : TotalOrd cmp).
  Notation kc := (fun _ : nat => cmp).
  Notation kid := (fun (_ : nat) (k : K) => k).
  Notation unh := (unh_next rs_iter_next (@length _) (r_order_start cmp) (r_merge cmp) clone_calls order_calls (r_merge_calls cmp)).
  Notation inh := (inh_next rs_iter_next (@length _) (r_order_end cmp) (r_intersect cmp) order_calls (r_intersect_calls cmp)).
  Notation unhi := (unh_next is_iter_next (@length _) (ri_order_start cmp) (ri_merge cmp) clone_calls order_calls (ri_merge_calls cmp)).
  Notation inhi := (inh_next is_iter_next (@length _) (ri_order_end cmp) (ri_intersect cmp) order_calls (ri_intersect_calls cmp)).
  Lemma ts_union : tallies is_cmp unh (rsq_union_next kc).
  Proof. apply tl_union; [apply tq_order_start|apply tq_merge, HO|reflexivity]. Qed.
  Lemma ts_intersection : tallies is_cmp inh (rsq_intersection_next kc).
  Proof. apply tl_intersection; [apply tq_order_end|apply tq_intersect, HO]. Qed.
  Lemma ti_union : tallies is_cmp unhi (isq_union_next kc).
  Proof. apply tl_union; [apply tiq_order_start|apply tiq_merge, HO|reflexivity]. Qed.
  Lemma ti_intersection : tallies is_cmp inhi (isq_intersection_next kc).
  Proof. apply tl_intersection; [apply tiq_order_end|apply tiq_intersect, HO]. Qed.
  Lemma tsc_union : tallies is_clone unh (rsc_union_next kid cmp).
  Proof. apply tc_union; [reflexivity|apply tc_clone|apply tc_merge]. Qed.
  Lemma tsc_intersection : tallies is_clone inh (rsc_intersection_next kid cmp).
  Proof. apply tc_intersection; [reflexivity|apply tc_intersect]. Qed.
  Lemma tisc_union : tallies is_clone unhi (isc_union_next kid cmp).
  Proof. apply tc_union; [reflexivity|apply tic_clone|apply tic_merge]. Qed.
  Lemma tisc_intersection : tallies is_clone inhi (isc_intersection_next kid cmp).
  Proof. apply tc_intersection; [reflexivity|apply tic_intersect]. Qed.
End Sets.

(** ** The clones of [Gaps] *)
Section GapsC.
  Context {K V : Type} (cmp : K -> K -> comparison).
  Notation kid := (fun (_ : nat) (k : K) => k).
  Lemma tc_gploop {S} (x : S) (l : list (range K * V)) : forall n cand qend,
    let h := gph_loop cmp l (mkGaps cand qend l) in
    exists r, fst (snd h) = Ret r /\ gp_query_end (snd (snd h)) = qend /\
    gpc_loop kid cmp cand qend l (n, x) =
      (Ret (r, gp_candidate_start (snd (snd h)), gp_iter (snd (snd h))), (n + length (filter is_clone (map fst (fst h))), x)).
  Proof.
    induction l as [|[o v] l IH]; intros n cand qend; cbn.
    - exists None. rewrite Nat.add_0_r. auto.
    - destruct (leb cmp qend (r_start o)); cbn; [exists None; rewrite Nat.add_0_r; auto|].
      destruct (ltb cmp cand (r_start o)); cbn.
      + eexists. do 2 (split; [reflexivity|]). rewrite !Nat.add_succ_r, Nat.add_0_r. reflexivity.
      + destruct (IH n (r_end o) qend) as (r & E1 & E2 & E3).
        unfold HaltModel.hbind in *. cbn in *. destruct (gph_loop cmp l (mkGaps (r_end o) qend l)) as [t [oo g]]. cbn in *. eauto.
  Qed.
  Lemma tc_gaps : tallies is_clone (gph_next (V := V) cmp) (gpc_next kid cmp).
  Proof.
    intros n g. destruct g as [cand qend l]. destruct (tc_gploop (mkGaps cand qend l) l n cand qend) as (r & E1 & E2 & E3).
    unfold gpc_next, bind, cget. cbn [fst snd gp_candidate_start gp_query_end gp_iter]. rewrite E3.
    unfold calls, gph_next, hbind, hget. cbn [fst snd gp_iter]. destruct (gph_loop cmp l (mkGaps cand qend l)) as [t [oo [c q l']]]. cbn in *. subst oo q.
    destruct r as [r|]; cbn.
    - rewrite app_nil_r. reflexivity.
    - destruct (ltb cmp c qend); cbn; rewrite map_app, filter_app, app_length; cbn; rewrite ?Nat.add_0_r, ?Nat.add_assoc, ?Nat.add_succ_r, ?Nat.add_0_r; reflexivity.
  Qed.
  Context (st : stepfns K).
  Lemma tc_gpiloop (l : list (rangei K * V)) : forall n b cand qend,
    let g := mkGapsI b cand qend l in
    gpic_loop kid cmp st l (n, g) =
      (fst (snd (gphi_loop cmp st l g)), (n + calls is_clone (gphi_loop cmp st l) g, snd (snd (gphi_loop cmp st l g)))).
  Proof.
    unfold calls. induction l as [|[o v] l IH]; intros n b cand qend; cbn.
    - rewrite Nat.add_0_r. reflexivity.
    - destruct (ltb cmp qend (ri_start o)); cbn; [rewrite Nat.add_0_r; reflexivity|].
      destruct b; cbn.
      + destruct (add_one st cand) as [cur|]; cbn; [|rewrite Nat.add_0_r; reflexivity].
        destruct (ltb cmp cur (ri_start o)); cbn.
        * destruct (sub_one st (ri_start o)); cbn; rewrite Nat.add_0_r; reflexivity.
        * unfold bind, hbind in *. cbn in *. rewrite IH. destruct (gphi_loop cmp st l (mkGapsI true (ri_end o) qend l)) as [t [oo g]]. reflexivity.
      + destruct (ltb cmp cand (ri_start o)); cbn.
        * destruct (sub_one st (ri_start o)); cbn; rewrite Nat.add_1_r; reflexivity.
        * unfold bind, hbind in *. cbn in *. rewrite IH. destruct (gphi_loop cmp st l (mkGapsI true (ri_end o) qend l)) as [t [oo g]].
          cbn. rewrite Nat.add_succ_r. reflexivity.
  Qed.
  Lemma tc_igaps : tallies is_clone (gphi_next (V := V) cmp st) (gpic_next kid cmp st).
  Proof.
    intros n [b cand qend l]. unfold gpic_next, bind at 1, cget at 1. cbn [fst snd gpi_iter]. unfold bind at 1. rewrite tc_gpiloop.
    unfold calls, gphi_next, hbind, hget. cbn [fst snd gpi_iter].
    destruct (gphi_loop cmp st l (mkGapsI b cand qend l)) as [t [[[r|]|e|] g]]; cbn; [rewrite app_nil_r; reflexivity| |reflexivity..].
    destruct (gpi_needs_plus_one g); cbn.
    - destruct (ltb cmp (gpi_candidate_start g) (gpi_query_end g)); cbn; [|rewrite map_app, filter_app, app_length; cbn; rewrite Nat.add_0_r; reflexivity].
      destruct (add_one st (gpi_candidate_start g)); cbn; rewrite map_app, filter_app, app_length; cbn; rewrite ?Nat.add_0_r, ?Nat.add_1_r, ?Nat.add_succ_r; reflexivity.
    - destruct (leb cmp (gpi_candidate_start g) (gpi_query_end g)); cbn; rewrite map_app, filter_app, app_length; cbn; rewrite ?Nat.add_0_r, ?Nat.add_succ_r, ?Nat.add_0_r; reflexivity.
  Qed.
End GapsC.

(** ** The comparisons of [Overlapping], and the calls of [Borrow] *)
Section Overl.
  Context {K V : Type} (cmp : K -> K -> comparison).
  Notation step := (ovh_step (V := V) cmp).
  Lemma t_ovback (q : range K) rl : forall n,
    let h := ovh_back_loop cmp rl (mkOverlapping q (rev rl)) in
    ovq_back_loop (V := V) (fun _ => cmp) (fun _ => q) rl (n, rev rl) =
      (fst (snd h), (n + length (filter is_cmp (map fst (fst h))), ov_iter (snd (snd h)))) /\
    length (ov_iter (snd (snd h))) <= length rl /\
    map fst (fst h) = concat (repeat [UBorrow; UCmp] (length rl - length (ov_iter (snd (snd h))))).
  Proof.
    induction rl as [|e rl IH]; intros n.
    - cbn. rewrite Nat.add_0_r. auto.
    - cbn -[Nat.sub]. unfold ltb. destruct (IH (1 + n)) as (I1 & I2 & I3). unfold hbind in *. cbn -[Nat.sub] in *.
      destruct (cmp (r_start (fst e)) (r_end q)); cbn -[Nat.sub];
        [|rewrite rev_length, Nat.add_1_r; splits; try reflexivity; [lia|replace (S (length rl) - length rl) with 1 by lia; reflexivity]|];
        (destruct (ovh_back_loop cmp rl (mkOverlapping q (rev rl))) as [t [o s]]; cbn -[Nat.sub] in *; rewrite I1; splits;
         [do 2 f_equal; lia|lia|rewrite I3; replace (S (length rl) - length (ov_iter s)) with (1 + (length rl - length (ov_iter s))) by lia; reflexivity]).
  Qed.
  Lemma t_ovq d n o : ovq_step (V := V) (fun _ => cmp) (fun _ => ov_query o) d (n, ov_iter o) =
    (fst (snd (step d o)), (n + calls is_cmp (step d) o, ov_iter (snd (snd (step d o))))).
  Proof.
    unfold calls. destruct o as [q l], d; cbn [ovh_step ovq_step].
    - destruct l as [|e l]; cbn; [rewrite Nat.add_0_r; reflexivity|]. rewrite Nat.add_1_r. reflexivity.
    - unfold ovq_next_back, ovh_next_back, hbind, bind, cget, hget. cbn [fst snd ov_iter].
      pose proof (t_ovback q (rev l) n) as (H1 & _ & _). rewrite rev_involutive in H1. cbn [ov_query] in *. rewrite H1.
      destruct (ovh_back_loop cmp (rev l) (mkOverlapping q l)) as [t [oo s]]. reflexivity.
  Qed.
  Lemma ov_calls d o : map fst (fst (step d o)) =
    concat (repeat [UBorrow; UCmp] (length (ov_iter o) - length (ov_iter (snd (snd (step d o)))))).
  Proof.
    destruct o as [q l], d; cbn [ovh_step].
    - destruct l as [|e l]; cbn -[Nat.sub]; [reflexivity|]. replace (S (length l) - length l) with 1 by lia. reflexivity.
    - unfold ovh_next_back, hbind, hget. cbn [fst snd ov_iter].
      pose proof (t_ovback q (rev l) 0) as (_ & _ & H1). rewrite rev_involutive, rev_length in H1.
      destruct (ovh_back_loop cmp (rev l) (mkOverlapping q l)) as [t [oo s]]. exact H1.
  Qed.
End Overl.

Section Overli.
  Context {K V : Type} (cmp : K -> K -> comparison).
  Notation step := (ovhi_step (V := V) cmp).
  Lemma t_oviback (q : rangei K) rl : forall n,
    let h := ovhi_back_loop cmp rl (mkOverlappingI q (rev rl)) in
    oviq_back_loop (V := V) (fun _ => cmp) (fun _ => q) rl (n, rev rl) =
      (fst (snd h), (n + length (filter is_cmp (map fst (fst h))), ovi_iter (snd (snd h)))) /\
    length (ovi_iter (snd (snd h))) <= length rl /\
    map fst (fst h) = concat (repeat [UBorrow; UCmp] (length rl - length (ovi_iter (snd (snd h))))).
  Proof.
    induction rl as [|e rl IH]; intros n.
    - cbn. rewrite Nat.add_0_r. auto.
    - cbn -[Nat.sub]. unfold leb. destruct (IH (1 + n)) as (I1 & I2 & I3). unfold hbind in *. cbn -[Nat.sub] in *.
      destruct (cmp (ri_start (fst e)) (ri_end q)); cbn -[Nat.sub];
        [rewrite rev_length, Nat.add_1_r; splits; try reflexivity; [lia|replace (S (length rl) - length rl) with 1 by lia; reflexivity]..|];
        (destruct (ovhi_back_loop cmp rl (mkOverlappingI q (rev rl))) as [t [o s]]; cbn -[Nat.sub] in *; rewrite I1; splits;
         [do 2 f_equal; lia|lia|rewrite I3; replace (S (length rl) - length (ovi_iter s)) with (1 + (length rl - length (ovi_iter s))) by lia; reflexivity]).
  Qed.
  Lemma t_oviq d n o : oviq_step (V := V) (fun _ => cmp) (fun _ => ovi_query o) d (n, ovi_iter o) =
    (fst (snd (step d o)), (n + calls is_cmp (step d) o, ovi_iter (snd (snd (step d o))))).
  Proof.
    unfold calls. destruct o as [q l], d; cbn [ovhi_step oviq_step].
    - destruct l as [|e l]; cbn; [rewrite Nat.add_0_r; reflexivity|]. rewrite Nat.add_1_r. reflexivity.
    - unfold oviq_next_back, ovhi_next_back, hbind, bind, cget, hget. cbn [fst snd ovi_iter].
      pose proof (t_oviback q (rev l) n) as (H1 & _ & _). rewrite rev_involutive in H1. cbn [ovi_query] in *. rewrite H1.
      destruct (ovhi_back_loop cmp (rev l) (mkOverlappingI q l)) as [t [oo s]]. reflexivity.
  Qed.
  Lemma ovi_calls d o : map fst (fst (step d o)) =
    concat (repeat [UBorrow; UCmp] (length (ovi_iter o) - length (ovi_iter (snd (snd (step d o)))))).
  Proof.
    destruct o as [q l], d; cbn [ovhi_step].
    - destruct l as [|e l]; cbn -[Nat.sub]; [reflexivity|]. replace (S (length l) - length l) with 1 by lia. reflexivity.
    - unfold ovhi_next_back, hbind, hget. cbn [fst snd ovi_iter].
      pose proof (t_oviback q (rev l) 0) as (_ & _ & H1). rewrite rev_involutive, rev_length in H1.
      destruct (ovhi_back_loop cmp (rev l) (mkOverlappingI q l)) as [t [oo s]]. exact H1.
  Qed.
End Overli.

(** ** [StepFns]: without a recorded call, the step functions do not matter *)
Section Steps.
  Context {K V : Type} (cmp : K -> K -> comparison) (st st' : stepfns K).
  Definition no_step {S} (t : list (ucall * S)) : Prop := forall x, In x t -> fst x <> UStep.
  Lemma no_step_app {S} (a b : list (ucall * S)) : no_step (a ++ b) <-> no_step a /\ no_step b.
  Proof. unfold no_step. split; [intros X; split; intros y Hy; apply X, in_app_iff; auto|intros [X Y] y Hy; apply in_app_iff in Hy as [Hy|Hy]; auto]. Qed.
  Lemma steps_loop (l : list (rangei K * V)) : forall g, no_step (fst (gphi_loop cmp st l g)) ->
    gphi_loop cmp st' l g = gphi_loop cmp st l g.
  Proof.
    induction l as [|[o v] l IH]; intros g Hn; [reflexivity|]. revert Hn. cbn. destruct (ltb cmp (gpi_query_end g) (ri_start o)); [reflexivity|].
    unfold hbind. cbn. destruct (gpi_needs_plus_one g); cbn.
    - intros Hn. exfalso. destruct (add_one st (gpi_candidate_start g)) as [c|]; cbn in Hn; [|eapply (Hn (UStep, _)); [right; left; reflexivity|reflexivity]].
      destruct (if ltb cmp c (ri_start o) then _ else _) as [t x] in Hn. cbn in Hn. eapply (Hn (UStep, _)); [right; left; reflexivity|reflexivity].
    - destruct (ltb cmp (gpi_candidate_start g) (ri_start o)); cbn.
      + intros Hn. exfalso. destruct (sub_one st (ri_start o)); cbn in Hn; (eapply (Hn (UStep, _)); [do 3 right; left; reflexivity|reflexivity]).
      + intros Hn. rewrite IH; [reflexivity|]. destruct (gphi_loop cmp st l _) as [t x]. cbn in *.
        intros y Hy. apply Hn. do 3 right. exact Hy.
  Qed.
  Lemma steps_next (g : gapsi K V) : no_step (fst (gphi_next cmp st g)) -> gphi_next cmp st' g = gphi_next cmp st g.
  Proof.
    unfold gphi_next, hbind, hget. cbn [fst snd]. pose proof (steps_loop (gpi_iter g) g) as L.
    destruct (gphi_loop cmp st (gpi_iter g) g) as [t [[[r|]|e|] g']]; cbn in *.
    - rewrite app_nil_r. intros Hn. rewrite L by exact Hn. cbn. rewrite app_nil_r. reflexivity.
    - destruct (gpi_needs_plus_one g') eqn:Eb; [destruct (ltb cmp (gpi_candidate_start g') (gpi_query_end g')) eqn:Ec|destruct (leb cmp (gpi_candidate_start g') (gpi_query_end g')) eqn:Ec]; cbn;
        [destruct (add_one st (gpi_candidate_start g')); cbn|..]; intros Hn; apply no_step_app in Hn as [H1 H2];
        try (rewrite L by exact H1; cbn; rewrite Eb; cbn; rewrite ?Ec; reflexivity);
        exfalso; (eapply (H2 (UStep, _)); [right; left; reflexivity|reflexivity]).
    - intros Hn. rewrite L by exact Hn. reflexivity.
    - intros Hn. rewrite L by exact Hn. reflexivity.
  Qed.
End Steps.

(** ** The kinds of calls *)
Definition two_kinds {S A} (h : H S A) : Prop := forall s, length (fst (h s)) = calls is_cmp h s + calls is_clone h s.
Section Kinds.
  Context {S : Type}.
  Lemma tk_ret {A} (a : A) : two_kinds (S := S) (hret a).
  Proof. intros s. reflexivity. Qed.
  Lemma tk_get : two_kinds (S := S) hget.
  Proof. intros s. reflexivity. Qed.
  Lemma tk_modify f : two_kinds (S := S) (hmodify f).
  Proof. intros s. reflexivity. Qed.
  Lemma tk_nofuel {A} : two_kinds (S := S) (hnofuel (A := A)).
  Proof. intros s. reflexivity. Qed.
  Lemma tk_calm {A} (c : M S A) : two_kinds (hcalm c).
  Proof. intros s. reflexivity. Qed.
  Lemma tk_users us : length us = length (filter is_cmp us) + length (filter is_clone us) -> two_kinds (S := S) (users us).
  Proof. intros E s. unfold calls, users. cbn. rewrite map_length, map_map, map_id. exact E. Qed.
  Lemma tk_bind {A B} (h : H S A) (f : A -> H S B) : two_kinds h -> (forall a, two_kinds (f a)) -> two_kinds (hbind h f).
  Proof.
    intros Hh Hf s. specialize (Hh s). unfold calls, hbind in *. destruct (h s) as [t [[a|e|] s']]; cbn [fst snd] in *; [|exact Hh..].
    specialize (Hf a s'). unfold calls in Hf. destruct (f a s') as [t' x]. cbn [fst snd] in *.
    rewrite map_app, !filter_app, !app_length. lia.
  Qed.
  Lemma tk_cmp : two_kinds (S := S) (user UCmp).
  Proof. intros s. reflexivity. Qed.
  Lemma tk_clone : two_kinds (S := S) (user UClone).
  Proof. intros s. reflexivity. Qed.
End Kinds.
Lemma gph_kinds {K V} (cmp : K -> K -> comparison) : two_kinds (gph_next (V := V) cmp).
Proof.
  apply tk_bind; [apply tk_get|]. intros g. apply tk_bind.
  - induction (gp_iter g) as [|[o v] l IH]; cbn [gph_loop]; [apply tk_ret|].
    apply tk_bind; [apply tk_modify|]. intros _. apply tk_bind; [apply tk_get|]. intros g'. apply tk_bind; [apply tk_cmp|]. intros _.
    destruct (leb cmp _ _); [apply tk_ret|]. apply tk_bind; [apply tk_modify|]. intros _. apply tk_bind; [apply tk_cmp|]. intros _.
    destruct (ltb cmp _ _); [|exact IH]. do 2 (apply tk_bind; [apply tk_clone|]; intros _). apply tk_ret.
  - intros [r|]; [apply tk_ret|]. apply tk_bind; [apply tk_get|]. intros g'. apply tk_bind; [apply tk_cmp|]. intros _.
    destruct (ltb cmp _ _); [|apply tk_ret]. do 2 (apply tk_bind; [apply tk_clone|]; intros _).
    apply tk_bind; [apply tk_modify|]. intros _. apply tk_ret.
Qed.
Definition no_borrow {S A} (h : H S A) : Prop := forall s x, In x (fst (h s)) -> fst x <> UBorrow.
Lemma nb_bind {S A B} (h : H S A) (f : A -> H S B) : no_borrow h -> (forall a, no_borrow (f a)) -> no_borrow (hbind h f).
Proof.
  intros Hh Hf s x. specialize (Hh s x). unfold hbind. destruct (h s) as [t [[a|e|] s']]; cbn [fst] in *; [|exact Hh..].
  specialize (Hf a s' x). destruct (f a s') as [t' y]. cbn [fst] in *. intros Hx. apply in_app_iff in Hx as [Hx|Hx]; auto.
Qed.
Lemma gphi_kinds {K V} (cmp : K -> K -> comparison) (st : stepfns K) : no_borrow (gphi_next (V := V) cmp st).
Proof.
  assert (Hr : forall S A (a : A), no_borrow (S := S) (hret a)) by (intros S A a s x []).
  assert (Hg : forall S, no_borrow (S := S) hget) by (intros S s x []).
  assert (Hm : forall S f, no_borrow (S := S) (hmodify f)) by (intros S f s x []).
  assert (Hl : forall S A (o : outcome A), no_borrow (S := S) (hlift o)) by (intros S A a s x []).
  assert (Hu : forall S u, u <> UBorrow -> no_borrow (S := S) (user u)) by (intros S u Hu s x [<-|[]]; exact Hu).
  assert (Hi : forall S A (b : bool) (h h' : H S A), no_borrow h -> no_borrow h' -> no_borrow (if b then h else h')) by (intros S A []; auto).
  apply nb_bind; [apply Hg|]. intros g. apply nb_bind.
  - induction (gpi_iter g) as [|[o v] l IH]; cbn [gphi_loop]; [apply Hr|].
    repeat (first [apply Hi|apply Hr|apply Hg|apply Hm|apply Hl|apply Hu; discriminate|exact IH|apply nb_bind|intros ?]).
  - intros [r|]; [apply Hr|].
    repeat (first [apply Hi|apply Hr|apply Hg|apply Hm|apply Hl|apply Hu; discriminate|apply nb_bind|intros ?]).
Qed.
Definition kinds_ok (us : list ucall) : Prop := length us = length (filter is_cmp us) + length (filter is_clone us).
Lemma kinds_app a b : kinds_ok a -> kinds_ok b -> kinds_ok (a ++ b).
Proof. unfold kinds_ok. rewrite !filter_app, !app_length. lia. Qed.
Section KindsOps.
  Context {R I : Type} (inext : I -> option R * I) (ilen : I -> nat).
  Context (os oe : R -> R -> comparison) (mg : R -> R -> bool * R) (is_ : R -> R -> option R).
  Context (mc ic : R -> R -> list ucall) (Hm : forall a b, kinds_ok (mc a b)) (Hi : forall a b, kinds_ok (ic a b)).
  Lemma join_kinds pk nx r : two_kinds (S := pair_iter R I) (unh_join mg mc pk nx r).
  Proof.
    apply tk_bind; [apply tk_calm|]. intros [y|]; [|apply tk_ret]. apply tk_bind; [apply tk_users, Hm|]. intros _.
    destruct (mg r y) as [[] z]; [|apply tk_ret]. apply tk_bind; [apply tk_calm|]. intros _. apply tk_ret.
  Qed.
  Lemma uloop_kinds fuel : forall r, two_kinds (unh_loop inext mg mc fuel r).
  Proof.
    induction fuel as [|fuel IH]; intros r; cbn [unh_loop]; [apply tk_nofuel|].
    apply tk_bind; [apply join_kinds|]. intros [[] z]; cbn [fst snd]; [apply IH|].
    apply tk_bind; [apply join_kinds|]. intros [[] z']; cbn [fst snd]; [apply IH|apply tk_ret].
  Qed.
  Lemma un_kinds : two_kinds (unh_next inext ilen os mg clone_calls order_calls mc).
  Proof.
    assert (T : forall c : M (pair_iter R I) (option R), two_kinds (hbind (hcalm c) (fun o => hbind (hcalm (unwrap o)) (fun r => hret (Some r))))).
    { intros c. apply tk_bind; [apply tk_calm|]. intros o. apply tk_bind; [apply tk_calm|]. intros r. apply tk_ret. }
    apply tk_bind; [apply tk_calm|]. intros l. apply tk_bind; [apply tk_calm|]. intros r. apply tk_bind.
    - destruct l as [l|], r as [r|]; [|apply T|apply T|apply tk_ret]. apply tk_bind; [apply tk_users; reflexivity|]. intros _.
      destruct (os l r); apply T.
    - intros [z|]; [|apply tk_ret]. apply tk_bind; [apply tk_users; reflexivity|]. intros _. apply tk_bind; [apply tk_get|]. intros u.
      apply tk_bind; [apply uloop_kinds|]. intros z'. apply tk_ret.
  Qed.
  Lemma in_kinds : two_kinds (inh_next inext ilen oe is_ order_calls ic).
  Proof.
    apply tk_bind; [apply tk_get|]. intros u. induction (pk_len ilen (op_left u) + pk_len ilen (op_right u) + 1) as [|fuel IH]; cbn [inh_loop]; [apply tk_nofuel|].
    apply tk_bind; [apply tk_calm|]. intros l. apply tk_bind; [apply tk_calm|]. intros r. destruct l as [l|], r as [r|]; try apply tk_ret.
    apply tk_bind; [apply tk_users, Hi|]. intros _. apply tk_bind; [apply tk_users; reflexivity|]. intros _.
    apply tk_bind; [destruct (oe l r); apply tk_calm|]. intros _. destruct (is_ l r); [apply tk_ret|exact IH].
  Qed.
End KindsOps.
Section KindsTraits.
  Context {K : Type} (cmp : K -> K -> comparison).
  Lemma contains_kinds (a b : K) : kinds_ok (contains_calls cmp a b).
  Proof. unfold contains_calls. destruct (leb cmp a b); reflexivity. Qed.
  Lemma merge_kinds a b : kinds_ok (r_merge_calls cmp a b).
  Proof. apply kinds_app; [apply contains_kinds|]. destruct (negb _); [reflexivity|]. destruct (gtb _ _ _); reflexivity. Qed.
  Lemma imerge_kinds a b : kinds_ok (ri_merge_calls cmp a b).
  Proof. apply kinds_app; [apply contains_kinds|]. destruct (negb _); [reflexivity|]. destruct (gtb _ _ _); reflexivity. Qed.
  Lemma inter_kinds a b : kinds_ok (r_intersect_calls cmp a b).
  Proof. apply kinds_app; [reflexivity|]. destruct (r_intersect _ _ _); reflexivity. Qed.
  Lemma iinter_kinds a b : kinds_ok (ri_intersect_calls cmp a b).
  Proof. apply kinds_app; [reflexivity|]. destruct (ri_intersect _ _ _); reflexivity. Qed.
End KindsTraits.
