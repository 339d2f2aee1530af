(** How many clones a call makes (C100, C101).  The functions of CloneModel.v
    (which number the clones) are run in step with those of WorkModel.v (which
    record the calls on the [BTreeMap]): every clone is charged to a search, an
    insertion or a removal. *)
From Coq Require Import List Bool Lia ZArith.
From Verif Require Import Order Outcome BTree Ranges History Spec MapModel IMapModel WorkModel
  ListLemmas Cost WorkFacts CloneModel CloneFacts.
Import ListNotations.
Local Open Scope Z_scope.

Section Sim.
  Context {S S' : Type} (RS : S -> S' -> Prop) (w : bt_call -> Z).
  Notation W := (weigh w).

  (** [c'] makes at most [b] clones more than the calls of [t] pay for *)
  Definition tsim {A B} (b : Z) (R : A -> B -> Prop) (t : T S A) (c' : M (counted S') B) : Prop :=
    forall s n s', RS s s' ->
      orel R (fst (snd (t s))) (fst (c' (n, s'))) /\ RS (snd (snd (t s))) (snd (snd (c' (n, s')))) /\
      (forall a, fst (snd (t s)) = Ret a -> Z.of_nat (fst (snd (c' (n, s')))) <= Z.of_nat n + b + W (fst (t s))).

  Lemma tsim_le {A B} b b' (R : A -> B -> Prop) t c' : tsim b R t c' -> b <= b' -> tsim b' R t c'.
  Proof. intros H Hb s n s' Hs. destruct (H s n s' Hs) as (H1 & H2 & H3). splits; auto. intros a Ha. specialize (H3 a Ha). lia. Qed.
  Lemma tsim_ret {A B} b (R : A -> B -> Prop) x y : 0 <= b -> R x y -> tsim b R (tret x) (ret y).
  Proof. intros Hb H s n s' Hs. splits; [constructor; exact H|exact Hs|]. intros a _. cbn. lia. Qed.
  Lemma tsim_bind {A B C D} b1 b (R : A -> B -> Prop) (Q : C -> D -> Prop) c c' h h' :
    tsim b1 R c c' -> (forall x y, R x y -> tsim (b - b1) Q (h x) (h' y)) -> tsim b Q (tbind c h) (bind c' h').
  Proof.
    intros H1 H2 s n s' Hs. specialize (H1 s n s' Hs). unfold tbind, bind.
    destruct (c s) as [t [x s1]]; destruct (c' (n, s')) as [y [n1 s1']]; cbn [fst snd] in H1.
    destruct H1 as (Ho & Hs1 & Hc). destruct Ho as [x y Hxy|p|]; cbn [fst snd].
    - specialize (H2 x y Hxy s1 n1 s1' Hs1). specialize (Hc x eq_refl).
      destruct (h x s1) as [t' [z s2]]; destruct (h' y (n1, s1')) as [z' [n2 s2']]; cbn [fst snd] in *.
      destruct H2 as (G1 & G2 & G3). splits; auto. intros a Ha. specialize (G3 a Ha). rewrite weigh_app. lia.
    - splits; [constructor|exact Hs1|discriminate].
    - splits; [constructor|exact Hs1|discriminate].
  Qed.
  (** a clone on the right, nothing on the left *)
  Lemma tsim_clone {A B X} b (R : A -> B -> Prop) (cl : nat -> X -> X) (k : X) c h' :
    (forall n, tsim (b - 1) R c (h' (cl n k))) ->
    tsim b R c (bind (fun s => (Ret (cl (fst s) k), (Datatypes.S (fst s), snd s))) h').
  Proof.
    intros H s n s' Hs. unfold bind. cbn. destruct (H n s (Datatypes.S n) s' Hs) as (H1 & H2 & H3).
    splits; auto. intros a Ha. specialize (H3 a Ha). lia.
  Qed.
  Lemma tsim_get : tsim 0 RS tget cget.
  Proof. intros s n s' Hs. splits; [constructor; exact Hs|exact Hs|]. intros a _. cbn. lia. Qed.
  Lemma tsim_insert f f' : (forall s s', RS s s' -> RS (f s) (f' s')) ->
    tsim (- w BInsert) (fun _ _ => True) (tinsert f) (cmodify f').
  Proof. intros H s n s' Hs. splits; [constructor; exact I|cbn; apply H, Hs|]. intros a _. cbn. lia. Qed.
  Lemma tsim_remove f f' : (forall s s', RS s s' -> RS (f s) (f' s')) ->
    tsim (- w BRemove) (fun _ _ => True) (tremove f) (cmodify f').
  Proof. intros H s n s' Hs. splits; [constructor; exact I|cbn; apply H, Hs|]. intros a _. cbn. lia. Qed.
  Lemma tsim_search {A B} (R : A -> B -> Prop) o o' : orel R o o' -> tsim (- w BSearch) R (tsearch o) (lift o').
  Proof. intros H s n s' Hs. splits; [exact H|exact Hs|]. intros a _. cbn. lia. Qed.
  Lemma tsim_lift {A B} (R : A -> B -> Prop) o o' : orel R o o' -> tsim 0 R (tlift o) (lift o').
  Proof. intros H s n s' Hs. splits; [exact H|exact Hs|]. intros a _. cbn. lia. Qed.
  Lemma tsim_if {A B} b (R : A -> B -> Prop) (x x' : bool) c d c' d' :
    x' = x -> (x = true -> tsim b R c c') -> (x = false -> tsim b R d d') ->
    tsim b R (if x then c else d) (if x' then c' else d').
  Proof. intros -> H1 H2. destruct x; auto. Qed.
  Lemma tsim_nofuel {A B} b (R : A -> B -> Prop) : tsim b R tnofuel nofuel.
  Proof. intros s n s' Hs. splits; [constructor|exact Hs|discriminate]. Qed.
  Lemma tsim_assert x x' : x' = x -> tsim 0 (fun _ _ => True) (tassert x) (assert_ x').
  Proof. intros -> s n s' Hs. destruct x; cbn; splits; try exact Hs; try constructor; try discriminate; try exact I. intros; lia. Qed.
  Context (W0 : 0 <= w BRead).
  Lemma tsim_next {A B C} b (R : A -> B -> Prop) (l : list C) f c' :
    tsim b R (f (fst (it_next l))) c' -> tsim b R (tbind (tnext l) f) c'.
  Proof.
    intros H s n s' Hs. destruct (H s n s' Hs) as (H1 & H2 & H3). unfold tbind, tnext.
    destruct (it_next l) as [[x|] l1]; cbn [fst] in *; destruct (f _ s) as [t [o s1]]; cbn [fst snd app] in *; splits; auto.
    intros a Ha. specialize (H3 a Ha). rewrite ?weigh_cons. lia.
  Qed.
  Lemma tsim_next_back {A B C} b (R : A -> B -> Prop) (l : list C) f c' :
    tsim b R (f (last_opt l)) c' -> tsim b R (tbind (tnext_back l) f) c'.
  Proof.
    intros H s n s' Hs. destruct (H s n s' Hs) as (H1 & H2 & H3). unfold tbind, tnext_back. unfold last_opt in *.
    destruct (it_next_back l) as [[x|] l1]; cbn [fst] in *; destruct (f _ s) as [t [o s1]]; cbn [fst snd app] in *; splits; auto.
    intros a Ha. specialize (H3 a Ha). rewrite ?weigh_cons. lia.
  Qed.
  Lemma tsim_read {A B C} b (R : A -> B -> Prop) (l : list C) f c' :
    tsim b R (f l) c' -> tsim b R (tbind (tread l) f) c'.
  Proof.
    intros H s n s' Hs. destruct (H s n s' Hs) as (H1 & H2 & H3). unfold tbind, tread.
    destruct (f l s) as [t [o s1]]; cbn [fst snd app] in *; splits; auto.
    intros a Ha. specialize (H3 a Ha). rewrite weigh_app, weigh_repeat. nia.
  Qed.
  Lemma tsim_assoc {A B C D} b (R : A -> B -> Prop) c
      (x : M (counted S') C) (f : C -> M (counted S') D) g :
    tsim b R c (bind x (fun a => bind (f a) g)) -> tsim b R c (bind (bind x f) g).
  Proof. intros H s n s' Hs. rewrite bind_assoc. apply H, Hs. Qed.
End Sim.

Section Keys.
  Context {K V : Type} {cmp : K -> K -> comparison} {veqb : V -> V -> bool}.
  Context {kcl : nat -> K -> K} {vcl : nat -> V -> V}.
  Context {RK : K -> K -> Prop} {RV : V -> V -> Prop}.
  Context (HK : forall a b a' b', RK a a' -> RK b b' -> cmp a' b' = cmp a b).
  Context (HV : forall v w v' w', RV v v' -> RV w w' -> veqb v' w' = veqb v w).
  Context (CK : forall n a a', RK a a' -> RK a (kcl n a')).
  Context (CV : forall n v v', RV v v' -> RV v (vcl n v')).
  Context (w : bt_call -> Z).
  Context (WS : w BSearch = 3) (WI : w BInsert = 2) (WR : 0 <= w BRemove) (W0 : w BRead = 0).

  Notation Rr := (Rr (RK := RK)).
  Notation Re := (Re (RK := RK) (RV := RV)).
  Notation TT := (fun _ _ => True).
  Notation c_ltb := (c_ltb HK).
  Notation c_leb := (c_leb HK).
  Notation c_gtb := (c_gtb HK).
  Notation c_eqb := (c_eqb HK).
  Notation c_kmin := (c_kmin HK).
  Notation c_kmax := (c_kmax HK).
  Notation c_overlaps := (c_overlaps HK).
  Notation c_touches := (c_touches HK).
  Notation c_start := (c_start HK).

  Lemma tsim_kclone {S S' A B} (RS : S -> S' -> Prop) b (R : A -> B -> Prop) k k' c h' : RK k k' ->
    (forall k'', RK k k'' -> tsim RS w (b - 1) R c (h' k'')) -> tsim RS w b R c (bind (kclone kcl k') h').
  Proof. intros H1 H2. apply tsim_clone. intros n. apply H2, CK, H1. Qed.
  Lemma tsim_vclone {S S' A B} (RS : S -> S' -> Prop) b (R : A -> B -> Prop) v v' c h' : RV v v' ->
    (forall v'', RV v v'' -> tsim RS w (b - 1) R c (h' v'')) -> tsim RS w b R c (bind (vclone vcl v') h').
  Proof. intros H1 H2. apply tsim_clone. intros n. apply H2, CV, H1. Qed.

  Notation rsim := (tsim (Forall2 Re) w).
  Lemma rt_rclone {A B} b (R : A -> B -> Prop) r r' c h' : Rr r r' ->
    (forall r'', Rr r r'' -> rsim (b - 2) R c (h' r'')) -> rsim b R c (bind (r_clone kcl r') h').
  Proof.
    intros [H1 H2] H. unfold r_clone. apply tsim_assoc. eapply tsim_kclone; [exact H1|].
    intros s Hs. apply tsim_assoc. eapply tsim_kclone; [exact H2|]. intros e He.
    intros m n m' Hm. unfold bind at 1. cbn [ret].
    destruct (H (mkR s e) (conj Hs He) m n m' Hm) as (G1 & G2 & G3). unfold bind at 1 2. cbn [ret].
    splits; auto. intros a Ha. specialize (G3 a Ha). lia.
  Qed.
  Lemma rt_insert k v k' v' : Rr k k' -> RV v v' ->
    rsim (-2) TT (tinsert (bt_insert (cmp_start cmp) k v)) (cmodify (bt_insert (cmp_start cmp) k' v')).
  Proof. intros Hk Hv. replace (-2) with (- w BInsert) by (rewrite WI; reflexivity). apply tsim_insert. intros m m' Hm. apply (c_bt_insert c_start); assumption. Qed.
  Lemma rt_remove k k' : Rr k k' ->
    rsim (- w BRemove) TT (tremove (bt_remove (cmp_start cmp) k)) (cmodify (bt_remove (cmp_start cmp) k')).
  Proof. intros Hk. apply tsim_remove. intros m m' Hm. apply (c_bt_remove c_start); assumption. Qed.

  Lemma rt_adjust_insert s sv r v s' sv' r' v' : w BRemove = 2 -> Rr s s' -> RV sv sv' -> Rr r r' -> RV v v' ->
    rsim 0 Rr (rmt_adjust_touching_ranges_for_insert cmp veqb s sv r v)
              (rmc_adjust_touching_ranges_for_insert kcl vcl cmp veqb s' sv' r' v').
  Proof.
    intros W2 Hs Hsv Hr Hv. pose proof Hs as [Hs1 Hs2]. pose proof Hr as [Hr1 Hr2].
    unfold rmt_adjust_touching_ranges_for_insert, rmc_adjust_touching_ranges_for_insert.
    apply tsim_if; [apply HV; assumption| |]; intros _.
    - eapply tsim_kclone; [apply c_kmin; [exact Hr1|exact Hs1]|]. intros a Ha.
      eapply tsim_kclone; [apply c_kmax; [exact Hr2|exact Hs2]|]. intros b Hb.
      eapply tsim_bind; [apply rt_remove, Hs|]. intros _ _ _. apply tsim_ret; [lia|]. split; assumption.
    - apply tsim_if; [apply c_overlaps; assumption| |]; intros _; [|apply tsim_ret; [lia|exact Hr]].
      eapply tsim_bind; [apply rt_remove, Hs|]. intros _ _ _.
      eapply (tsim_bind _ _ 0 _ TT).
      { apply tsim_if; [apply c_ltb; assumption| |]; intros _; [|apply tsim_ret; [lia|exact I]].
        eapply tsim_kclone; [exact Hr1|]. intros k Hk.
        eapply tsim_vclone; [exact Hsv|]. intros x Hx.
        eapply tsim_le; [apply rt_insert; [split|]; assumption|lia]. }
      intros _ _ _. eapply (tsim_bind _ _ 0 _ TT).
      { apply tsim_if; [apply c_gtb; assumption| |]; intros _; [|apply tsim_ret; [lia|exact I]].
        eapply tsim_kclone; [exact Hr2|]. intros k Hk.
        eapply tsim_le; [apply rt_insert; [split|]; assumption|lia]. }
      intros _ _ _. apply tsim_ret; [lia|exact Hr].
  Qed.
  Lemma rt_insert_loop fuel : w BRemove = 2 -> forall r v e r' v' e', Rr r r' -> RV v v' -> Rr e e' ->
    rsim (-3) Rr (rmt_insert_loop cmp veqb fuel r v e) (rmc_insert_loop kcl vcl cmp veqb fuel r' v' e').
  Proof.
    intros W2. induction fuel as [|fuel IH]; intros r v e r' v' e' Hr Hv He; [apply tsim_nofuel|].
    cbn [rmt_insert_loop rmc_insert_loop].
    eapply tsim_bind; [apply tsim_get|]. intros m m' Hm.
    eapply tsim_bind; [apply tsim_search; eapply (c_bt_range c_start); [exact Hr|exact He|exact Hm]|].
    intros l l' Hl. apply tsim_next; [lia|]. destruct (f2_next _ _ Hl) as [Hn _].
    destruct (fst (it_next l)) as [[s sv]|], (fst (it_next l')) as [[s' sv']|]; try contradiction Hn;
      [|apply tsim_ret; [lia|exact Hr]].
    destruct Hn as [Hs Hsv]. cbn in Hs, Hsv.
    apply tsim_if.
    { f_equal; [apply c_eqb; [apply Hs|apply Hr]|]. f_equal. apply HV; assumption. }
    { intros _. apply tsim_ret; [lia|exact Hr]. }
    intros _. eapply rt_rclone; [exact Hs|]. intros s'' Hs'.
    eapply tsim_vclone; [exact Hsv|]. intros sv'' Hsv'.
    eapply tsim_bind; [apply rt_adjust_insert; assumption|]. intros r1 r1' Hr1.
    eapply tsim_le; [apply IH; assumption|lia].
  Qed.
  Lemma rt_insert_ r v r' v' : w BRemove = 2 -> Rr r r' -> RV v v' ->
    rsim (-3) TT (rmt_insert cmp veqb r v) (rmc_insert kcl vcl cmp veqb r' v').
  Proof.
    intros W2 Hr Hv. unfold rmt_insert, rmc_insert.
    eapply tsim_bind; [apply tsim_assert, c_ltb; apply Hr|]. intros _ _ _.
    eapply tsim_bind; [apply tsim_get|]. intros m m' Hm.
    eapply tsim_bind; [apply tsim_search; eapply (c_bt_range c_start); [exact I|exact Hr|exact Hm]|].
    intros l l' Hl. apply tsim_read; [lia|]. eapply (tsim_bind _ _ 3 _ Rr).
    { assert (Hf : Forall2 Re (filter (fun e => r_touches cmp (fst e) r) (firstn 2 (rev l)))
                     (filter (fun e => r_touches cmp (fst e) r') (firstn 2 (rev l')))).
      { eapply f2_filter; [|apply f2_firstn, f2_rev, Hl]. intros a b [Ha _]. apply c_touches; assumption. }
      assert (Ha : forall s sv s' sv', Rr s s' -> RV sv sv' ->
        rsim 3 Rr (rmt_adjust_touching_ranges_for_insert cmp veqb s sv r v)
          (s2 <- r_clone kcl s' ;; sv2 <- vclone vcl sv' ;;
           rmc_adjust_touching_ranges_for_insert kcl vcl cmp veqb s2 sv2 r' v')%M).
      { intros s sv s' sv' Hs Hsv. eapply rt_rclone; [exact Hs|]. intros s2 Hs2.
        eapply tsim_vclone; [exact Hsv|]. intros sv2 Hsv2. apply rt_adjust_insert; assumption. }
      destruct Hf as [|[s sv] [s' sv'] t t' [H1 H2] Ht]; [apply tsim_ret; [lia|exact Hr]|].
      destruct Ht as [|[s0 sv0] [s0' sv0'] t t' [H3 H4] Ht]; apply Ha; assumption. }
    intros r1 r1' Hr1.
    eapply tsim_kclone; [apply Hr1|]. intros k1 Hk1.
    eapply tsim_kclone; [apply Hr1|]. intros k2 Hk2.
    eapply tsim_bind; [apply tsim_get|]. intros m1 m1' Hm1. rewrite (f2_length _ _ Hm1).
    eapply tsim_bind; [apply rt_insert_loop; [exact W2|exact Hr1|exact Hv|split; assumption]|].
    intros r2 r2' Hr2. eapply tsim_le; [apply rt_insert; assumption|lia].
  Qed.
  Lemma rt_adjust_remove s sv r s' sv' r' : Rr s s' -> RV sv sv' -> Rr r r' ->
    rsim 0 TT (rmt_adjust_overlapping_ranges_for_remove cmp s sv r)
              (rmc_adjust_overlapping_ranges_for_remove kcl vcl cmp s' sv' r').
  Proof.
    intros Hs Hsv Hr. pose proof Hs as [Hs1 Hs2]. pose proof Hr as [Hr1 Hr2].
    unfold rmt_adjust_overlapping_ranges_for_remove, rmc_adjust_overlapping_ranges_for_remove.
    eapply (tsim_bind _ _ 0 _ TT); [eapply tsim_le; [apply rt_remove, Hs|lia]|]. intros _ _ _.
    eapply (tsim_bind _ _ 0 _ TT).
    { apply tsim_if; [apply c_ltb; assumption| |]; intros _; [|apply tsim_ret; [lia|exact I]].
      eapply tsim_kclone; [exact Hr1|]. intros k Hk.
      eapply tsim_vclone; [exact Hsv|]. intros x Hx.
      eapply tsim_le; [apply rt_insert; [split|]; assumption|lia]. }
    intros _ _ _. apply tsim_if; [apply c_gtb; assumption| |]; intros _; [|apply tsim_ret; [lia|exact I]].
    eapply tsim_kclone; [exact Hr2|]. intros k Hk.
    eapply tsim_le; [apply rt_insert; [split|]; assumption|lia].
  Qed.
  Lemma rt_remove_loop fuel : forall r e r' e', Rr r r' -> Rr e e' ->
    rsim (-3) TT (rmt_remove_loop cmp (V:=V) fuel r e) (rmc_remove_loop kcl vcl cmp fuel r' e').
  Proof.
    induction fuel as [|fuel IH]; intros r e r' e' Hr He; [apply tsim_nofuel|].
    cbn [rmt_remove_loop rmc_remove_loop].
    eapply tsim_bind; [apply tsim_get|]. intros m m' Hm.
    eapply tsim_bind; [apply tsim_search; eapply (c_bt_range c_start); [exact Hr|exact He|exact Hm]|].
    intros l l' Hl. apply tsim_next; [lia|]. destruct (f2_next _ _ Hl) as [Hn _].
    destruct (fst (it_next l)) as [[s sv]|], (fst (it_next l')) as [[s' sv']|]; try contradiction Hn;
      [|apply tsim_ret; [lia|exact I]].
    destruct Hn as [Hs Hsv]. cbn in Hs, Hsv.
    eapply rt_rclone; [exact Hs|]. intros s'' Hs'.
    eapply tsim_vclone; [exact Hsv|]. intros sv'' Hsv'.
    eapply tsim_bind; [apply rt_adjust_remove; assumption|]. intros _ _ _.
    eapply tsim_le; [apply IH; assumption|lia].
  Qed.
  Lemma rt_remove_ r r' : Rr r r' -> rsim (-1) TT (rmt_remove cmp (V:=V) r) (rmc_remove kcl vcl cmp r').
  Proof.
    intros Hr. unfold rmt_remove, rmc_remove.
    eapply tsim_bind; [apply tsim_assert, c_ltb; apply Hr|]. intros _ _ _.
    eapply tsim_bind; [apply tsim_get|]. intros m m' Hm.
    eapply tsim_bind; [apply tsim_search; eapply (c_bt_range c_start); [exact I|exact Hr|exact Hm]|].
    intros l l' Hl. apply tsim_next_back; [lia|]. eapply (tsim_bind _ _ 3 _ TT).
    { pose proof (f2_last _ _ Hl) as Hn.
      destruct (last_opt l) as [[s sv]|], (last_opt l') as [[s' sv']|]; try contradiction Hn;
        [|apply tsim_ret; [lia|exact I]].
      destruct Hn as [Hs Hsv]. cbn in Hs, Hsv.
      apply tsim_if; [apply c_overlaps; assumption| |]; intros _; [|apply tsim_ret; [lia|exact I]].
      eapply rt_rclone; [exact Hs|]. intros s'' Hs'.
      eapply tsim_vclone; [exact Hsv|]. intros sv'' Hsv'.
      eapply tsim_le; [apply rt_adjust_remove; assumption|lia]. }
    intros _ _ _.
    eapply tsim_kclone; [apply Hr|]. intros k1 Hk1.
    eapply tsim_kclone; [apply Hr|]. intros k2 Hk2.
    eapply tsim_bind; [apply tsim_get|]. intros m1 m1' Hm1. rewrite (f2_length _ _ Hm1).
    eapply tsim_le; [apply rt_remove_loop; [exact Hr|split; assumption]|lia].
  Qed.

  (** *** Inclusive *)
  Context {st : stepfns K}.
  Context (HA : forall x x' y, RK x x' -> ltb cmp x y = true ->
                  orel RK (step_o (add_one st x)) (step_o (add_one st x'))).
  Context (HS : forall x x' y, RK x x' -> ltb cmp y x = true ->
                  orel RK (step_o (sub_one st x)) (step_o (sub_one st x'))).
  Notation Rri := (Rri (RK := RK)).
  Notation Rei := (Rei (RK := RK) (RV := RV)).
  Notation ci_start := (ci_start HK).
  Notation ci_overlaps := (ci_overlaps HK).
  Notation isim := (tsim (Forall2 Rei) w).
  Lemma it_rclone {A B} b (R : A -> B -> Prop) r r' c h' : Rri r r' ->
    (forall r'', Rri r r'' -> isim (b - 2) R c (h' r'')) -> isim b R c (bind (ri_clone kcl r') h').
  Proof.
    intros (H1 & H2 & H3) H. unfold ri_clone. apply tsim_assoc. eapply tsim_kclone; [exact H1|].
    intros s Hs. apply tsim_assoc. eapply tsim_kclone; [exact H2|]. intros e He.
    intros m n m' Hm. unfold bind at 1. cbn [ret].
    destruct (H (mkRI s e (ri_exhausted r')) (conj Hs (conj He H3)) m n m' Hm) as (G1 & G2 & G3). unfold bind at 1 2. cbn [ret].
    splits; auto. intros a Ha. specialize (G3 a Ha). lia.
  Qed.
  Lemma it_insert k v k' v' : Rri k k' -> RV v v' ->
    isim (-2) TT (tinsert (bt_insert (cmpi_start cmp) k v)) (cmodify (bt_insert (cmpi_start cmp) k' v')).
  Proof. intros Hk Hv. replace (-2) with (- w BInsert) by (rewrite WI; reflexivity). apply tsim_insert. intros m m' Hm. apply (c_bt_insert ci_start); assumption. Qed.
  Lemma it_remove k k' : Rri k k' ->
    isim (- w BRemove) TT (tremove (bt_remove (cmpi_start cmp) k)) (cmodify (bt_remove (cmpi_start cmp) k')).
  Proof. intros Hk. apply tsim_remove. intros m m' Hm. apply (c_bt_remove ci_start); assumption. Qed.
  Lemma it_before s sv r s' sv' r' : Rri s s' -> RV sv sv' -> Rri r r' ->
    isim 0 TT
      (if ltb cmp (ri_start s) (ri_start r)
        then p <- tlift (step_o (sub_one st (ri_start r))) ;;
             tinsert (bt_insert (cmpi_start cmp) (incl (ri_start s) p) sv)
        else tret tt)%T
      (if ltb cmp (ri_start s') (ri_start r')
        then k <- kclone kcl (ri_start s') ;;
             p <- lift (step_o (sub_one st (ri_start r'))) ;;
             v <- vclone vcl sv' ;;
             cmodify (bt_insert (cmpi_start cmp) (incl k p) v)
        else ret tt)%M.
  Proof.
    intros (Hs1 & Hs2 & _) Hsv (Hr1 & Hr2 & _).
    apply tsim_if; [apply c_ltb; assumption| |]; intros Hlt; [|apply tsim_ret; [lia|exact I]].
    eapply tsim_kclone; [exact Hs1|]. intros k Hk.
    eapply tsim_bind; [apply tsim_lift; eapply HS; [exact Hr1|exact Hlt]|]. intros p p' Hp.
    eapply tsim_vclone; [exact Hsv|]. intros x Hx.
    eapply tsim_le; [apply it_insert; [apply ci_incl|]; assumption|lia].
  Qed.
  Lemma it_after s sv r s' sv' r' : Rri s s' -> RV sv sv' -> Rri r r' ->
    isim 0 TT
      (if gtb cmp (ri_end s) (ri_end r)
        then e <- tlift (step_o (add_one st (ri_end r))) ;;
             tinsert (bt_insert (cmpi_start cmp) (incl e (ri_end s)) sv)
        else tret tt)%T
      (if gtb cmp (ri_end s') (ri_end r')
        then k <- lift (step_o (add_one st (ri_end r'))) ;;
             e <- kclone kcl (ri_end s') ;;
             cmodify (bt_insert (cmpi_start cmp) (incl k e) sv')
        else ret tt)%M.
  Proof.
    intros (Hs1 & Hs2 & _) Hsv (Hr1 & Hr2 & _).
    apply tsim_if; [apply c_gtb; assumption| |]; intros Hlt; [|apply tsim_ret; [lia|exact I]].
    eapply tsim_bind; [apply tsim_lift; eapply HA; [exact Hr2|exact Hlt]|]. intros p p' Hp.
    eapply tsim_kclone; [exact Hs2|]. intros k Hk.
    eapply tsim_le; [apply it_insert; [apply ci_incl|]; assumption|lia].
  Qed.
  Lemma it_adjust_insert s sv r v s' sv' r' v' : w BRemove = 2 -> Rri s s' -> RV sv sv' -> Rri r r' -> RV v v' ->
    isim 0 Rri (imt_adjust_touching_ranges_for_insert cmp veqb st s sv r v)
               (imc_adjust_touching_ranges_for_insert kcl vcl cmp veqb st s' sv' r' v').
  Proof.
    intros W2 Hs Hsv Hr Hv. pose proof Hs as (Hs1 & Hs2 & _). pose proof Hr as (Hr1 & Hr2 & _).
    unfold imt_adjust_touching_ranges_for_insert, imc_adjust_touching_ranges_for_insert.
    apply tsim_if; [apply HV; assumption| |]; intros _.
    - eapply tsim_kclone; [apply c_kmin; [exact Hr1|exact Hs1]|]. intros a Ha.
      eapply tsim_kclone; [apply c_kmax; [exact Hr2|exact Hs2]|]. intros b Hb.
      eapply tsim_bind; [apply it_remove, Hs|]. intros _ _ _. apply tsim_ret; [lia|]. apply ci_incl; assumption.
    - apply tsim_if; [apply ci_overlaps; assumption| |]; intros _; [|apply tsim_ret; [lia|exact Hr]].
      eapply tsim_bind; [apply it_remove, Hs|]. intros _ _ _.
      eapply (tsim_bind _ _ 0 _ TT); [apply it_before; assumption|]. intros _ _ _.
      eapply (tsim_bind _ _ 0 _ TT); [apply it_after; assumption|]. intros _ _ _.
      apply tsim_ret; [lia|exact Hr].
  Qed.
  Lemma it_insert_loop fuel : w BRemove = 2 -> forall r v e r' v' e', Rri r r' -> RV v v' -> RK (ri_start e) (ri_start e') ->
    isim (-3) Rri (imt_insert_loop cmp veqb st fuel r v e) (imc_insert_loop kcl vcl cmp veqb st fuel r' v' e').
  Proof.
    intros W2. induction fuel as [|fuel IH]; intros r v e r' v' e' Hr Hv He; [apply tsim_nofuel|].
    cbn [imt_insert_loop imc_insert_loop].
    eapply tsim_bind; [apply tsim_get|]. intros m m' Hm.
    eapply tsim_bind; [apply tsim_search; eapply (c_bt_range ci_start); [exact Hr|exact I|exact Hm]|].
    intros l l' Hl. apply tsim_next; [lia|]. destruct (f2_next _ _ Hl) as [Hn _].
    destruct (fst (it_next l)) as [[s sv]|], (fst (it_next l')) as [[s' sv']|]; try contradiction Hn;
      [|apply tsim_ret; [lia|exact Hr]].
    destruct Hn as [Hs Hsv]. cbn in Hs, Hsv. pose proof Hs as (Hs1 & Hs2 & _).
    eapply (tsim_bind _ _ 0 _ (fun b b' : bool => b' = b)).
    { apply tsim_lift. rewrite (c_gtb _ _ _ _ Hs1 He).
      destruct (gtb cmp (ri_start s) (ri_start e)) eqn:Hg; [|constructor; reflexivity].
      unfold omap. eapply orel_bind; [eapply HA; [exact He|exact Hg]|]. intros a b Hab. constructor.
      rewrite (c_gtb _ _ _ _ Hs1 Hab), (c_eqb _ _ _ _ Hs1 Hab), (HV _ _ _ _ Hsv Hv). reflexivity. }
    intros b b' ->. apply tsim_if; [reflexivity| |]; intros _; [apply tsim_ret; [lia|exact Hr]|].
    eapply it_rclone; [exact Hs|]. intros s'' Hs'.
    eapply tsim_vclone; [exact Hsv|]. intros sv'' Hsv'.
    eapply tsim_bind; [apply it_adjust_insert; assumption|]. intros r1 r1' Hr1.
    eapply tsim_le; [apply IH; assumption|lia].
  Qed.
  (** [touches] clones at most once *)
  Lemma it_touches {S} (a b : rangei K) (s : counted S) :
    Z.of_nat (fst (snd (ric_touches kcl cmp st a b s))) <= Z.of_nat (fst s) + 1.
  Proof.
    unfold ric_touches, bind, lift, kclone. cbv zeta. destruct (ltb cmp _ _); [destruct (step_o _)|]; cbn [fst snd ret]; lia.
  Qed.
  Lemma it_filter_count {S} r l : forall s : counted S,
    Z.of_nat (fst (snd (filter_m (fun e : rangei K * V => ric_touches kcl cmp st (fst e) r) l s))) <=
    Z.of_nat (fst s) + Z.of_nat (length l).
  Proof.
    induction l as [|e l IH]; intros s; cbn [filter_m length]; [cbn; lia|].
    pose proof (it_touches (fst e) r s) as H. unfold bind.
    destruct (ric_touches kcl cmp st (fst e) r s) as [[b|p|] s1]; cbn [fst snd] in *; [|lia|lia].
    specialize (IH s1). destruct (filter_m _ l s1) as [[t|p|] s2]; cbn [fst snd ret] in *; lia.
  Qed.
  Lemma it_filter r r' l l' : Rri r r' -> Forall2 Rei l l' ->
    isim (Z.of_nat (length l)) (Forall2 Rei) (tlift (filter_o (fun e => ri_touches cmp st (fst e) r) l))
      (filter_m (fun e => ric_touches kcl cmp st (fst e) r') l').
  Proof.
    intros Hr Hl s n s' Hs. destruct (ci_filter HK CK HA r r' l l' Hr Hl s n s' Hs) as [G1 G2]. splits; [exact G1|exact G2|].
    intros a _. pose proof (it_filter_count r' l' (n, s')) as H. rewrite <- (f2_length _ _ Hl) in H.
    cbn [tlift fst snd] in *. unfold weigh. cbn [fold_right]. lia.
  Qed.
  Lemma it_insert_ r v r' v' : w BRemove = 2 -> Rri r r' -> RV v v' ->
    isim (-1) TT (imt_insert cmp veqb st r v) (imc_insert kcl vcl cmp veqb st r' v').
  Proof.
    intros W2 Hr Hv. unfold imt_insert, imc_insert.
    eapply tsim_bind; [apply tsim_assert, c_leb; apply Hr|]. intros _ _ _.
    eapply tsim_bind; [apply tsim_get|]. intros m m' Hm.
    eapply tsim_bind; [apply tsim_search; eapply (c_bt_range ci_start); [exact I|exact Hr|exact Hm]|].
    intros l l' Hl. apply tsim_read; [lia|].
    eapply (tsim_bind _ _ 2); [eapply tsim_le; [apply it_filter; [exact Hr|apply f2_firstn, f2_rev, Hl]|]|].
    { pose proof (firstn_le_length 2 (rev l)). lia. }
    intros cs cs' Hf.
    eapply (tsim_bind _ _ 3 _ Rri).
    { assert (Ha : forall s sv s' sv', Rri s s' -> RV sv sv' ->
        isim 3 Rri (imt_adjust_touching_ranges_for_insert cmp veqb st s sv r v)
          (s2 <- ri_clone kcl s' ;; sv2 <- vclone vcl sv' ;;
           imc_adjust_touching_ranges_for_insert kcl vcl cmp veqb st s2 sv2 r' v')%M).
      { intros s sv s' sv' Hs Hsv. eapply it_rclone; [exact Hs|]. intros s2 Hs2.
        eapply tsim_vclone; [exact Hsv|]. intros sv2 Hsv2. apply it_adjust_insert; assumption. }
      destruct Hf as [|[s sv] [s' sv'] t t' [H1 H2] Ht]; [apply tsim_ret; [lia|exact Hr]|].
      destruct Ht as [|[s0 sv0] [s0' sv0'] t t' [H3 H4] Ht]; apply Ha; assumption. }
    intros r1 r1' Hr1.
    eapply tsim_kclone; [apply Hr1|]. intros k1 Hk1.
    eapply tsim_kclone; [exact Hk1|]. intros k2 Hk2.
    eapply tsim_bind; [apply tsim_get|]. intros m1 m1' Hm1. rewrite (f2_length _ _ Hm1).
    eapply tsim_bind; [apply it_insert_loop; [exact W2|exact Hr1|exact Hv|exact Hk2]|].
    intros r2 r2' Hr2. eapply tsim_le; [apply it_insert; assumption|lia].
  Qed.
  Lemma it_adjust_remove s sv r s' sv' r' : Rri s s' -> RV sv sv' -> Rri r r' ->
    isim 0 TT (imt_adjust_overlapping_ranges_for_remove cmp st s sv r)
              (imc_adjust_overlapping_ranges_for_remove kcl vcl cmp st s' sv' r').
  Proof.
    intros Hs Hsv Hr.
    unfold imt_adjust_overlapping_ranges_for_remove, imc_adjust_overlapping_ranges_for_remove.
    eapply (tsim_bind _ _ 0 _ TT); [eapply tsim_le; [apply it_remove, Hs|lia]|]. intros _ _ _.
    eapply (tsim_bind _ _ 0 _ TT); [apply it_before; assumption|]. intros _ _ _.
    eapply tsim_le; [apply it_after; assumption|lia].
  Qed.
  Lemma it_remove_loop fuel : forall r e r' e', Rri r r' -> Rri e e' ->
    isim (-3) TT (imt_remove_loop cmp (V:=V) st fuel r e) (imc_remove_loop kcl vcl cmp st fuel r' e').
  Proof.
    induction fuel as [|fuel IH]; intros r e r' e' Hr He; [apply tsim_nofuel|].
    cbn [imt_remove_loop imc_remove_loop].
    eapply tsim_bind; [apply tsim_get|]. intros m m' Hm.
    eapply tsim_bind; [apply tsim_search; eapply (c_bt_range ci_start); [exact Hr|exact He|exact Hm]|].
    intros l l' Hl. apply tsim_next; [lia|]. destruct (f2_next _ _ Hl) as [Hn _].
    destruct (fst (it_next l)) as [[s sv]|], (fst (it_next l')) as [[s' sv']|]; try contradiction Hn;
      [|apply tsim_ret; [lia|exact I]].
    destruct Hn as [Hs Hsv]. cbn in Hs, Hsv.
    eapply it_rclone; [exact Hs|]. intros s'' Hs'.
    eapply tsim_vclone; [exact Hsv|]. intros sv'' Hsv'.
    eapply tsim_bind; [apply it_adjust_remove; assumption|]. intros _ _ _.
    eapply tsim_le; [apply IH; assumption|lia].
  Qed.
  Lemma it_remove_ r r' : Rri r r' -> isim (-1) TT (imt_remove cmp (V:=V) st r) (imc_remove kcl vcl cmp st r').
  Proof.
    intros Hr. unfold imt_remove, imc_remove.
    eapply tsim_bind; [apply tsim_assert, c_leb; apply Hr|]. intros _ _ _.
    eapply tsim_bind; [apply tsim_get|]. intros m m' Hm.
    eapply tsim_bind; [apply tsim_search; eapply (c_bt_range ci_start); [exact I|exact Hr|exact Hm]|].
    intros l l' Hl. apply tsim_next_back; [lia|]. eapply (tsim_bind _ _ 3 _ TT).
    { pose proof (f2_last _ _ Hl) as Hn.
      destruct (last_opt l) as [[s sv]|], (last_opt l') as [[s' sv']|]; try contradiction Hn;
        [|apply tsim_ret; [lia|exact I]].
      destruct Hn as [Hs Hsv]. cbn in Hs, Hsv.
      apply tsim_if; [apply ci_overlaps; assumption| |]; intros _; [|apply tsim_ret; [lia|exact I]].
      eapply it_rclone; [exact Hs|]. intros s'' Hs'.
      eapply tsim_vclone; [exact Hsv|]. intros sv'' Hsv'.
      eapply tsim_le; [apply it_adjust_remove; assumption|lia]. }
    intros _ _ _.
    eapply tsim_kclone; [apply Hr|]. intros k1 Hk1.
    eapply tsim_kclone; [apply Hr|]. intros k2 Hk2.
    eapply tsim_bind; [apply tsim_get|]. intros m1 m1' Hm1. rewrite (f2_length _ _ Hm1).
    eapply tsim_le; [apply it_remove_loop; [exact Hr|apply ci_incl; assumption]|lia].
  Qed.
End Keys.
