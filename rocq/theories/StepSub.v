(** Step functions that are lawful among some of the keys: the map over all
    keys goes as the map over the type of those keys. *)
From Coq Require Import List Bool Sorted.
From Verif Require Import Order Outcome BTree Ranges History Spec SpecStep MapModel IMapModel ListLemmas IterFacts
  SetModel ISetModel SetFacts ISetProps Natural Cross INatural IFacts IMapProps CrashProps Exhausted ExhaustedAny ISetAny OpsNatural LawFacts.
Import ListNotations.

(** ** Lists in order: lookups and overlap queries, for any keys *)
Section Ascending.
  Context {K V : Type} {cmp : K -> K -> comparison} (HO : TotalOrd cmp).
  Notation valid := (valid_rangei cmp).
  Notation covers := (in_rangei cmp).
  Notation ok m := (forall e : rangei K * V, In e m -> valid (fst e) = true).
  Notation inside r k := (covers r k = true /\ (ri_exhausted r = true -> eqb cmp k (ri_end r) = false)).

  Lemma asc_inv e (m : imap K V) : ascendingi cmp (e :: m) ->
    ascendingi cmp m /\ forall x, In x m -> ltb cmp (ri_end (fst e)) (ri_start (fst x)) = true.
  Proof. intros H. inversion H; subst. split; [assumption|]. apply Forall_forall. assumption. Qed.

  Definition reach (k : K) (e : rangei K * V) : bool := leb cmp (ri_start (fst e)) k.
  Lemma last_take_In {A} (p : A -> bool) (m : list A) e : last_opt (take_while p m) = Some e -> In e m /\ p e = true.
  Proof.
    unfold last_opt, it_next_back. destruct (rev (take_while p m)) as [|x l] eqn:E; cbn; [discriminate|].
    intros H. injection H as ->.
    assert (Hin : In e (take_while p m)) by (apply in_rev; rewrite E; left; reflexivity).
    clear E. induction m as [|a m IH]; cbn in *; [contradiction|]. destruct (p a) eqn:Ea; [|contradiction].
    destruct Hin as [<-|Hin]; [auto|]. destruct (IH Hin). auto.
  Qed.
  Lemma last_cons_opt {A} (a : A) l : last_opt (a :: l) = Some (match last_opt l with Some x => x | None => a end).
  Proof.
    unfold last_opt, it_next_back. cbn [rev]. destruct (rev l) as [|x r]; reflexivity.
  Qed.
  Lemma last_reach (m : imap K V) k e : ascendingi cmp m -> ok m -> In e m -> covers (fst e) k = true ->
    last_opt (take_while (reach k) m) = Some e.
  Proof.
    induction m as [|a m IH]; intros HA HW Hi Hc; [contradiction|]. destruct (asc_inv _ _ HA) as [HA' Hlt].
    cbn [take_while]. destruct Hi as [<-|Hi].
    - replace (reach k a) with true by (unfold reach, in_rangei in *; ord).
      rewrite last_cons_opt. destruct (last_opt (take_while (reach k) m)) as [x|] eqn:E; [|reflexivity].
      exfalso. apply last_take_In in E as [E1 E2]. specialize (Hlt _ E1). unfold reach, in_rangei in *. ord.
    - specialize (Hlt _ Hi). pose proof (HW a (or_introl eq_refl)) as Ha.
      replace (reach k a) with true by (unfold reach, in_rangei, valid_rangei in *; ord).
      rewrite last_cons_opt, IH; auto. intros x Hx. apply HW. right. exact Hx.
  Qed.
  Lemma get_last (m : imap K V) k : im_get_key_value cmp m k =
    Ret (match last_opt (take_while (reach k) m) with
         | Some e => if ri_contains cmp (fst e) k then Some e else None | None => None end).
  Proof.
    unfold im_get_key_value, bt_range. cbn [bad_bounds obind].
    replace (drop_while (fun e : rangei K * V => below (cmpi_start cmp) Unbounded (fst e)) m) with m
      by (destruct m; reflexivity).
    replace (take_while (fun e : rangei K * V => negb (above (cmpi_start cmp) (Included (incl k k)) (fst e))) m)
      with (take_while (reach k) m); [reflexivity|].
    induction m as [|a m IH]; [reflexivity|]. cbn [take_while]. rewrite <- IH.
    replace (negb (above (cmpi_start cmp) (Included (incl k k)) (fst a))) with (reach k a); [reflexivity|].
    unfold reach, above, cmpi_start, leb. cbn. destruct (cmp (ri_start (fst a)) k); reflexivity.
  Qed.
  Lemma asc_lookup (m : imap K V) k r v : ascendingi cmp m -> ok m ->
    im_get_key_value cmp m k = Ret (Some (r, v)) <-> In (r, v) m /\ inside r k.
  Proof.
    intros HA HW. rewrite get_last, <- (contains_inside HO). split.
    - destruct (last_opt (take_while (reach k) m)) as [e|] eqn:E; [|discriminate].
      destruct (ri_contains cmp (fst e) k) eqn:Ec; [|discriminate]. intros H. injection H as ->.
      apply last_take_In in E as [E _]. auto.
    - intros [Hi Hc]. rewrite (last_reach m k (r, v) HA HW Hi) by apply (contains_inside HO r k), Hc.
      cbn [fst]. rewrite Hc. reflexivity.
  Qed.
  Lemma asc_lookup_none (m : imap K V) k : ascendingi cmp m -> ok m ->
    im_get_key_value cmp m k = Ret None <-> forall r v, In (r, v) m -> ~ inside r k.
  Proof.
    intros HA HW. split.
    - intros H r v Hi Hc. pose proof (proj2 (asc_lookup m k r v HA HW) (conj Hi Hc)) as H'. congruence.
    - intros H. rewrite get_last. destruct (last_opt (take_while (reach k) m)) as [[r v]|] eqn:E; [|reflexivity].
      cbn [fst]. destruct (ri_contains cmp r k) eqn:Ec; [|reflexivity].
      exfalso. apply last_take_In in E as [E _]. exact (H r v E (proj1 (contains_inside HO r k) Ec)).
  Qed.

  (** *** overlap queries *)
  Notation upto q := (fun e : rangei K * V => leb cmp (ri_start (fst e)) (ri_end q)).
  Lemma filter_none {A} (p : A -> bool) l : (forall x, In x l -> p x = false) -> filter p l = [].
  Proof.
    induction l as [|a l IH]; intros H; [reflexivity|]. cbn. rewrite (H a (or_introl eq_refl)).
    apply IH. intros x Hx. apply H. right. exact Hx.
  Qed.
  Lemma asc_app (a b : imap K V) : ascendingi cmp (a ++ b) -> ascendingi cmp a.
  Proof.
    induction a as [|x a IH]; intros H; [constructor|]. cbn in H. inversion H as [|? ? H1 H2]; subst. constructor; [apply IH, H1|].
    apply Forall_app in H2. tauto.
  Qed.
  Lemma upto_snoc q (l : imap K V) e : ascendingi cmp (l ++ [e]) -> ok (l ++ [e]) -> upto q e = true ->
    filter (upto q) (l ++ [e]) = l ++ [e].
  Proof.
    intros HA HW He. induction l as [|a l IH]; cbn [app filter].
    - rewrite He. reflexivity.
    - destruct (asc_inv _ _ HA) as [HA' Hlt]. specialize (Hlt e (in_or_app l [e] e (or_intror (or_introl eq_refl)))).
      pose proof (HW a (or_introl eq_refl)) as Ha. unfold valid_rangei in Ha.
      replace (upto q a) with true by ord. rewrite IH; [reflexivity|exact HA'|].
      intros x Hx. apply HW. right. exact Hx.
  Qed.
  Lemma back_loop q (rl : imap K V) : ascendingi cmp (rev rl) -> ok (rev rl) ->
    ovi_back_loop cmp q rl =
      match rev (filter (upto q) (rev rl)) with [] => (None, []) | e :: l => (Some e, l) end.
  Proof.
    induction rl as [|e rl IH]; intros HA HW; [reflexivity|]. cbn [ovi_back_loop]. cbn [rev] in *.
    destruct (upto q e) eqn:E.
    - rewrite (upto_snoc q _ e HA HW E), rev_app_distr, rev_involutive. reflexivity.
    - rewrite IH; [|exact (asc_app _ _ HA)|intros x Hx; apply HW, in_or_app; auto].
      rewrite filter_app. cbn [filter]. rewrite E, app_nil_r. reflexivity.
  Qed.
  Lemma ov_sched q sched : forall (l : imap K V), ascendingi cmp l -> ok l ->
    map fst (sched_trace (both (ovi_next cmp) (ovi_next_back cmp)) (fun _ => tt) sched (mkOverlappingI q l)) =
    deque_run sched (filter (upto q) l).
  Proof.
    unfold deque_run. induction sched as [|[] sched IH]; intros l HA HW; [reflexivity| |].
    - cbn [sched_trace both]. destruct l as [|a l].
      + cbn [ovi_next it_next ovi_iter filter deque_step]. cbn [map fst]. f_equal. apply (IH [] HA HW).
      + destruct (asc_inv _ _ HA) as [HA' Hlt]. unfold ovi_next. cbn [it_next ovi_iter ovi_query filter].
        assert (HW' : ok l) by (intros x Hx; apply HW; right; exact Hx).
        destruct (upto q a) eqn:E; cbn [deque_step map fst].
        * f_equal. apply (IH l HA' HW').
        * assert (F : filter (upto q) l = []).
          { apply filter_none. intros x Hx. specialize (Hlt _ Hx). pose proof (HW a (or_introl eq_refl)) as Ha.
            unfold valid_rangei in Ha. ord. }
          rewrite F. cbn [deque_step map fst]. f_equal.
          pose proof (IH l HA' HW') as X. rewrite F in X. exact X.
    - cbn [sched_trace both]. unfold ovi_next_back. cbn [ovi_query ovi_iter].
      rewrite back_loop by (rewrite rev_involutive; assumption). rewrite rev_involutive.
      assert (HAf : ascendingi cmp (filter (upto q) l) /\ ok (filter (upto q) l)).
      { clear IH. split; [|intros x Hx; apply filter_In in Hx; apply HW, Hx].
        induction l as [|a l IHl]; [constructor|]. destruct (asc_inv _ _ HA) as [HA' Hlt].
        assert (HW' : ok l) by (intros x Hx; apply HW; right; exact Hx).
        cbn. destruct (upto q a); [|auto]. constructor; [exact (IHl HA' HW')|].
        apply Forall_forall. intros x Hx. apply filter_In in Hx. apply Hlt, Hx. }
      set (F := filter (upto q) l) in *. assert (HF : forall x, In x F -> upto q x = true).
      { intros x Hx. apply filter_In in Hx. apply Hx. }
      destruct (rev F) as [|e rl] eqn:E.
      + assert (F = []) as E0 by (rewrite <- (rev_involutive F), E; reflexivity). rewrite E0. cbn [deque_step map fst rev].
        f_equal. exact (IH [] (SSorted_nil _) (fun x (Hx : In x []) => match Hx with end)).
      + assert (E0 : F = rev rl ++ [e]) by (rewrite <- (rev_involutive F), E; reflexivity).
        assert (ES : deque_step Back F = (Some e, rev rl)).
        { rewrite E0. unfold deque_step. destruct (rev rl) as [|z zs] eqn:Ez; [reflexivity|]. cbn [app].
          f_equal; [|change (z :: zs ++ [e]) with ((z :: zs) ++ [e]); apply removelast_last].
          f_equal. change (z :: zs ++ [e]) with ((z :: zs) ++ [e]). apply last_last. }
        rewrite ES. cbn [map fst]. f_equal.
        assert (EF : filter (upto q) (rev rl) = rev rl).
        { assert (H : forall x, In x (rev rl) -> upto q x = true) by (intros x Hx; apply HF; rewrite E0; apply in_or_app; auto).
          revert H. generalize (rev rl). clear. induction l as [|a l IH]; intros H; [reflexivity|]. cbn.
          rewrite (H a (or_introl eq_refl)). f_equal. apply IH. intros x Hx. apply H. right. exact Hx. }
        rewrite <- EF at 2. apply IH.
        * rewrite E0 in HAf. exact (asc_app _ _ (proj1 HAf)).
        * intros x Hx. apply (proj2 HAf). rewrite E0. apply in_or_app. auto.
  Qed.
  Lemma asc_overlapping (m : imap K V) q sched : ascendingi cmp m -> ok m ->
    exists o, im_overlapping cmp m q = Ret o /\
      map fst (sched_trace (both (ovi_next cmp) (ovi_next_back cmp)) (fun _ => tt) sched o) =
      deque_run sched (filter (fun e => meetsi cmp q (fst e)) m).
  Proof.
    intros HA HW. unfold im_overlapping, bt_range. cbn [bad_bounds obind].
    eexists. split; [reflexivity|].
    assert (T : forall l : imap K V, take_while (fun e : rangei K * V => negb (above (cmpi_end cmp) Unbounded (fst e))) l = l).
    { induction l as [|a l IH]; [reflexivity|]. cbn. f_equal. exact IH. }
    rewrite T. clear T. 
    set (D := drop_while (fun e : rangei K * V => below (cmpi_end cmp) (Included (incl (ri_start q) (ri_start q))) (fst e)) m).
    assert (H : ascendingi cmp D /\ ok D /\ filter (upto q) D = filter (fun e => meetsi cmp q (fst e)) m).
    { subst D. induction m as [|a m IH]; [split; [constructor|split; [contradiction|reflexivity]]|].
      destruct (asc_inv _ _ HA) as [HA' Hlt].
      assert (HW' : ok m) by (intros x Hx; apply HW; right; exact Hx).
      cbn [drop_while]. destruct (below (cmpi_end cmp) (Included (incl (ri_start q) (ri_start q))) (fst a)) eqn:E.
      - destruct (IH HA' HW') as (I1 & I2 & I3). split; [exact I1|]. split; [exact I2|]. rewrite I3. cbn [filter].
        replace (meetsi cmp q (fst a)) with false; [reflexivity|]. unfold meetsi, below, cmpi_end in *. cbn in E.
        destruct (cmp (ri_end (fst a)) (ri_start q)) eqn:Ec; try discriminate E.
        symmetry. apply andb_false_iff. left. unfold leb. rewrite (ord_dual _ HO), Ec. reflexivity.
      - split; [exact HA|]. split; [exact HW|]. apply filter_ext_in. intros x Hx. unfold meetsi.
        assert (Hge : leb cmp (ri_start q) (ri_end (fst a)) = true).
        { unfold below, cmpi_end in E. cbn in E. unfold leb. rewrite (ord_dual _ HO).
          destruct (cmp (ri_end (fst a)) (ri_start q)); [reflexivity|discriminate|reflexivity]. }
        replace (leb cmp (ri_start q) (ri_end (fst x))) with true; [reflexivity|].
        destruct Hx as [<-|Hx]; [symmetry; exact Hge|]. specialize (Hlt _ Hx). pose proof (HW' _ Hx) as Hv.
        unfold valid_rangei in Hv. ord. }
    destruct H as (H1 & H2 & H3). rewrite ov_sched by assumption. rewrite H3. reflexivity.
  Qed.
End Ascending.

(** ** The keys in use as a type of their own *)
Section Sub.
  Context {K V : Type} {cmp : K -> K -> comparison} {veqb : V -> V -> bool} {st : stepfns K} (P : K -> bool).
  Context (HO : TotalOrd cmp) (HP : lawful_on cmp st P) (HV : PartialEquiv veqb).
  Definition key : Type := { k : K | P k = true }.
  Definition val (x : key) : K := proj1_sig x.
  Definition kcmp (a b : key) : comparison := cmp (val a) (val b).
  Definition within (k : K) : option key :=
    (if P k as b return P k = b -> option key then fun H => Some (exist _ k H) else fun _ => None) eq_refl.
  Definition kst : stepfns key :=
    mkStep (fun x => match add_one st (val x) with Some s => within s | None => None end)
           (fun x => match sub_one st (val x) with Some s => within s | None => None end).
  Lemma within_gen k (b : bool) (E : P k = b) :
    match (if b as b return P k = b -> option key then fun H => Some (exist _ k H) else fun _ => None) E with
    | Some x => val x = k | None => b = false end.
  Proof. destruct b; reflexivity. Qed.
  Lemma within_spec k : match within k with Some x => val x = k | None => P k = false end.
  Proof. exact (within_gen k (P k) eq_refl). Qed.
  Lemma within_in k : P k = true -> exists x, within k = Some x /\ val x = k.
  Proof. intros H. pose proof (within_spec k) as W. destruct (within k) as [x|]; [eauto|congruence]. Qed.
  Lemma val_in x : P (val x) = true.
  Proof. exact (proj2_sig x). Qed.

  Lemma kcmp_val a b : cmp (val a) (val b) = kcmp a b.
  Proof. reflexivity. Qed.
  Lemma kadd a : add_one kst a = None \/ add_one st (val a) = option_map val (add_one kst a).
  Proof.
    cbn. destruct (add_one st (val a)) as [s|]; [|left; reflexivity]. pose proof (within_spec s) as W.
    destruct (within s) as [x|]; [right; cbn; rewrite W; reflexivity|left; reflexivity].
  Qed.
  Lemma ksub a : sub_one kst a = None \/ sub_one st (val a) = option_map val (sub_one kst a).
  Proof.
    cbn. destruct (sub_one st (val a)) as [s|]; [|left; reflexivity]. pose proof (within_spec s) as W.
    destruct (within s) as [x|]; [right; cbn; rewrite W; reflexivity|left; reflexivity].
  Qed.
  Lemma korder : TotalOrd kcmp.
  Proof.
    split; unfold kcmp; intros.
    - apply (ord_refl _ HO).
    - apply (ord_dual _ HO).
    - eapply (ord_trans _ HO); eassumption.
  Qed.
  Lemma klaws : StepLaws kcmp kst.
  Proof.
    split; intros x y H.
    - destruct (on_succ _ _ _ HP (val x) (val y) (val_in x) (val_in y) H) as (s & E & Ps & H1 & H2).
      destruct (within_in s Ps) as (z & Ez & <-). exists z. cbn. rewrite E. auto.
    - destruct (on_pred _ _ _ HP (val x) (val y) (val_in x) (val_in y) H) as (s & E & Ps & H1 & H2).
      destruct (within_in s Ps) as (z & Ez & <-). exists z. cbn. rewrite E. auto.
  Qed.
  Notation HO1 := korder.
  Notation HS1 := klaws.
  Notation id := (fun v : V => v).
  Notation fr := (fri val).
  Notation fe := (fei val id).
  Notation fop := (fopi val id).
  Notation run := (im_run cmp veqb st).
  Notation krun := (im_run kcmp veqb kst).
  Notation valid := (valid_rangei cmp).
  Notation covers := (in_rangei cmp).
  Notation spec := (spec_run (V := V) valid covers).
  Notation kspec := (spec_run (V := V) (valid_rangei kcmp) (in_rangei kcmp)).

  (** *** lifting arguments *)
  Lemma lift_range r : range_on P r -> exists r', fr r' = r.
  Proof.
    intros [H1 H2]. destruct (within_in _ H1) as (s & _ & E1), (within_in _ H2) as (e & _ & E2).
    exists (mkRI s e (ri_exhausted r)). destruct r. unfold fri. cbn in *. subst. reflexivity.
  Qed.
  Lemma lift_op o : op_on P o -> exists o', fop o' = o.
  Proof.
    destruct o as [r v|r| |l]; cbn [op_on]; intros H.
    - destruct (lift_range r H) as [r' <-]. exists (OInsert r' v). reflexivity.
    - destruct (lift_range r H) as [r' <-]. exists (ORemove r'). reflexivity.
    - exists OClear. reflexivity.
    - assert (X : exists l', map fe l' = l).
      { induction l as [|[r v] l IH]; [exists []; reflexivity|].
        destruct (lift_range r (H _ (or_introl eq_refl))) as [r' <-].
        destruct IH as [l' <-]; [intros e He; apply H; right; exact He|]. exists ((r', v) :: l'). reflexivity. }
      destruct X as [l' <-]. exists (OExtend l'). reflexivity.
  Qed.
  Lemma lift_ops ops : ops_on P ops -> exists ops', map fop ops' = ops.
  Proof.
    induction ops as [|o ops IH]; intros H; [exists []; reflexivity|].
    destruct (lift_op o (H o (or_introl eq_refl))) as [o' <-].
    destruct IH as [l <-]; [intros x Hx; apply H; right; exact Hx|]. exists (o' :: l). reflexivity.
  Qed.
  Lemma fr_on r : range_on P (fr r).
  Proof. split; apply val_in. Qed.

  (** *** updates *)
  Lemma split_good (l : list (rangei key * V)) : exists good bad, l = good ++ bad /\
    (forall e, In e good -> valid_rangei kcmp (fst e) = true) /\
    match bad with [] => True | e :: _ => valid_rangei kcmp (fst e) = false end.
  Proof.
    induction l as [|e l IH]; [exists [], []; repeat split; contradiction|].
    destruct (valid_rangei kcmp (fst e)) eqn:E.
    - destruct IH as (g & b & -> & Hg & Hb). exists (e :: g), b. split; [reflexivity|]. split; [|exact Hb].
      intros x [<-|Hx]; auto.
    - exists [], (e :: l). split; [reflexivity|]. split; [contradiction|exact E].
  Qed.
  Lemma kexec o ops : fst (im_exec kcmp veqb kst o (krun ops)) = Ret tt \/
    fst (im_exec kcmp veqb kst o (krun ops)) = Panicked PAssert.
  Proof.
    destruct o as [r v|r| |l]; cbn [im_exec].
    - pose proof (any_insert HO1 HS1 HV ops r v) as H. destruct (valid_rangei kcmp r); rewrite H; auto.
    - pose proof (any_remove HO1 HS1 HV ops r) as H. destruct (valid_rangei kcmp r); rewrite H; auto.
    - left. reflexivity.
    - destruct (split_good l) as (g & b & -> & Hg & Hb). rewrite (any_extend HO1 HS1 HV g ops b Hg Hb).
      destruct b; auto.
  Qed.
  Lemma sub_exec o ops :
    im_exec cmp veqb st (fop o) (map fe (krun ops)) =
      (fst (im_exec kcmp veqb kst o (krun ops)), map fe (snd (im_exec kcmp veqb kst o (krun ops)))).
  Proof.
    destruct (n_iexec (cmp := kcmp) (st := kst) (veqb := veqb) val id kcmp_val (fun _ _ => eq_refl) kadd ksub o (krun ops)) as [H|H].
    - exfalso. destruct (kexec o ops); congruence.
    - rewrite H. f_equal. destruct (fst _) as [[]| |]; reflexivity.
  Qed.
  Lemma sub_run ops : run (map fop ops) = map fe (krun ops).
  Proof.
    induction ops as [|o ops IH] using rev_ind; [reflexivity|]. rewrite map_app. cbn [map].
    rewrite !run_isnoc, IH, sub_exec. reflexivity.
  Qed.
  Lemma sub_valid r : valid_rangei kcmp r = valid (fr r).
  Proof. reflexivity. Qed.
  Lemma sub_covers r k : in_rangei kcmp r k = covers (fr r) (val k).
  Proof. reflexivity. Qed.
  Lemma sub_spec ops k : kspec ops k = spec (map fop ops) (val k).
  Proof.
    unfold spec_run.
    assert (H : forall ops (f : key -> option V) (g : K -> option V), (forall k, f k = g (val k)) -> forall k,
      fold_left (spec_op (valid_rangei kcmp) (in_rangei kcmp)) ops f k = fold_left (spec_op valid covers) (map fop ops) g (val k)).
    { clear. induction ops as [|o ops IH]; intros f g H k; cbn [map fold_left]; [apply H|]. apply IH. clear IH k. intros k.
      destruct o as [r v|r| |l]; cbn [spec_op fopi].
      - rewrite sub_valid. destruct (valid (fr r)); [|apply H]. unfold put. rewrite sub_covers, H. reflexivity.
      - rewrite sub_valid. destruct (valid (fr r)); [|apply H]. unfold del. rewrite sub_covers, H. reflexivity.
      - reflexivity.
      - revert f g H. induction l as [|[r v] l IH]; intros f g H; [apply H|]. cbn [map put_all fei fst snd].
        rewrite sub_valid. destruct (valid (fr r)); [|apply H]. apply IH. intros k'. unfold put. rewrite sub_covers, H. reflexivity. }
    apply H. reflexivity.
  Qed.
  Lemma sub_fresh ops : fresh_ops (map fop ops) -> fresh_ops ops.
  Proof.
    unfold fresh_ops. induction ops as [|o ops IH]; [auto|]. cbn. rewrite !andb_true_iff. intros [H1 H2].
    split; [|auto]. destruct o as [r v|r| |l]; cbn in *; auto. clear -H1. induction l as [|e l IH]; [auto|].
    cbn in *. apply andb_true_iff in H1 as [H1 H2]. rewrite H1. auto.
  Qed.

  (** *** what follows *)
  Lemma on_shape ops : ops_on P ops ->
    ascendingi cmp (run ops) /\ forall e, In e (run ops) -> valid (fst e) = true /\ range_on P (fst e).
  Proof.
    intros H. destruct (lift_ops ops H) as [l <-]. rewrite sub_run. destruct (any_valid HO1 HS1 HV l) as [HA HW].
    unfold im_iter in *. split.
    - clear HW. induction HA as [|e m HA IH Hf]; cbn [map]; constructor; [exact IH|].
      rewrite Forall_map. exact Hf.
    - intros e He. apply in_map_iff in He as ([r v] & <- & He). split; [apply (HW r v He)|apply fr_on].
  Qed.
  Lemma on_get ops k : ops_on P ops -> fresh_ops ops -> P k = true ->
    exists o, im_get cmp (run ops) k = Ret o /\ same_opt veqb o (spec ops k).
  Proof.
    intros H Hf Hk. destruct (lift_ops ops H) as [l <-]. destruct (within_in k Hk) as (x & _ & <-).
    destruct (irun_get_spec HO1 HS1 HV l (sub_fresh l Hf) x) as (o & E1 & E2).
    exists o. rewrite sub_run, (n_iget (cmp := kcmp) val id kcmp_val), E1. cbn. split; [destruct o; reflexivity|].
    rewrite <- sub_spec. exact E2.
  Qed.
  Lemma on_outcome ops o : ops_on P ops -> op_on P o ->
    fst (im_exec cmp veqb st o (run ops)) =
      match o with
      | OInsert r _ | ORemove r => if valid r then Ret tt else Panicked PAssert
      | OClear => Ret tt
      | OExtend l => if forallb (fun e => valid (fst e)) l then Ret tt else Panicked PAssert
      end.
  Proof.
    intros H Ho. destruct (lift_ops ops H) as [l <-], (lift_op o Ho) as [o' <-].
    rewrite sub_run, sub_exec. cbn [fst]. destruct o' as [r v|r| |es]; cbn [im_exec fopi].
    - rewrite <- sub_valid. pose proof (any_insert HO1 HS1 HV l r v) as X. destruct (valid_rangei kcmp r); rewrite X; reflexivity.
    - rewrite <- sub_valid. pose proof (any_remove HO1 HS1 HV l r) as X. destruct (valid_rangei kcmp r); rewrite X; reflexivity.
    - reflexivity.
    - destruct (split_good es) as (g & b & -> & Hg & Hb). rewrite (any_extend HO1 HS1 HV g l b Hg Hb). cbn [fst].
      rewrite map_app, forallb_app.
      assert (G : forallb (fun e : rangei K * V => valid (fst e)) (map fe g) = true).
      { apply forallb_forall. intros e He. apply in_map_iff in He as (x & <- & He). exact (Hg x He). }
      rewrite G. destruct b as [|e b]; [reflexivity|]. cbn. change (valid (fr (fst e))) with (valid_rangei kcmp (fst e)).
      rewrite Hb. reflexivity.
  Qed.
  Lemma on_coalesced ops a b : ops_on P ops -> In a (run ops) -> In b (run ops) ->
    ltb cmp (ri_end (fst a)) (ri_start (fst b)) = true -> veqb (snd a) (snd b) = true ->
    exists k, P k = true /\ ltb cmp (ri_end (fst a)) k = true /\ ltb cmp k (ri_start (fst b)) = true.
  Proof.
    intros H. destruct (lift_ops ops H) as [l <-]. rewrite sub_run. intros Ha Hb.
    apply in_map_iff in Ha as (a' & <- & Ha), Hb as (b' & <- & Hb). intros H1 H2.
    destruct (any_coalesced HO1 HS1 HV l a' b' Ha Hb H1 H2) as (k & K1 & K2).
    exists (val k). split; [apply val_in|]. split; [exact K1|exact K2].
  Qed.
  Lemma on_eq ops1 ops2 : (forall v, veqb v v = true) -> ops_on P ops1 -> ops_on P ops2 -> fresh_ops ops1 -> fresh_ops ops2 ->
    im_eqb cmp veqb (run ops1) (run ops2) = true <->
    (forall k, P k = true -> same_opt veqb (spec ops1 k) (spec ops2 k)).
  Proof.
    intros Hr H1 H2 F1 F2. destruct (lift_ops ops1 H1) as [l1 <-], (lift_ops ops2 H2) as [l2 <-]. rewrite !sub_run.
    assert (E : im_eqb cmp veqb (map fe (krun l1)) (map fe (krun l2)) = im_eqb kcmp veqb (krun l1) (krun l2)).
    { unfold im_eqb, im_iter. generalize (krun l1) (krun l2). clear. induction i as [|a m IH]; intros [|b m']; try reflexivity.
      cbn [map list_eqb]. rewrite IH. reflexivity. }
    rewrite E, (irun_eqb_spec HO1 HS1 HV Hr l1 l2 (sub_fresh _ F1) (sub_fresh _ F2)). split.
    - intros H k Hk. destruct (within_in k Hk) as (x & _ & <-). rewrite <- !sub_spec. apply H.
    - intros H k. rewrite !sub_spec. apply H, val_in.
  Qed.
  Lemma on_gaps ops outer : ops_on P ops -> range_on P outer ->
    exists g gs, im_gaps cmp (run ops) outer = Ret g /\
      (forall n, nexts_m (gpi_next cmp st) n g = map Ret (yields n gs)) /\
      (forall r, In r gs -> ri_exhausted r = false /\ valid r = true /\ range_on P r /\
         leb cmp (ri_start outer) (ri_start r) = true /\ leb cmp (ri_end r) (ri_end outer) = true) /\
      StronglySorted (fun a b => exists k, P k = true /\ ltb cmp (ri_end a) k = true /\ ltb cmp k (ri_start b) = true) gs /\
      (forall k, P k = true -> (exists r, In r gs /\ covers r k = true) <-> covers outer k = true /\ spec ops k = None).
  Proof.
    intros H Ho. destruct (lift_ops ops H) as [l <-], (lift_range outer Ho) as [q <-].
    destruct (any_gaps HO1 HS1 HV l q) as (g & gs & E1 & E2 & G1 & G2 & G3).
    exists (fgpi val id g), (map fr gs). split; [|split; [|split; [|split]]].
    - rewrite sub_run, (n_igaps (cmp := kcmp) val id kcmp_val), E1. reflexivity.
    - intros n. rewrite (n_igaps_nexts (cmp := kcmp) (st := kst) val id kcmp_val kadd ksub) by (eexists; apply E2).
      rewrite E2. clear. revert gs. induction n as [|n IH]; intros [|a gs]; try reflexivity.
      + rewrite !yields_nil. cbn [map]. rewrite yields_nil. generalize (S n). clear.
        induction n as [|n IH]; [reflexivity|]. cbn [repeat map]. f_equal. exact IH.
      + cbn [map]. rewrite !yields_cons. cbn [map]. f_equal. apply IH.
    - intros r Hr. apply in_map_iff in Hr as (x & <- & Hx). destruct (G1 x Hx) as (A & B & C & D).
      split; [exact A|]. split; [exact B|]. split; [apply fr_on|]. split; [exact C|exact D].
    - clear E2 G1 G3. induction G2 as [|a m HA IH Hf]; cbn [map]; constructor; [exact IH|].
      rewrite Forall_map. eapply Forall_impl; [|exact Hf]. intros b (k & K1 & K2). exists (val k).
      split; [apply val_in|]. split; [exact K1|exact K2].
    - intros k Hk. destruct (within_in k Hk) as (x & _ & <-). rewrite <- sub_spec. specialize (G3 x). rewrite sub_covers in G3.
      rewrite <- G3. split; intros (r & Hr & Hc).
      + apply in_map_iff in Hr as (y & <- & Hy). exists y. auto.
      + exists (fr r). split; [apply in_map, Hr|exact Hc].
  Qed.
End Sub.

(** ** Necessity *)
Section Needed.
  Context {K V : Type} {cmp : K -> K -> comparison} {veqb : V -> V -> bool} {st : stepfns K} (P : K -> bool).
  Context (HO : TotalOrd cmp).
  Notation run := (im_run cmp veqb st).
  Notation spec := (spec_run (V := V) (valid_rangei cmp) (in_rangei cmp)).
  Lemma on_needed_cut (v : V) :
    (forall ops, ops_on P ops -> fresh_ops ops ->
       (exists a b c, ops = [OInsert (incl a b) v; ORemove (incl c c)]) ->
       (forall e, In e (run ops) -> range_on P (fst e)) /\
       forall k, P k = true -> exists o, im_get cmp (run ops) k = Ret o /\ (o = None <-> spec ops k = None)) ->
    lawful_on cmp st P.
  Proof.
    intros H. split; intros x y Px Py Hlt.
    - destruct (H (cut_first x y v)) as [H1 H2].
      { intros o [<-|[<-|[]]]; split; assumption. }
      { reflexivity. }
      { unfold cut_first, cut_last. eauto. }
      pose proof (H2 y Py) as Hy. pose proof (H2 x Px) as Hx. clear H2.
      rewrite (run_first HO x y v Hlt) in *.
      assert (Sy : spec (cut_first x y v) y = Some v).
      { unfold cut_first, spec_run. cbn [fold_left spec_op].
        replace (valid_rangei cmp (incl x y)) with true by (unfold valid_rangei; cbn; ord).
        replace (valid_rangei cmp (incl x x)) with true by (unfold valid_rangei; cbn; ord).
        unfold del, put, in_rangei. cbn [ri_start ri_end incl].
        replace (negb (ltb cmp y x) && negb (ltb cmp x y)) with false by ord.
        replace (negb (ltb cmp y x) && negb (ltb cmp y y)) with true by ord. reflexivity. }
      assert (Sx : spec (cut_first x y v) x = None).
      { unfold cut_first, spec_run. cbn [fold_left spec_op].
        replace (valid_rangei cmp (incl x y)) with true by (unfold valid_rangei; cbn; ord).
        replace (valid_rangei cmp (incl x x)) with true by (unfold valid_rangei; cbn; ord).
        unfold del, put, in_rangei. cbn [ri_start ri_end incl].
        replace (negb (ltb cmp x x) && negb (ltb cmp x x)) with true by ord. reflexivity. }
      rewrite Sy in Hy. rewrite Sx in Hx.
      destruct (add_one st x) as [s|]; [|exfalso; destruct Hy as (o & G & N); rewrite get_none in G; injection G as <-; intuition congruence].
      exists s. split; [reflexivity|]. split; [apply (H1 _ (or_introl eq_refl))|].
      assert (A : leb cmp s y && leb cmp y y = true).
      { apply (has_one (veqb := veqb) s y v). destruct Hy as (o & G & N). exists o. split; [exact G|]. intuition congruence. }
      assert (B : leb cmp s x && leb cmp x y = false).
      { apply (has_one (veqb := veqb) s y v). destruct Hx as (o & G & N). exists o. split; [exact G|]. intuition congruence. }
      split; ord.
    - destruct (H (cut_last y x v)) as [H1 H2].
      { intros o [<-|[<-|[]]]; split; assumption. }
      { reflexivity. }
      { unfold cut_first, cut_last. eauto. }
      pose proof (H2 y Py) as Hy. pose proof (H2 x Px) as Hx. clear H2.
      rewrite (run_last HO y x v Hlt) in *.
      assert (Sy : spec (cut_last y x v) y = Some v).
      { unfold cut_last, spec_run. cbn [fold_left spec_op].
        replace (valid_rangei cmp (incl y x)) with true by (unfold valid_rangei; cbn; ord).
        replace (valid_rangei cmp (incl x x)) with true by (unfold valid_rangei; cbn; ord).
        unfold del, put, in_rangei. cbn [ri_start ri_end incl].
        replace (negb (ltb cmp y x) && negb (ltb cmp x y)) with false by ord.
        replace (negb (ltb cmp y y) && negb (ltb cmp x y)) with true by ord. reflexivity. }
      assert (Sx : spec (cut_last y x v) x = None).
      { unfold cut_last, spec_run. cbn [fold_left spec_op].
        replace (valid_rangei cmp (incl y x)) with true by (unfold valid_rangei; cbn; ord).
        replace (valid_rangei cmp (incl x x)) with true by (unfold valid_rangei; cbn; ord).
        unfold del, put, in_rangei. cbn [ri_start ri_end incl].
        replace (negb (ltb cmp x x) && negb (ltb cmp x x)) with true by ord. reflexivity. }
      rewrite Sy in Hy. rewrite Sx in Hx.
      destruct (sub_one st x) as [s|]; [|exfalso; destruct Hy as (o & G & N); rewrite get_none in G; injection G as <-; intuition congruence].
      exists s. split; [reflexivity|]. split; [apply (H1 _ (or_introl eq_refl))|].
      assert (A : leb cmp y y && leb cmp y s = true).
      { apply (has_one (veqb := veqb) y s v). destruct Hy as (o & G & N). exists o. split; [exact G|]. intuition congruence. }
      assert (B : leb cmp y x && leb cmp x s = false).
      { apply (has_one (veqb := veqb) y s v). destruct Hx as (o & G & N). exists o. split; [exact G|]. intuition congruence. }
      split; ord.
  Qed.
  Lemma on_needed (v : V) :
    (forall ops, ops_on P ops -> fresh_ops ops ->
       (forall e, In e (run ops) -> range_on P (fst e)) /\
       forall k, P k = true -> exists o, im_get cmp (run ops) k = Ret o /\ (o = None <-> spec ops k = None)) ->
    lawful_on cmp st P.
  Proof. intros H. apply (on_needed_cut v). auto. Qed.
End Needed.

(** ** Sets *)
Section SetSub.
  Context {K : Type} {cmp : K -> K -> comparison} {st : stepfns K} (P : K -> bool) (HO : TotalOrd cmp).
  Notation run := (is_run cmp st).
  Notation mem := (mem_run (valid_rangei cmp) (in_rangei cmp)).
  Lemma sops_to_ops ops : sops_on P ops -> ops_on P (to_ops ops).
  Proof.
    intros H o Ho. unfold to_ops in Ho. apply in_map_iff in Ho as (x & <- & Hx). specialize (H x Hx).
    destruct x as [r|r| |l]; cbn in *; auto. intros e He. apply in_map_iff in He as (r & <- & Hr). apply H, Hr.
  Qed.
  Lemma son_contains ops k : lawful_on cmp st P -> sops_on P ops -> fresh_sops ops -> P k = true ->
    is_contains cmp (run ops) k = Ret (mem ops k).
  Proof.
    intros HP H Hf Hk. unfold is_contains, im_contains_key. rewrite irun_to_ops.
    destruct (on_get P HO HP unit_per (to_ops ops) k (sops_to_ops _ H) (fresh_to_ops _ Hf) Hk) as (o & -> & E).
    rewrite spec_mem in E. destruct o as [[]|], (mem ops k); cbn in *; try reflexivity; contradiction.
  Qed.
  Lemma son_shape ops : lawful_on cmp st P -> sops_on P ops ->
    ascendingi cmp (run ops) /\ forall e, In e (run ops) -> valid_rangei cmp (fst e) = true /\ range_on P (fst e).
  Proof. intros HP H. rewrite irun_to_ops. exact (on_shape P HO HP unit_per _ (sops_to_ops _ H)). Qed.
  Lemma son_needed :
    (forall ops, sops_on P ops -> fresh_sops ops ->
       (forall e, In e (run ops) -> range_on P (fst e)) /\
       forall k, P k = true -> is_contains cmp (run ops) k = Ret (mem ops k)) ->
    lawful_on cmp st P.
  Proof.
    intros H. apply (on_needed_cut (V := unit) (veqb := unit_eqb) P HO tt). intros ops Ho Hf Hs.
    assert (X : exists sops, ops = to_ops sops).
    { destruct Hs as (a & b & c & ->). exists [SInsert (incl a b); SRemove (incl c c)]. reflexivity. }
    destruct X as [sops ->].
    assert (Ho' : sops_on P sops).
    { intros x Hx. specialize (Ho (to_op x) (in_map _ _ _ Hx)). destruct x; cbn in *; auto.
      intros r Hr. exact (Ho _ (in_map _ _ _ Hr)). }
    assert (Hf' : fresh_sops sops).
    { destruct Hs as (a & b & c & E). destruct sops as [|x [|y [|z l]]]; try discriminate E.
      destruct x; try discriminate E. destruct y; try discriminate E. injection E as -> ->. reflexivity. }
    destruct (H sops Ho' Hf') as [H1 H2]. rewrite <- irun_to_ops. split; [exact H1|]. intros k Hk.
    specialize (H2 k Hk). unfold is_contains, im_contains_key in H2.
    destruct (im_get cmp (run sops) k) as [o| |]; try discriminate H2. cbn in H2. injection H2 as H2.
    exists o. split; [reflexivity|]. rewrite spec_mem. rewrite <- H2. destruct o; cbn; intuition congruence.
  Qed.

  (** *** programs that combine sets *)
  Notation memx := (mem_sexp (valid_rangei cmp) (in_rangei cmp)).
  Notation fr := (fri (val P)).
  Lemma lift_sop o : sop_on P o -> exists o', fsop fr o' = o.
  Proof.
    destruct o as [r|r| |l]; cbn [sop_on]; intros H.
    - destruct (lift_range P r H) as [r' <-]. exists (SInsert r'). reflexivity.
    - destruct (lift_range P r H) as [r' <-]. exists (SRemove r'). reflexivity.
    - exists SClear. reflexivity.
    - assert (X : exists l', map fr l' = l).
      { induction l as [|r l IH]; [exists []; reflexivity|].
        destruct (lift_range P r (H _ (or_introl eq_refl))) as [r' <-].
        destruct IH as [l' <-]; [intros e He; apply H; right; exact He|]. exists (r' :: l'). reflexivity. }
      destruct X as [l' <-]. exists (SExtend l'). reflexivity.
  Qed.
  Lemma lift_sexp x : sexp_on P x -> exists x', fsexp fr x' = x.
  Proof.
    induction x as [|x IH o|x IHx y IHy|x IHx y IHy]; cbn [sexp_on]; intros H.
    - exists XNew. reflexivity.
    - destruct H as [H1 H2]. destruct (IH H1) as [x' <-], (lift_sop o H2) as [o' <-]. exists (XOp x' o'). reflexivity.
    - destruct H as [H1 H2]. destruct (IHx H1) as [x' <-], (IHy H2) as [y' <-]. exists (XOr x' y'). reflexivity.
    - destruct H as [H1 H2]. destruct (IHx H1) as [x' <-], (IHy H2) as [y' <-]. exists (XAnd x' y'). reflexivity.
  Qed.
  Lemma fsop_on o : sop_on P (fsop fr o).
  Proof.
    destruct o as [r|r| |l]; cbn; try apply fr_on; [exact I|]. intros r Hr.
    apply in_map_iff in Hr as (x & <- & _). apply fr_on.
  Qed.
  Lemma fresh_fsop o : fresh_sop (fsop fr o) = fresh_sop o.
  Proof. destruct o as [r|r| |l]; try reflexivity. cbn. induction l as [|r l IH]; [reflexivity|]. cbn. rewrite IH. reflexivity. Qed.
  Lemma fresh_fsexp x : fresh_sexp (fsexp fr x) = fresh_sexp x.
  Proof.
    induction x as [|x IH o|x IHx y IHy|x IHx y IHy]; cbn [fresh_sexp fsexp]; rewrite ?IH, ?IHx, ?IHy, ?fresh_fsop; reflexivity.
  Qed.
  Notation kvalid := (valid_rangei (kcmp (cmp := cmp) P)).
  Notation kcov := (in_rangei (kcmp (cmp := cmp) P)).
  Lemma mem_fsop o g h : (forall k, h (val P k) = g k) ->
    forall k, mem_op (valid_rangei cmp) (in_rangei cmp) h (fsop fr o) (val P k) = mem_op kvalid kcov g o k.
  Proof.
    intros H. destruct o as [r|r| |l]; intros k; cbn [mem_op fsop].
    - change (valid_rangei cmp (fr r)) with (kvalid r). destruct (kvalid r); [|apply H].
      change (in_rangei cmp (fr r) (val P k)) with (kcov r k). destruct (kcov r k); [reflexivity|apply H].
    - change (valid_rangei cmp (fr r)) with (kvalid r). destruct (kvalid r); [|apply H].
      change (in_rangei cmp (fr r) (val P k)) with (kcov r k). destruct (kcov r k); [reflexivity|apply H].
    - reflexivity.
    - revert g h H. induction l as [|r l IH]; intros g h H; cbn [map add_all]; [apply H|].
      change (valid_rangei cmp (fr r)) with (kvalid r). destruct (kvalid r); [|apply H]. apply IH. intros k'. cbn.
      change (in_rangei cmp (fr r) (val P k')) with (kcov r k'). destruct (kcov r k'); [reflexivity|apply H].
  Qed.
  Lemma mem_fsops ops k : mem (map (fsop fr) ops) (val P k) = mem_run kvalid kcov ops k.
  Proof.
    unfold mem_run.
    enough (X : forall ops g h, (forall k, h (val P k) = g k) ->
      forall k, fold_left (mem_op (valid_rangei cmp) (in_rangei cmp)) (map (fsop fr) ops) h (val P k) =
        fold_left (mem_op kvalid kcov) ops g k) by (apply X; reflexivity).
    clear. induction ops as [|o ops IH]; intros g h H k; cbn [map fold_left]; [apply H|]. apply IH. intros k'.
    apply mem_fsop, H.
  Qed.
  Lemma mem_fsexp x : forall k, memx (fsexp fr x) (val P k) = mem_sexp kvalid kcov x k.
  Proof.
    induction x as [|x IH o|x IHx y IHy|x IHx y IHy]; intros k; cbn [mem_sexp fsexp]; rewrite ?IHx, ?IHy; try reflexivity.
    apply mem_fsop, IH.
  Qed.
  Lemma son_eval x : lawful_on cmp st P -> sexp_on P x -> exists ops,
    sops_on P ops /\ (fresh_sexp x = true -> fresh_sops ops) /\ is_eval cmp st x = Ret (run ops) /\
    forall k, P k = true -> mem ops k = memx x k.
  Proof.
    intros HP H. destruct (lift_sexp x H) as [x' <-].
    destruct (anys_eval (korder P HO) (klaws P HP) x') as (ops & F & E & M).
    exists (map (fsop fr) ops). split; [|split; [|split]].
    - intros o Ho. apply in_map_iff in Ho as (o' & <- & _). apply fsop_on.
    - rewrite fresh_fsexp. intros Hx. specialize (F Hx). unfold fresh_sops in *. rewrite forallb_forall in *.
      intros o Ho. apply in_map_iff in Ho as (o' & <- & Ho). rewrite fresh_fsop. auto.
    - rewrite (n_is_eval (val P) (kcmp_val P) (kadd P) (ksub P) (korder P HO) (klaws P HP)), E. cbn. f_equal. symmetry.
      apply (n_is_run (val P) (kcmp_val P) (kadd P) (ksub P) (korder P HO) (klaws P HP)).
    - intros k Hk. destruct (within_in P k Hk) as (z & _ & <-). rewrite mem_fsops, mem_fsexp. apply M.
  Qed.
  Lemma son_eq a b : lawful_on cmp st P -> sops_on P a -> sops_on P b -> fresh_sops a -> fresh_sops b ->
    is_eqb cmp (run a) (run b) = true <-> forall k, P k = true -> mem a k = mem b k.
  Proof.
    intros HP A1 B1 A2 B2. unfold is_eqb. rewrite !irun_to_ops.
    rewrite (on_eq P HO HP unit_per (to_ops a) (to_ops b) (fun _ => eq_refl) (sops_to_ops _ A1) (sops_to_ops _ B1)
               (fresh_to_ops _ A2) (fresh_to_ops _ B2)).
    split; intros H k Hk; specialize (H k Hk); rewrite !spec_mem in *.
    - destruct (mem a k), (mem b k); cbn in H; first [reflexivity|contradiction].
    - rewrite H. destruct (mem b k); cbn; [left; reflexivity|exact I].
  Qed.
  Lemma son_eval_eq x y : lawful_on cmp st P -> sexp_on P x -> sexp_on P y -> fresh_sexp x = true -> fresh_sexp y = true ->
    exists a b, is_eval cmp st x = Ret a /\ is_eval cmp st y = Ret b /\
      (is_eqb cmp a b = true <-> forall k, P k = true -> memx x k = memx y k).
  Proof.
    intros HP Hx Hy Fx Fy. destruct (son_eval x HP Hx) as (a & A1 & A2 & A3 & A4), (son_eval y HP Hy) as (b & B1 & B2 & B3 & B4).
    exists (run a), (run b). split; [exact A3|]. split; [exact B3|].
    rewrite (son_eq a b HP A1 B1 (A2 Fx) (B2 Fy)).
    split; intros H k Hk; specialize (A4 k Hk); specialize (B4 k Hk); specialize (H k Hk); congruence.
  Qed.
End SetSub.
