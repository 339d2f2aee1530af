(** Facts about [Overlapping] and [Gaps] under arbitrary answers (AskIterModel.v). *)
From Coq Require Import List Bool Arith Lia.
From Verif Require Import Order Outcome BTree Ranges History SpecHalt ListLemmas IterFacts MapModel IMapModel CloneModel OpsCostModel
  HaltModel HaltFacts HaltTally AskIterModel.
Import ListNotations.

Lemma last_cons {A} (a d : A) l : last (a :: l) d = last l a.
Proof. revert a d. induction l as [|b l IH]; intros a d; [reflexivity|]. change (last (b :: l) d = last (b :: l) a). rewrite !IH. reflexivity. Qed.

(** ** [Overlapping] *)
(** a double-ended iterator each of whose calls takes entries off an end of a
    list, and asks once about each; [next] takes at most one *)
Lemma deals_refl {A} (l : list A) : deals l l [].
Proof. induction l; constructor; assumption. Qed.
Lemma deals_none {A} (l : list A) : deals l [] l.
Proof. induction l; constructor; assumption. Qed.
Lemma deals_join {A} (a ka la b kb lb : list A) : deals a ka la -> deals b kb lb -> deals (a ++ b) (ka ++ kb) (la ++ lb).
Proof. intros H1 H2. induction H1; cbn; [exact H2|constructor; assumption|constructor; assumption]. Qed.
Section Ends.
  Context {E : Type} (step : side -> M (counted (list E)) (option E)) (test : nat -> E -> bool).
  (** comparison number [m], from [n] to before [n'], said [b] about [e] *)
  Definition said (n n' : nat) (b : bool) (e : E) : Prop := exists m, n <= m < n' /\ test m e = b.
  Context (Hf : forall n l, exists o, step Front (n, l) = (Ret o, (length (firstn 1 l) + n, tl l)) /\
    match o with Some e => hd_error l = Some e /\ test n e = true | None => forall e, hd_error l = Some e -> test n e = false end).
  Context (Hb : forall n l, exists o lost l', step Back (n, l) = (Ret o, (length l - length l' + n, l')) /\
    (forall e, In e lost -> said n (length l - length l' + n) false e) /\
    match o with Some e => l = l' ++ e :: lost /\ said n (length l - length l' + n) true e | None => l = lost /\ l' = [] end).

  Lemma said_weaken n n' m m' b e : said n n' b e -> m <= n -> n' <= m' -> said m m' b e.
  Proof. intros (k & Hk & E1) H1 H2. exists k. split; [lia|exact E1]. Qed.
  Lemma ends_run sched : forall n l,
    let evs := ask_run step sched (n, l) in
    let s := ask_state step sched (n, l) in
    exists lost, deals l (given Front evs ++ snd s ++ rev (given Back evs)) lost /\
      (forall d e, In e (given d evs) -> said n (fst s) true e) /\
      (forall e, In e lost -> said n (fst s) false e) /\
      (forall o, In o (map snd evs) -> exists x, o = Ret x) /\
      fst s + length (snd s) = n + length l.
  Proof.
    assert (LE : forall sched n l, n <= fst (ask_state step sched (n, l))).
    { clear sched. induction sched as [|d sched IH]; intros n l; cbn [ask_state]; [cbn; lia|]. destruct d.
      - destruct (Hf n l) as (o & E1 & _). rewrite E1. cbn [snd]. specialize (IH (length (firstn 1 l) + n) (tl l)). lia.
      - destruct (Hb n l) as (o & lost & l' & E1 & _). rewrite E1. cbn [snd]. specialize (IH (length l - length l' + n) l'). lia. }
    induction sched as [|d sched IH]; intros n l; cbn [ask_run ask_state].
    - exists []. cbn. rewrite app_nil_r. splits; [apply deals_refl|intros [] e []|intros e []|intros o []|reflexivity].
    - destruct d.
      + destruct (Hf n l) as (o & E1 & Ho). rewrite E1. cbn [snd]. specialize (IH (length (firstn 1 l) + n) (tl l)).
        specialize (LE sched (length (firstn 1 l) + n) (tl l)).
        set (evs := ask_run step sched _) in *. set (s := ask_state step sched _) in *. destruct IH as (lost & I1 & I2 & I3 & I4 & I5).
        assert (R : forall o', In o' (map snd ((Front, Ret o) :: evs)) -> exists x, o' = Ret x).
        { intros o' [<-|Hin]; [exists o; reflexivity|apply I4, Hin]. }
        assert (W : forall b e, said (length (firstn 1 l) + n) (fst s) b e -> said n (fst s) b e) by (intros b e He; eapply said_weaken; [exact He|lia|lia]).
        destruct l as [|e l].
        * destruct o as [e|]; [destruct Ho as [Hd _]; discriminate Hd|]. exists lost. cbn in I5 |- *. splits; auto.
        * cbn [tl firstn length] in *.
          assert (N : said n (fst s) (test n e) e) by (exists n; split; [lia|reflexivity]).
          destruct o as [e'|].
          -- destruct Ho as [Hd Ht]. injection Hd as <-. rewrite Ht in N. exists lost. splits; auto; [constructor; exact I1| |cbn in *; lia].
             intros [] x Hx; cbn in Hx; [destruct Hx as [<-|Hx]; [exact N|]|]; apply W; [apply (I2 Front), Hx|apply (I2 Back), Hx].
          -- rewrite (Ho e eq_refl) in N. exists (e :: lost). splits; auto; [constructor; exact I1| | |cbn in *; lia].
             ++ intros [] x Hx; apply W; [apply (I2 Front), Hx|apply (I2 Back), Hx].
             ++ intros x [<-|Hx]; [exact N|apply W, I3, Hx].
      + destruct (Hb n l) as (o & lost0 & l' & E1 & H0 & Ho). rewrite E1. cbn [snd].
        set (n' := length l - length l' + n) in *. specialize (IH n' l'). specialize (LE sched n' l').
        set (evs := ask_run step sched _) in *. set (s := ask_state step sched _) in *. destruct IH as (lost & I1 & I2 & I3 & I4 & I5).
        assert (R : forall o', In o' (map snd ((Back, Ret o) :: evs)) -> exists x, o' = Ret x).
        { intros o' [<-|Hin]; [exists o; reflexivity|apply I4, Hin]. }
        assert (LL : length l' <= length l).
        { destruct o; [destruct Ho as [Ho _]; rewrite Ho, app_length; lia|destruct Ho as [_ ->]; cbn; lia]. }
        assert (W : forall b e, said n' (fst s) b e -> said n (fst s) b e) by (intros b e He; eapply said_weaken; [exact He|subst n'; lia|lia]).
        assert (W0 : forall b e, said n n' b e -> said n (fst s) b e) by (intros b e He; eapply said_weaken; [exact He|lia|lia]).
        assert (HL : forall e, In e (lost ++ lost0) -> said n (fst s) false e).
        { intros e He. apply in_app_iff in He as [He|He]; [apply W, I3, He|apply W0, H0, He]. }
        destruct o as [e|].
        * destruct Ho as [Ho Hy]. exists (lost ++ lost0). splits; auto; [| |subst n'; lia].
          -- rewrite Ho. cbn [given app rev].
             replace (given Front evs ++ snd s ++ rev (given Back evs) ++ [e])
               with ((given Front evs ++ snd s ++ rev (given Back evs)) ++ [e]) by (rewrite <- !app_assoc; reflexivity).
             apply deals_join; [exact I1|]. constructor. apply deals_none.
          -- intros [] x Hx; cbn in Hx; [|destruct Hx as [<-|Hx]; [apply W0, Hy|]]; apply W; [apply (I2 Front), Hx|apply (I2 Back), Hx].
        * destruct Ho as [-> E2]. exists (lost ++ lost0). splits; auto; [|intros d x Hx; apply W; destruct d; [apply (I2 Front), Hx|apply (I2 Back), Hx]|subst n'; lia].
          rewrite E2 in I1. cbn [given]. apply (deals_join _ _ _ lost0 [] lost0) in I1; [|apply deals_none]. rewrite app_nil_r in I1. exact I1.
  Qed.
End Ends.

Section Half.
  Context {K V : Type} (kc : nat -> K -> K -> comparison) (bw : nat -> range K).
  Notation step := (ovq_step (V := V) kc bw).
  Definition ovq_test (n : nat) (e : range K * V) : bool :=
    match kc n (r_start (fst e)) (r_end (bw n)) with Lt => true | _ => false end.
  Notation test := ovq_test.
  Lemma ovq_front n l : exists o, step Front (n, l) = (Ret o, (length (firstn 1 l) + n, tl l)) /\
    match o with Some e => hd_error l = Some e /\ test n e = true | None => forall e, hd_error l = Some e -> test n e = false end.
  Proof.
    destruct l as [|e l]; [exists None; split; [reflexivity|intros e Hd; discriminate Hd]|].
    exists (if test n e then Some e else None). split; [reflexivity|].
    destruct (test n e) eqn:Et; [auto|]. intros e' [= <-]. exact Et.
  Qed.
  Lemma ovq_back n l : exists o lost l', step Back (n, l) = (Ret o, (length l - length l' + n, l')) /\
    (forall e, In e lost -> said test n (length l - length l' + n) false e) /\
    match o with Some e => l = l' ++ e :: lost /\ said test n (length l - length l' + n) true e | None => l = lost /\ l' = [] end.
  Proof.
    cbn [ovq_step]. unfold ovq_next_back, bind at 1, cget at 1. cbn [fst snd].
    assert (G : forall (rl : list (range K * V)) n, exists o lost l', ovq_back_loop kc bw rl (n, rev rl) = (Ret o, (length rl - length l' + n, l')) /\
      (forall e, In e lost -> said test n (length rl - length l' + n) false e) /\
      match o with Some e => rev rl = l' ++ e :: lost /\ said test n (length rl - length l' + n) true e | None => rev rl = lost /\ l' = [] end).
    { clear n l. induction rl as [|e rl IH]; intros n.
      - exists None, [], []. splits; auto. intros e [].
      - change (ovq_back_loop kc bw (e :: rl) (n, rev (e :: rl))) with
          ((if test n e then ret (Some e) else ovq_back_loop kc bw rl) (S n, rev rl)).
        destruct (test n e) eqn:Et.
        + exists (Some e), [], (rev rl). rewrite rev_length. cbn [length]. splits.
          * unfold ret. do 2 f_equal. lia.
          * intros x [].
          * reflexivity.
          * exists n. split; [lia|exact Et].
        + destruct (IH (S n)) as (o & lost & l' & E1 & H0 & Ho). rewrite E1.
          assert (L : length l' <= length rl).
          { rewrite <- (rev_length rl). destruct o; [destruct Ho as [Ho _]; rewrite Ho, app_length; lia|destruct Ho as [_ ->]; cbn; lia]. }
          assert (W : forall b x, said test (S n) (length rl - length l' + S n) b x -> said test n (length (e :: rl) - length l' + n) b x).
          { intros b x Hx. eapply said_weaken; [exact Hx|lia|cbn [length]; lia]. }
          exists o, (lost ++ [e]), l'. splits.
          * cbn [length]. do 2 f_equal. lia.
          * intros x Hx. apply in_app_iff in Hx as [Hx|[<-|[]]]; [apply W, H0, Hx|]. exists n. split; [cbn [length]; lia|exact Et].
          * cbn [rev]. destruct o as [x|]; destruct Ho as [Ho Ho']; [|rewrite Ho; auto].
            split; [rewrite Ho, <- app_assoc; reflexivity|apply W, Ho']. }
    destruct (G (rev l) n) as (o & lost & l' & E1 & H0 & Ho). rewrite rev_involutive in *. rewrite rev_length in *.
    exists o, lost, l'. auto.
  Qed.

  (** [Gaps::next] stops before an entry, with the gap that ends there, or gives up
      on the entries (perhaps because of the one it has just looked at) *)
  Lemma gpq_loop_spec (l : list (range K * V)) : forall n cand qend,
    exists tk o n' g', gpq_loop kc l (n, mkGaps cand qend l) = (Ret o, (n', g')) /\
      l = tk ++ gp_iter g' /\ gp_query_end g' = qend /\
      match o with
      | Some r => exists pre e, tk = pre ++ [e] /\ r = mkR (last (map (fun e => r_end (fst e)) pre) cand) (r_start (fst e)) /\
          gp_candidate_start g' = r_end (fst e) /\ n' = n + 2 * length tk
      | None => exists pre post, tk = pre ++ post /\ (length post = 1 \/ post = [] /\ gp_iter g' = []) /\
          gp_candidate_start g' = last (map (fun e => r_end (fst e)) pre) cand /\ n' = n + 2 * length pre + length post
      end.
  Proof.
    induction l as [|[o v] l IH]; intros n cand qend.
    - exists [], None, n, (mkGaps cand qend []). splits; auto. exists [], []. splits; auto; cbn; lia.
    - cbn [gpq_loop]. unfold qlt, qle, bind, cget, cmodify, qcmp, ret. cbn [fst snd gp_candidate_start gp_query_end gp_iter].
      destruct (match kc n qend (r_start o) with Gt => false | _ => true end).
      { exists [(o, v)], None, (S n), (mkGaps cand qend l). splits; auto. exists [], [(o, v)]. splits; auto; cbn; lia. }
      cbn [fst snd gp_candidate_start gp_query_end gp_iter].
      destruct (match kc (S n) cand (r_start o) with Lt => true | _ => false end).
      { exists [(o, v)], (Some (mkR cand (r_start o))), (S (S n)), (mkGaps (r_end o) qend l). splits; auto.
        exists [], (o, v). splits; auto; cbn; lia. }
      destruct (IH (S (S n)) (r_end o) qend) as (tk & oo & n' & g' & E1 & -> & E3 & Ho).
      exists ((o, v) :: tk), oo, n', g'. splits; auto.
      destruct oo as [r|].
      + destruct Ho as (pre & e & -> & -> & H1 & H2). exists ((o, v) :: pre), e. splits; auto; [|cbn in *; lia].
        f_equal. cbn [map fst]. symmetry. apply last_cons.
      + destruct Ho as (pre & post & -> & H0 & H1 & H2). exists ((o, v) :: pre), post. splits; auto; [|cbn in *; lia].
        rewrite H1. cbn [map fst]. symmetry. apply last_cons.
  Qed.
  Lemma gpq_next_spec n (g : gaps K V) :
    exists tk o n' g', gpq_next kc (n, g) = (Ret o, (n', g')) /\
      gp_iter g = tk ++ gp_iter g' /\ gp_query_end g' = gp_query_end g /\
      ((exists pre e, tk = pre ++ [e] /\
          o = Some (mkR (last (map (fun e => r_end (fst e)) pre) (gp_candidate_start g)) (r_start (fst e))) /\
          gp_candidate_start g' = r_end (fst e) /\ n' = n + 2 * length tk) \/
       (exists pre post, tk = pre ++ post /\ (length post = 1 \/ post = [] /\ gp_iter g' = []) /\
          n' = n + 2 * length pre + length post + 1 /\
          let c := last (map (fun e => r_end (fst e)) pre) (gp_candidate_start g) in
          ((o = None /\ gp_candidate_start g' = c) \/
           (o = Some (mkR c (gp_query_end g)) /\ gp_candidate_start g' = gp_query_end g)))).
  Proof.
    destruct g as [cand qend l]. destruct (gpq_loop_spec l n cand qend) as (tk & o & n' & g' & E1 & -> & E3 & Ho).
    unfold gpq_next, bind at 1, cget at 1. cbn [fst snd gp_iter]. unfold bind at 1. rewrite E1. destruct o as [r|].
    - destruct Ho as (pre & e & H1 & -> & H2 & H3). exists tk, (Some (mkR (last (map (fun e => r_end (fst e)) pre) cand) (r_start (fst e)))), n', g'.
      splits; auto. left. exists pre, e. auto.
    - destruct Ho as (pre & post & H1 & H2 & H3 & H4). unfold qlt, bind, cget, qcmp, cmodify, ret. cbn [fst snd].
      destruct (match kc n' (gp_candidate_start g') (gp_query_end g') with Lt => true | _ => false end); cbn [fst snd].
      + exists tk, (Some (mkR (gp_candidate_start g') (gp_query_end g'))), (S n'), (mkGaps (gp_query_end g') (gp_query_end g') (gp_iter g')). splits; auto. right.
        exists pre, post. splits; auto; [lia|]. right. cbn. rewrite H3, E3. auto.
      + exists tk, None, (S n'), g'. splits; auto. right. exists pre, post. splits; auto; lia.
  Qed.
End Half.

Section Incl.
  Context {K V : Type} (kc : nat -> K -> K -> comparison) (bw : nat -> rangei K) (st : stepfns K).
  Notation step := (oviq_step (V := V) kc bw).
  Definition oviq_test (n : nat) (e : rangei K * V) : bool :=
    match kc n (ri_start (fst e)) (ri_end (bw n)) with Gt => false | _ => true end.
  Notation test := oviq_test.
  Lemma oviq_front n l : exists o, step Front (n, l) = (Ret o, (length (firstn 1 l) + n, tl l)) /\
    match o with Some e => hd_error l = Some e /\ test n e = true | None => forall e, hd_error l = Some e -> test n e = false end.
  Proof.
    destruct l as [|e l]; [exists None; split; [reflexivity|intros e Hd; discriminate Hd]|].
    exists (if test n e then Some e else None). split; [reflexivity|].
    destruct (test n e) eqn:Et; [auto|]. intros e' [= <-]. exact Et.
  Qed.
  Lemma oviq_back n l : exists o lost l', step Back (n, l) = (Ret o, (length l - length l' + n, l')) /\
    (forall e, In e lost -> said test n (length l - length l' + n) false e) /\
    match o with Some e => l = l' ++ e :: lost /\ said test n (length l - length l' + n) true e | None => l = lost /\ l' = [] end.
  Proof.
    cbn [oviq_step]. unfold oviq_next_back, bind at 1, cget at 1. cbn [fst snd].
    assert (G : forall (rl : list (rangei K * V)) n, exists o lost l', oviq_back_loop kc bw rl (n, rev rl) = (Ret o, (length rl - length l' + n, l')) /\
      (forall e, In e lost -> said test n (length rl - length l' + n) false e) /\
      match o with Some e => rev rl = l' ++ e :: lost /\ said test n (length rl - length l' + n) true e | None => rev rl = lost /\ l' = [] end).
    { clear n l. induction rl as [|e rl IH]; intros n.
      - exists None, [], []. splits; auto. intros e [].
      - change (oviq_back_loop kc bw (e :: rl) (n, rev (e :: rl))) with
          ((if test n e then ret (Some e) else oviq_back_loop kc bw rl) (S n, rev rl)).
        destruct (test n e) eqn:Et.
        + exists (Some e), [], (rev rl). rewrite rev_length. cbn [length]. splits.
          * unfold ret. do 2 f_equal. lia.
          * intros x [].
          * reflexivity.
          * exists n. split; [lia|exact Et].
        + destruct (IH (S n)) as (o & lost & l' & E1 & H0 & Ho). rewrite E1.
          assert (L : length l' <= length rl).
          { rewrite <- (rev_length rl). destruct o; [destruct Ho as [Ho _]; rewrite Ho, app_length; lia|destruct Ho as [_ ->]; cbn; lia]. }
          assert (W : forall b x, said test (S n) (length rl - length l' + S n) b x -> said test n (length (e :: rl) - length l' + n) b x).
          { intros b x Hx. eapply said_weaken; [exact Hx|lia|cbn [length]; lia]. }
          exists o, (lost ++ [e]), l'. splits.
          * cbn [length]. do 2 f_equal. lia.
          * intros x Hx. apply in_app_iff in Hx as [Hx|[<-|[]]]; [apply W, H0, Hx|]. exists n. split; [cbn [length]; lia|exact Et].
          * cbn [rev]. destruct o as [x|]; destruct Ho as [Ho Ho']; [|rewrite Ho; auto].
            split; [rewrite Ho, <- app_assoc; reflexivity|apply W, Ho']. }
    destruct (G (rev l) n) as (o & lost & l' & E1 & H0 & Ho). rewrite rev_involutive in *. rewrite rev_length in *.
    exists o, lost, l'. auto.
  Qed.

  (** where a gap after the entries [pre] starts, [b] and [c] being the iterator's
      [candidate_needs_plus_one] and [candidate_start] before them *)
  Notation last_end pre c := (last (map (fun e : rangei K * V => ri_end (fst e)) pre) c).
  Definition plus_one (b : bool) (pre : list (rangei K * V)) : bool := match pre with [] => b | _ => true end.
  Definition gap_from (b : bool) (c : K) (pre : list (rangei K * V)) (s : K) : Prop :=
    if plus_one b pre then add_one st (last_end pre c) = Some s else s = c.
  Lemma gpiq_loop_spec (l : list (rangei K * V)) : forall n b cand qend,
    exists tk o n' g', gpiq_loop kc st l (n, mkGapsI b cand qend l) = (o, (n', g')) /\
      l = tk ++ gpi_iter g' /\ gpi_query_end g' = qend /\
      match o with
      | Ret (Some r) => exists pre e s p, tk = pre ++ [e] /\ r = incl s p /\ gap_from b cand pre s /\
          sub_one st (ri_start (fst e)) = Some p /\ gpi_needs_plus_one g' = true /\
          gpi_candidate_start g' = ri_end (fst e) /\ n' = n + 2 * length tk
      | Ret None => exists pre post, tk = pre ++ post /\ (length post = 1 \/ post = [] /\ gpi_iter g' = []) /\
          gpi_needs_plus_one g' = plus_one b pre /\
          gpi_candidate_start g' = last_end pre cand /\ n' = n + 2 * length pre + length post
      | Panicked PStep => (exists x, add_one st x = None \/ sub_one st x = None) /\
          gpi_needs_plus_one g' = true /\ n <= n' <= n + 2 * length tk
      | _ => False
      end.
  Proof.
    induction l as [|[o v] l IH]; intros n b cand qend.
    - exists [], (Ret None), n, (mkGapsI b cand qend []). splits; auto. exists [], []. splits; auto; cbn; lia.
    - cbn [gpiq_loop]. unfold qlt, bind, cget, cmodify, qcmp, ret, lift. cbn [fst snd gpi_needs_plus_one gpi_candidate_start gpi_query_end gpi_iter].
      destruct (match kc n qend (ri_start o) with Lt => true | _ => false end).
      { exists [(o, v)], (Ret None), (S n), (mkGapsI b cand qend l). splits; auto. exists [], [(o, v)]. splits; auto; cbn; lia. }
      cbn [fst snd gpi_needs_plus_one gpi_candidate_start gpi_query_end gpi_iter].
      assert (Pn : forall x n', add_one st x = None \/ sub_one st x = None -> n <= n' <= n + 2 ->
        exists tk oo n'' g', (@Panicked (option (rangei K)) PStep, (n', mkGapsI true (ri_end o) qend l)) = (oo, (n'', g')) /\
        (o, v) :: l = tk ++ gpi_iter g' /\ gpi_query_end g' = qend /\
        match oo with
        | Ret (Some r) => exists pre e s p, tk = pre ++ [e] /\ r = incl s p /\ gap_from b cand pre s /\
            sub_one st (ri_start (fst e)) = Some p /\ gpi_needs_plus_one g' = true /\
            gpi_candidate_start g' = ri_end (fst e) /\ n'' = n + 2 * length tk
        | Ret None => exists pre post, tk = pre ++ post /\ (length post = 1 \/ post = [] /\ gpi_iter g' = []) /\
            gpi_needs_plus_one g' = plus_one b pre /\
            gpi_candidate_start g' = last_end pre cand /\ n'' = n + 2 * length pre + length post
        | Panicked PStep => (exists x, add_one st x = None \/ sub_one st x = None) /\
            gpi_needs_plus_one g' = true /\ n <= n'' <= n + 2 * length tk
        | _ => False
        end).
      { intros x n' Hx Hn. exists [(o, v)], (Panicked PStep), n', (mkGapsI true (ri_end o) qend l). splits; auto; [eauto|cbn; lia|cbn; lia]. }
      assert (G : forall cur, gap_from b cand [] cur -> exists tk oo n' g',
        (if match kc (S n) cur (ri_start o) with Lt => true | _ => false end
         then bind (lift (step_o (sub_one st (ri_start o)))) (fun p => ret (Some (incl cur p))) else gpiq_loop kc st l)
           (S (S n), mkGapsI true (ri_end o) qend l) = (oo, (n', g')) /\
        (o, v) :: l = tk ++ gpi_iter g' /\ gpi_query_end g' = qend /\
        match oo with
        | Ret (Some r) => exists pre e s p, tk = pre ++ [e] /\ r = incl s p /\ gap_from b cand pre s /\
            sub_one st (ri_start (fst e)) = Some p /\ gpi_needs_plus_one g' = true /\
            gpi_candidate_start g' = ri_end (fst e) /\ n' = n + 2 * length tk
        | Ret None => exists pre post, tk = pre ++ post /\ (length post = 1 \/ post = [] /\ gpi_iter g' = []) /\
            gpi_needs_plus_one g' = plus_one b pre /\
            gpi_candidate_start g' = last_end pre cand /\ n' = n + 2 * length pre + length post
        | Panicked PStep => (exists x, add_one st x = None \/ sub_one st x = None) /\
            gpi_needs_plus_one g' = true /\ n <= n' <= n + 2 * length tk
        | _ => False
        end).
      { intros cur Hcur. destruct (match kc (S n) cur (ri_start o) with Lt => true | _ => false end).
        - unfold bind, lift. destruct (sub_one st (ri_start o)) as [p|] eqn:Ep; cbn [step_o].
          + exists [(o, v)], (Ret (Some (incl cur p))), (S (S n)), (mkGapsI true (ri_end o) qend l). splits; auto.
            exists [], (o, v), cur, p. splits; auto; cbn; lia.
          + apply (Pn (ri_start o)); [auto|lia].
        - destruct (IH (S (S n)) true (ri_end o) qend) as (tk & oo & n' & g' & E1 & -> & E3 & Ho).
          exists ((o, v) :: tk), oo, n', g'. splits; auto.
          destruct oo as [[r|]|[]|]; try exact Ho.
          + destruct Ho as (pre & e & s & p & -> & -> & H0 & H1 & H2 & H3 & H4). exists ((o, v) :: pre), e, s, p. splits; auto; [|cbn in *; lia].
            unfold gap_from, plus_one in *. cbn [map fst]. rewrite last_cons. destruct pre; exact H0.
          + destruct Ho as (pre & post & -> & H0 & H1 & H2 & H3). exists ((o, v) :: pre), post. splits; auto; [| |cbn in *; lia].
            * rewrite H1. destruct pre; reflexivity.
            * rewrite H2. cbn [map fst]. symmetry. apply last_cons.
          + destruct Ho as (H0 & H1 & H2). splits; auto; cbn in *; lia. }
      destruct b.
      + destruct (add_one st cand) as [cur|] eqn:Ea; cbn [step_o].
        * apply (G cur). exact Ea.
        * apply (Pn cand); [auto|lia].
      + apply (G cand). reflexivity.
  Qed.
  Lemma gpiq_next_spec n (g : gapsi K V) :
    exists tk o n' g', gpiq_next kc st (n, g) = (o, (n', g')) /\
      gpi_iter g = tk ++ gpi_iter g' /\ gpi_query_end g' = gpi_query_end g /\ gpi_needs_plus_one g' = true /\
      ((exists pre e s p, tk = pre ++ [e] /\ o = Ret (Some (incl s p)) /\
          gap_from (gpi_needs_plus_one g) (gpi_candidate_start g) pre s /\ sub_one st (ri_start (fst e)) = Some p /\
          gpi_candidate_start g' = ri_end (fst e) /\ n' = n + 2 * length tk) \/
       (exists pre post, tk = pre ++ post /\ (length post = 1 \/ post = [] /\ gpi_iter g' = []) /\
          n' = n + 2 * length pre + length post + 1 /\ gpi_candidate_start g' = gpi_query_end g /\
          (o = Ret None \/ exists s, gap_from (gpi_needs_plus_one g) (gpi_candidate_start g) pre s /\ o = Ret (Some (incl s (gpi_query_end g))))) \/
       ((exists x, add_one st x = None \/ sub_one st x = None) /\ o = Panicked PStep /\ n <= n' <= n + 2 * length tk + 1)).
  Proof.
    destruct g as [b cand qend l]. destruct (gpiq_loop_spec l n b cand qend) as (tk & o & n' & g' & E1 & -> & E3 & Ho).
    unfold gpiq_next, bind at 1, cget at 1. cbn [fst snd gpi_iter]. unfold bind at 1. rewrite E1.
    cbn [gpi_needs_plus_one gpi_candidate_start gpi_query_end gpi_iter]. destruct o as [[r|]|[]|]; try contradiction.
    - destruct Ho as (pre & e & s & p & H1 & -> & H2 & H3 & H4 & H5 & H6). exists tk, (Ret (Some (incl s p))), n', g'.
      splits; auto. left. exists pre, e, s, p. auto 10.
    - destruct Ho as (pre & post & H1 & H2 & H3 & H4 & H5). unfold bind, cget, cmodify, ret. cbn [fst snd].
      set (g1 := mkGapsI true (gpi_query_end g') (gpi_query_end g') (gpi_iter g')).
      assert (F : forall oo, (oo = Ret None \/ exists s, gap_from b cand pre s /\ oo = Ret (Some (incl s qend))) ->
        exists tk0 o n'0 g'0, (oo, (S n', g1)) = (o, (n'0, g'0)) /\ tk ++ gpi_iter g' = tk0 ++ gpi_iter g'0 /\
        gpi_query_end g'0 = qend /\ gpi_needs_plus_one g'0 = true /\
        ((exists pre e s p, tk0 = pre ++ [e] /\ o = Ret (Some (incl s p)) /\ gap_from b cand pre s /\ sub_one st (ri_start (fst e)) = Some p /\
          gpi_candidate_start g'0 = ri_end (fst e) /\ n'0 = n + 2 * length tk0) \/
         (exists pre post, tk0 = pre ++ post /\ (length post = 1 \/ post = [] /\ gpi_iter g'0 = []) /\
          n'0 = n + 2 * length pre + length post + 1 /\ gpi_candidate_start g'0 = qend /\
          (o = Ret None \/ exists s, gap_from b cand pre s /\ o = Ret (Some (incl s qend)))) \/
         ((exists x, add_one st x = None \/ sub_one st x = None) /\ o = Panicked PStep /\ n <= n'0 <= n + 2 * length tk0 + 1))).
      { intros oo Hoo. exists tk, oo, (S n'), g1. splits; auto. right; left. exists pre, post. splits; auto. lia. }
      rewrite H3. unfold qlt, qle, qcmp, bind, ret, lift. destruct (plus_one b pre) eqn:Eb; cbn [fst snd].
      + destruct (match kc n' (gpi_candidate_start g') (gpi_query_end g') with Lt => true | _ => false end); [|apply F; auto].
        rewrite H4. destruct (add_one st (last_end pre cand)) as [s|] eqn:Ea; cbn [step_o].
        * rewrite E3. apply F. right. exists s. split; [unfold gap_from; rewrite Eb; exact Ea|reflexivity].
        * exists tk, (Panicked PStep), (S n'), g1. splits; auto. right; right. splits; eauto; try lia.
          subst n' tk. rewrite app_length. destruct H2 as [H2|[-> _]]; cbn; lia.
      + destruct (match kc n' (gpi_candidate_start g') (gpi_query_end g') with Gt => false | _ => true end); [|apply F; auto].
        rewrite E3. apply F. right. exists (gpi_candidate_start g'). split; [|reflexivity].
        unfold gap_from. rewrite Eb, H4. destruct pre; [reflexivity|discriminate].
    - destruct Ho as (H1 & H2 & H3). exists tk, (Panicked PStep), n', g'. splits; auto. right; right. splits; auto; lia.
  Qed.
End Incl.
