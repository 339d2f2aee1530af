(** The dense oracle: its contents, and what its coalescing iterator yields. *)
From Coq Require Import List Bool ZArith Lia Sorting.Sorted.
From Coq Require Import ZifyBool.
From Verif Require Import Order Outcome BTree Ranges History Spec MapModel IMapModel StepModel ListLemmas
  IterFacts Instances MapProofs MapRemove MapFacts MapIter MapMore MapProps ISim Cuts StepFacts IFacts
  IMapProps Natural Cross Exhausted DenseModel.
Import ListNotations.
Local Open Scope Z_scope.

Lemma z_ltb a b : ltb Z.compare a b = (a <? b).
Proof. reflexivity. Qed.
Lemma z_leb a b : leb Z.compare a b = (a <=? b).
Proof. reflexivity. Qed.
Lemma z_eqb a b : eqb Z.compare a b = (a =? b).
Proof. unfold eqb. destruct (Z.compare_spec a b); lia. Qed.

Section Dense.
  Context {V : Type} {veqb : V -> V -> bool} (HV : PartialEquiv veqb).
  Notation dmap := (list (Z * V)).
  Notation item := (rangei Z * V)%type.
  Notation osame := (same_opt veqb).
  Notation WF := (WF (cmp := Z.compare) (veqb := veqb)).
  Notation lk := (lk (cmp := Z.compare)).
  Notation sepz := (sep (cmp := Z.compare) (veqb := veqb)).

  Definition dlt (a b : Z * V) : Prop := fst a < fst b.
  Notation sorted := (StronglySorted dlt).
  Fixpoint dl (d : dmap) (k : Z) : option V :=
    match d with [] => None | (k', v) :: d' => if k =? k' then Some v else dl d' k end.
  Lemma dl_In d k v : dl d k = Some v -> In (k, v) d.
  Proof.
    induction d as [|[k' v'] d IH]; cbn; [discriminate|]. destruct (Z.eqb_spec k k') as [->|]; [intros [= ->]; auto|auto].
  Qed.
  Lemma dl_above d k : (forall x, In x d -> k < fst x) -> dl d k = None.
  Proof.
    intros H. destruct (dl d k) eqn:E; [|reflexivity]. apply dl_In in E. apply H in E. cbn in E. lia.
  Qed.

  Lemma dins_In k v (d : dmap) x : In x (bt_insert Z.compare k v d) -> x = (k, v) \/ In x d.
  Proof.
    induction d as [|[k' v'] d IH]; cbn; [intros [<-|[]]; auto|].
    destruct (Z.compare_spec k k') as [->| |]; cbn; intuition.
  Qed.
  Lemma dins_sorted k v (d : dmap) : sorted d -> sorted (bt_insert Z.compare k v d).
  Proof.
    induction d as [|[k' v'] d IH]; intros H; cbn; [repeat constructor|].
    inversion H as [|? ? H1 H2]; subst. rewrite Forall_forall in H2.
    destruct (Z.compare_spec k k') as [->|E|E].
    - constructor; [exact H1|]. apply Forall_forall. intros x Hx. apply (H2 x Hx).
    - constructor; [exact H|]. constructor; [exact E|]. apply Forall_forall. intros x Hx.
      specialize (H2 x Hx). unfold dlt in *. cbn in *. lia.
    - constructor; [apply IH; exact H1|]. apply Forall_forall. intros x Hx.
      apply dins_In in Hx as [->|Hx]; [exact E|apply (H2 x Hx)].
  Qed.
  Lemma dins_dl k v (d : dmap) k' : dl (bt_insert Z.compare k v d) k' = if k' =? k then Some v else dl d k'.
  Proof.
    induction d as [|[k1 v1] d IH]; cbn; [reflexivity|].
    destruct (Z.compare_spec k k1) as [->|E|E]; cbn.
    - destruct (k' =? k1); reflexivity.
    - reflexivity.
    - rewrite IH. destruct (Z.eqb_spec k' k1), (Z.eqb_spec k' k); try reflexivity. lia.
  Qed.
  Lemma fold_sorted v ks : forall d : dmap, sorted d -> sorted (fold_left (fun d k => bt_insert Z.compare k v d) ks d).
  Proof. induction ks as [|k ks IH]; intros d H; cbn; [exact H|]. apply IH, dins_sorted, H. Qed.
  Lemma fold_dl v ks k : forall d : dmap, dl (fold_left (fun d k => bt_insert Z.compare k v d) ks d) k =
    if existsb (Z.eqb k) ks then Some v else dl d k.
  Proof.
    induction ks as [|k1 ks IH]; intros d; cbn; [reflexivity|]. rewrite IH, dins_dl.
    destruct (k =? k1), (existsb (Z.eqb k) ks); reflexivity.
  Qed.
  Lemma keys_in r k : existsb (Z.eqb k) (d_keys r) =
    negb (ri_exhausted r) && (ri_start r <=? k) && (k <=? ri_end r).
  Proof.
    apply eq_true_iff_eq. rewrite existsb_exists, !andb_true_iff, negb_true_iff, !Z.leb_le.
    unfold d_keys, ri_is_empty. rewrite z_leb. destruct (ri_exhausted r); cbn [orb].
    - split; [intros (x & [] & _)|intros ((H & _) & _); discriminate].
    - destruct (Z.leb_spec (ri_start r) (ri_end r)) as [H|H]; cbn [negb].
      + split.
        * intros (x & Hx & E). apply Z.eqb_eq in E. subst x. apply in_map_iff in Hx as (i & <- & Hi).
          apply in_seq in Hi. lia.
        * intros ((_ & H1) & H2). exists k. split; [|apply Z.eqb_refl]. apply in_map_iff.
          exists (Z.to_nat (k - ri_start r)). split; [lia|]. apply in_seq. lia.
      + split; [intros (x & [] & _)|lia].
  Qed.

  (** ** Contents *)
  Definition zenc (r : rangei Z) : range Z := mkR (ri_start r) (ri_end r + 1).
  Definition zence (e : item) : range Z * V := (zenc (fst e), snd e).
  Notation zspec1 := (spec_op (valid_range Z.compare) (in_range Z.compare)).
  Definition zins (l : list item) : list (op (range Z) V) := map (fun e => OInsert (zenc (fst e)) (snd e)) l.

  Lemma insert_all_sorted l : forall d, sorted d -> sorted (d_insert_all l d).
  Proof. induction l as [|e l IH]; intros d H; cbn; [exact H|]. apply IH, fold_sorted, H. Qed.
  Lemma insert_all_dl (l : list item) : (forall e, In e l -> ri_exhausted (fst e) = false) ->
    forall d g, (forall k, dl d k = g k) ->
    forall k, dl (d_insert_all l d) k = fold_left zspec1 (zins l) g k.
  Proof.
    induction l as [|[r v] l IH]; intros Hf d g Hd k; cbn; [apply Hd|].
    apply IH; [intros e He; apply Hf; right; exact He|]. intros k'. unfold d_insert. cbn [fst snd].
    rewrite fold_dl, keys_in. pose proof (Hf (r, v) (or_introl eq_refl)) as E. cbn in E. rewrite E.
    cbn [negb andb spec_op]. unfold put, valid_range, in_range, zenc. cbn [r_start r_end]. rewrite !z_ltb.
    rewrite Hd. destruct (Z.ltb_spec (ri_start r) (ri_end r + 1)).
    - change (ltb Z.compare) with Z.ltb.
      replace (negb (k' <? ri_start r) && (k' <? ri_end r + 1)) with ((ri_start r <=? k') && (k' <=? ri_end r)) by lia.
      reflexivity.
    - replace ((ri_start r <=? k') && (k' <=? ri_end r)) with false by lia. reflexivity.
  Qed.
  Lemma run_dl l k : (forall e, In e l -> ri_exhausted (fst e) = false) ->
    dl (d_insert_all l (d_new)) k = spec_run (valid_range Z.compare) (in_range Z.compare) (zins l) k.
  Proof. intros H. apply insert_all_dl; [exact H|reflexivity]. Qed.

  (** ** Iteration *)
  Fixpoint dvec (cur : item) (l : list (Z * V)) : list item :=
    match l with
    | [] => [cur]
    | (k, v) :: l' =>
        if (ri_end (fst cur) + 1 =? k) && veqb (snd cur) v
        then dvec (incl (ri_start (fst cur)) k, snd cur) l'
        else cur :: dvec (incl k k, v) l'
    end.
  Definition dvec0 (l : list (Z * V)) : list item :=
    match l with [] => [] | (k, v) :: l' => dvec (incl k k, v) l' end.

  Lemma dvec_ok l : forall s e w, sorted l -> (forall x, In x l -> e < fst x) -> s <= e ->
    WF (map zence (dvec (incl s e, w) l)) /\
    (forall x, In x (dvec (incl s e, w) l) -> ri_exhausted (fst x) = false /\
       (ri_end (fst x) = e \/ exists v, In (ri_end (fst x), v) l) /\
       ((ri_start (fst x) = s /\ snd x = w) \/
        (e < ri_start (fst x) /\ dl l (ri_start (fst x)) = Some (snd x)))) /\
    (forall k, osame (lk (map zence (dvec (incl s e, w) l)) k)
                     (if (s <=? k) && (k <=? e) then Some w else dl l k)).
  Proof.
    induction l as [|[k v] l IH]; intros s e w HS Hl Hse; cbn [dvec].
    - splits.
      + split; [repeat constructor|]. intros x [<-|[]]. cbn. rewrite z_ltb. lia.
      + intros x [<-|[]]. cbn. auto.
      + intros q. cbn [map MapProofs.lk zence]. unfold r_contains. cbn. rewrite z_leb, z_ltb.
        replace ((s <=? q) && (q <? e + 1)) with ((s <=? q) && (q <=? e)) by lia.
        destruct ((s <=? q) && (q <=? e)); [left; reflexivity|exact I].
    - inversion HS as [|? ? HS1 HS2]; subst. rewrite Forall_forall in HS2. unfold dlt in HS2. cbn [fst] in HS2.
      pose proof (Hl (k, v) (or_introl eq_refl)) as Hk. cbn [fst] in Hk.
      cbn [fst snd ri_end incl ri_start].
      destruct ((e + 1 =? k) && veqb w v) eqn:E.
      + apply andb_prop in E as [E1 E2].
        destruct (IH s k w HS1 HS2 ltac:(lia)) as (H1 & H2 & H3). splits; [exact H1| |].
        * intros x Hx. destruct (H2 x Hx) as (H4 & H5 & H6). splits; [exact H4| |].
          -- right. destruct H5 as [-> | [v' H5]]; eexists; [left; reflexivity|right; exact H5].
          -- destruct H6 as [H6|[H6 H7]]; [left; exact H6|]. right. split; [lia|]. cbn [dl].
             destruct (Z.eqb_spec (ri_start (fst x)) k); [lia|exact H7].
        * intros q. cbn [dl].
          assert (G : osame (if (s <=? q) && (q <=? k) then Some w else dl l q)
            (if (s <=? q) && (q <=? e) then Some w else if q =? k then Some v else dl l q)).
          { destruct ((s <=? q) && (q <=? e)) eqn:E3.
            - replace ((s <=? q) && (q <=? k)) with true by lia. left; reflexivity.
            - destruct (Z.eqb_spec q k) as [->|].
              + replace ((s <=? k) && (k <=? k)) with true by lia. right. exact E2.
              + replace ((s <=? q) && (q <=? k)) with false by lia. apply osame_refl. }
          eapply (osame_trans HV); [apply H3|exact G].
      + destruct (IH k k v HS1 HS2 ltac:(lia)) as (H1 & H2 & H3).
        assert (Hge : forall x, In x (dvec (incl k k, v) l) ->
                  k <= ri_start (fst x) /\ (ri_start (fst x) = k -> snd x = v)).
        { intros x Hx. destruct (H2 x Hx) as (_ & _ & [[H4 H5]|[H4 H5]]); split; auto; lia. }
        splits.
        * cbn [map]. destruct H1 as [H1 H1']. split.
          -- constructor; [exact H1|]. apply Forall_forall. intros y Hy. apply in_map_iff in Hy as (x & <- & Hx).
             destruct (Hge x Hx) as [H4 H5]. unfold sep. cbn. rewrite z_leb, z_eqb. split; [lia|].
             intros E3. rewrite H5 by lia. apply andb_false_iff in E as [E|E]; [lia|exact E].
          -- intros y [<-|Hy]; [cbn; rewrite z_ltb; lia|]. apply H1'. exact Hy.
        * intros x [<-|Hx].
          -- cbn. auto.
          -- destruct (H2 x Hx) as (H4 & H5 & H6). splits; [exact H4| |].
             ++ right. destruct H5 as [-> | [v' H5]]; eexists; [left; reflexivity|right; exact H5].
             ++ right. cbn [dl]. destruct H6 as [[H6 H7]|[H6 H7]].
                ** rewrite H6, Z.eqb_refl, H7. split; [lia|reflexivity].
                ** split; [lia|]. destruct (Z.eqb_spec (ri_start (fst x)) k); [lia|exact H7].
        * intros q. cbn [map MapProofs.lk zence dl]. unfold r_contains. cbn [fst snd zenc r_start r_end incl ri_start ri_end].
          rewrite z_leb, z_ltb.
          replace ((s <=? q) && (q <? e + 1)) with ((s <=? q) && (q <=? e)) by lia.
          destruct ((s <=? q) && (q <=? e)) eqn:E3; [left; reflexivity|].
          specialize (H3 q). replace ((k <=? q) && (q <=? k)) with (q =? k) in H3 by lia. exact H3.
  Qed.
  Lemma dvec0_ok d : sorted d ->
    WF (map zence (dvec0 d)) /\
    (forall x, In x (dvec0 d) -> ri_exhausted (fst x) = false /\
       (exists v, In (ri_end (fst x), v) d) /\ dl d (ri_start (fst x)) = Some (snd x)) /\
    (forall k, osame (lk (map zence (dvec0 d)) k) (dl d k)).
  Proof.
    destruct d as [|[k v] l]; intros HS; cbn [dvec0].
    - splits; [apply WF_nil|intros x []|intros k; exact I].
    - inversion HS as [|? ? HS1 HS2]; subst. rewrite Forall_forall in HS2. unfold dlt in HS2. cbn [fst] in HS2.
      destruct (dvec_ok l k k v HS1 HS2 ltac:(lia)) as (H1 & H2 & H3). splits; [exact H1| |].
      + intros x Hx. destruct (H2 x Hx) as (H4 & H5 & H6). splits; [exact H4| |].
        * destruct H5 as [-> | [v' H5]]; eexists; [left; reflexivity|right; exact H5].
        * cbn [dl]. destruct H6 as [[-> ->]|[H6 H7]]; [rewrite Z.eqb_refl; reflexivity|].
          destruct (Z.eqb_spec (ri_start (fst x)) k); [lia|exact H7].
      + intros q. specialize (H3 q). cbn [dl]. replace ((k <=? q) && (q <=? k)) with (q =? k) in H3 by lia. exact H3.
  Qed.

  (** the iterator yields [dvec0] and never overflows *)
  Notation fits := (fun z => 0 <= z <= 2 ^ 32 - 1).
  Lemma u32_of_ok z : fits z -> u32_of z = Ret z.
  Proof.
    intros [H1 H2]. unfold u32_of. replace (in_ity u32 z) with true; [reflexivity|]. symmetry.
    apply andb_true_intro. split; apply Z.leb_le; [exact H1|exact H2].
  Qed.

  Inductive di_rel : diter (V := V) -> list item -> Prop :=
  | di_none : forall l, sorted l -> (forall x, In x l -> fits (fst x)) -> di_rel (mkDiter l None) (dvec0 l)
  | di_some : forall l s e w, sorted l -> (forall x, In x l -> fits (fst x) /\ e < fst x) -> 0 <= e ->
      di_rel (mkDiter l (Some (incl s e, w))) (dvec (incl s e, w) l).
  Lemma next_some l : forall s e w, sorted l -> (forall x, In x l -> fits (fst x) /\ e < fst x) -> 0 <= e ->
    exists a r it, dvec (incl s e, w) l = a :: r /\
      d_next_loop veqb l (Some (incl s e, w)) = (Ret (Some a), it) /\ di_rel it r.
  Proof.
    induction l as [|[k v] l IH]; intros s e w HS Hl He; cbn [dvec d_next_loop].
    - do 3 eexists. splits; [reflexivity|reflexivity|]. apply (di_none []); [constructor|intros x []].
    - inversion HS as [|? ? HS1 HS2]; subst. rewrite Forall_forall in HS2. unfold dlt in HS2. cbn [fst] in HS2.
      pose proof (Hl (k, v) (or_introl eq_refl)) as [Hk1 Hk2]. cbn [fst] in Hk1, Hk2.
      assert (Hl' : forall x, In x l -> fits (fst x) /\ k < fst x).
      { intros x Hx. split; [apply Hl; right; exact Hx|apply HS2; exact Hx]. }
      cbn [fst snd ri_end ri_start incl]. rewrite u32_of_ok by lia.
      destruct ((e + 1 =? k) && veqb w v).
      + apply IH; auto; lia.
      + do 3 eexists. splits; [reflexivity|reflexivity|]. apply di_some; auto; lia.
  Qed.
  Lemma di_step it l : di_rel it l ->
    match l with
    | [] => d_next veqb it = (Ret None, mkDiter [] None) /\ di_rel (mkDiter [] None) []
    | a :: r => exists it', d_next veqb it = (Ret (Some a), it') /\ di_rel it' r
    end.
  Proof.
    intros [l0 HS Hl|l0 s e w HS Hl He].
    - destruct l0 as [|[k v] l0]; cbn [dvec0].
      + unfold d_next. cbn. split; [reflexivity|apply (di_none []); [constructor|intros x []]].
      + inversion HS as [|? ? HS1 HS2]; subst. rewrite Forall_forall in HS2. unfold dlt in HS2. cbn [fst] in HS2.
        destruct (next_some l0 k k v HS1) as (a & r & i1 & H1 & H2 & H3).
        * intros x Hx. split; [apply Hl; right; exact Hx|apply HS2; exact Hx].
        * apply (Hl (k, v)). left; reflexivity.
        * rewrite H1. exists i1. auto.
    - destruct (next_some l0 s e w HS Hl He) as (a & r & i1 & H1 & H2 & H3). rewrite H1. exists i1. auto.
  Qed.
  Lemma di_yields : forall n it l, di_rel it l -> nexts_m (d_next veqb) n it = map Ret (yields n l).
  Proof.
    induction n as [|n IH]; intros it l H; [reflexivity|]. cbn [nexts_m]. apply di_step in H.
    destruct l as [|a l].
    - destruct H as [H1 H2]. rewrite H1. cbn [map]. rewrite (IH _ _ H2), !yields_nil. reflexivity.
    - destruct H as (it' & H1 & H2). rewrite H1, yields_cons. cbn [map]. rewrite (IH _ _ H2). reflexivity.
  Qed.
  Lemma iter_yields d n : sorted d -> (forall x, In x d -> fits (fst x)) ->
    nexts_m (d_next veqb) n (d_iter d) = map Ret (yields n (dvec0 d)).
  Proof. intros HS Hd. apply di_yields. constructor; assumption. Qed.
  Lemma ee_yields : forall n it l, di_rel it l -> (forall x, In x l -> fits (ri_end (fst x) + 1)) ->
    nexts_m (d_ee_next veqb) n it = map Ret (yields n (map zence l)).
  Proof.
    induction n as [|n IH]; intros it l H Hl; [reflexivity|]. cbn [nexts_m]. unfold d_ee_next at 1. apply di_step in H.
    destruct l as [|[r v] l]; cbn [map zence fst snd].
    - destruct H as [H1 H2]. rewrite H1. cbn [obind]. rewrite (IH _ _ H2) by (intros x []). cbn [map]. rewrite !yields_nil. reflexivity.
    - destruct H as (it' & H1 & H2). rewrite H1. cbn [obind].
      rewrite (u32_of_ok (ri_end r + 1) (Hl (r, v) (or_introl eq_refl))). cbn [omap obind].
      rewrite yields_cons. cbn [map]. rewrite (IH _ _ H2) by (intros x Hx; apply Hl; right; exact Hx). reflexivity.
  Qed.

  (** ** Comparison with the range maps *)
  Lemma put_fold (m : rmap Z V) : WF m -> forall g k,
    fold_left zspec1 (map (fun e => OInsert (fst e) (snd e)) m) g k =
    match lk m k with Some v => Some v | None => g k end.
  Proof.
    induction m as [|[r v] m IH]; intros HW g k; cbn [map fold_left fst snd MapProofs.lk]; [reflexivity|].
    apply (WF_cons (cmp := Z.compare) (veqb := veqb)) in HW as (H1 & H2 & H3). rewrite IH by exact H2.
    cbn in H1. cbn [spec_op]. unfold valid_range. rewrite H1. unfold put. rewrite (in_range_contains Z_order).
    destruct (r_contains Z.compare r k) eqn:E; [|reflexivity].
    rewrite (lk_above Z_order m k (r_end r)); [reflexivity| |].
    - intros x Hx. apply (H3 x Hx).
    - unfold r_contains in E. apply andb_prop in E. tauto.
  Qed.
  Notation eqz := (entry_eq (cmp := Z.compare) (veqb := veqb)).
  (** a dense map with the lookups of a canonical range map [m] iterates as [m] *)
  Lemma dvec0_same (Hrefl : forall v, veqb v v = true) d m : sorted d -> WF m ->
    (forall k, osame (dl d k) (lk m k)) -> Forall2 eqz (map zence (dvec0 d)) m.
  Proof.
    intros HS HW H. destruct (dvec0_ok d HS) as (H1 & _ & H3).
    apply (canonical Z_order HV Hrefl); auto. intros k. eapply (osame_trans HV); [apply H3|apply H].
  Qed.
  Lemma dvec0_exact (Hrefl : forall v, veqb v v = true) d m : sorted d -> WF m ->
    (forall k, dl d k = lk m k) -> map zence (dvec0 d) = m.
  Proof.
    intros HS HW H. assert (HF : Forall2 eqz (map zence (dvec0 d)) m).
    { apply dvec0_same; auto. intros k. rewrite H. apply osame_refl. }
    destruct (dvec0_ok d HS) as (_ & H2 & _).
    assert (Hv : forall x r w, In x (dvec0 d) -> In (r, w) m -> ri_start (fst x) = r_start r -> snd x = w).
    { intros x r w Hx Hy E. destruct (H2 x Hx) as (_ & _ & H3). rewrite H, E in H3.
      rewrite (lk_WF_In Z_order m r w (r_start r) HW Hy) in H3; [congruence|].
      unfold r_contains. destruct HW as [_ HN]. specialize (HN _ Hy). cbn in HN.
      rewrite z_leb, z_ltb in *. lia. }
    clear H HW HS H2. revert m HF Hv. generalize (dvec0 d) as D. induction D as [|x D IH]; intros [|[r w] m] HF Hv; inversion HF; subst; cbn; [reflexivity|].
    destruct H2 as (E1 & E2 & _). cbn in E1, E2. rewrite z_eqb in E1, E2. f_equal.
    - unfold zence, zenc. destruct r as [a b]. cbn in *. f_equal; [f_equal; lia|].
      apply (Hv x (mkR a b) w); [left; reflexivity|left; reflexivity|cbn; lia].
    - apply IH; [assumption|]. intros y r' w' Hy Hm. apply Hv; right; assumption.
  Qed.
  Lemma dl_eqb (Hrefl : forall v, veqb v v = true) a : forall b, sorted a -> sorted b ->
    (forall k, osame (dl a k) (dl b k)) -> d_eqb veqb a b = true.
  Proof.
    unfold d_eqb. induction a as [|[k v] a IH]; intros [|[k' v'] b] Ha Hb H; cbn [list_eqb fst snd].
    - reflexivity.
    - specialize (H k'). cbn in H. rewrite Z.eqb_refl in H. destruct H.
    - specialize (H k). cbn in H. rewrite Z.eqb_refl in H. destruct H.
    - inversion Ha as [|? ? Ha1 Ha2]; subst. inversion Hb as [|? ? Hb1 Hb2]; subst.
      rewrite Forall_forall in Ha2, Hb2. unfold dlt in Ha2, Hb2. cbn [fst] in Ha2, Hb2.
      assert (E : k = k').
      { pose proof (H k) as H1. pose proof (H k') as H2. cbn [dl] in H1, H2. rewrite Z.eqb_refl in H1, H2.
        destruct (Z.eqb_spec k k'); [assumption|]. exfalso. destruct (Z.eqb_spec k' k); [lia|].
        destruct (Z.ltb_spec k k').
        - rewrite (dl_above b k) in H1; [destruct H1|]. intros x Hx. specialize (Hb2 x Hx). lia.
        - rewrite (dl_above a k') in H2; [destruct H2|]. intros x Hx. specialize (Ha2 x Hx). lia. }
      subst k'. rewrite Z.eqb_refl. cbn [andb].
      assert (Ev : veqb v v' = true).
      { specialize (H k). cbn in H. rewrite Z.eqb_refl in H. destruct H as [-> | H]; auto. }
      rewrite Ev. cbn [andb]. apply IH; auto. intros q. specialize (H q). cbn [dl] in H.
      destruct (Z.eqb_spec q k) as [E|]; [|exact H].
      rewrite (dl_above a q), (dl_above b q); [exact I| |]; intros x Hx; rewrite E; auto.
  Qed.

  Lemma eqb_dl a : forall b, d_eqb veqb a b = true -> forall k, osame (dl a k) (dl b k).
  Proof.
    unfold d_eqb. induction a as [|[k v] a IH]; intros [|[k' v'] b] H q; cbn [list_eqb fst snd] in H; try discriminate.
    - exact I.
    - apply andb_prop in H as [H H3]. apply andb_prop in H as [H1 H2]. apply Z.eqb_eq in H1. subst k'. cbn [dl].
      destruct (q =? k); [right; exact H2|apply IH; exact H3].
  Qed.
  Notation ispec1 := (spec_op (V := V) (valid_rangei Z.compare) (in_rangei Z.compare)).
  Lemma insert_all_idl (l : list item) : (forall e, In e l -> ri_exhausted (fst e) = false) ->
    forall d g, (forall k, dl d k = g k) ->
    forall k, dl (d_insert_all l d) k = fold_left ispec1 (map (fun e => OInsert (fst e) (snd e)) l) g k.
  Proof.
    induction l as [|[r v] l IH]; intros Hf d g Hd k; cbn; [apply Hd|].
    apply IH; [intros e He; apply Hf; right; exact He|]. intros k'. unfold d_insert. cbn [fst snd].
    rewrite fold_dl, keys_in. pose proof (Hf (r, v) (or_introl eq_refl)) as E. cbn in E. rewrite E.
    cbn [negb andb spec_op]. unfold put, valid_rangei, in_rangei. rewrite !z_ltb.
    rewrite Hd. destruct (Z.ltb_spec (ri_end r) (ri_start r)); cbn [negb].
    - replace ((ri_start r <=? k') && (k' <=? ri_end r)) with false by lia. reflexivity.
    - change (ltb Z.compare) with Z.ltb.
      replace (negb (k' <? ri_start r) && negb (ri_end r <? k')) with ((ri_start r <=? k') && (k' <=? ri_end r)) by lia.
      reflexivity.
  Qed.
  Lemma dense_eq_iff (Hrefl : forall v, veqb v v = true) (l1 l2 : list item) :
    (forall e, In e (l1 ++ l2) -> ri_exhausted (fst e) = false) ->
    d_eqb veqb (d_insert_all l1 d_new) (d_insert_all l2 d_new) = true <->
    forall k, osame
      (spec_run (valid_rangei Z.compare) (in_rangei Z.compare) (map (fun e => OInsert (fst e) (snd e)) l1) k)
      (spec_run (valid_rangei Z.compare) (in_rangei Z.compare) (map (fun e => OInsert (fst e) (snd e)) l2) k).
  Proof.
    intros Hf.
    assert (H1 : forall e, In e l1 -> ri_exhausted (fst e) = false) by (intros; apply Hf; apply in_or_app; auto).
    assert (H2 : forall e, In e l2 -> ri_exhausted (fst e) = false) by (intros; apply Hf; apply in_or_app; auto).
    unfold spec_run. split; intros H.
    - intros k. rewrite <- (insert_all_idl l1 H1 d_new) by reflexivity.
      rewrite <- (insert_all_idl l2 H2 d_new) by reflexivity. apply eqb_dl, H.
    - apply dl_eqb; [exact Hrefl|apply insert_all_sorted; constructor|apply insert_all_sorted; constructor|].
      intros k. rewrite (insert_all_idl l1 H1 d_new (fun _ => None)) by reflexivity.
      rewrite (insert_all_idl l2 H2 d_new (fun _ => None)) by reflexivity. apply H.
  Qed.

  (** *** inclusive *)
  Notation val := (@proj1_sig Z (fun z => in_ity u32 z = true)).
  Definition ditem (e : rangei (ival u32) * V) : item := (d_range (fst e), snd e).
  Lemma fits_val (x : ival u32) : fits (val x).
  Proof. destruct x as [x Hx]. cbn. apply andb_prop in Hx. unfold i_min, i_max, u32 in Hx. cbn [i_signed i_bits] in Hx. lia. Qed.
  Lemma dl_fits d : sorted d -> (forall k, dl d k <> None -> fits k) -> forall x, In x d -> fits (fst x).
  Proof.
    induction d as [|[k v] d IH]; intros HS H x Hx; [destruct Hx|]. destruct Hx as [<-|Hx].
    - apply H. cbn. rewrite Z.eqb_refl. discriminate.
    - inversion HS as [|? ? H1 H2]; subst. apply IH; auto. intros q Hq. apply H. cbn.
      destruct (q =? k); [discriminate|exact Hq].
  Qed.

  Notation ins l := (map (fun e => OInsert (fst e) (snd e)) l).
  Notation irun ops := (im_run (icmp u32) veqb (int_steps Checked u32) ops).
  Notation HCu := (int_cuts_ival u32 eq_refl Checked).
  Notation zop := (@enc_op (ival u32) Z V (fun k => proj1_sig k) (fun k => proj1_sig k + 1)).
  Notation zent := (@ence (ival u32) Z V (fun k => proj1_sig k) (fun k => proj1_sig k + 1)).

  Lemma ditem_fresh l : (forall e, In e l -> ri_exhausted (fst e) = false) ->
    (forall e, In e (map ditem l) -> ri_exhausted (fst e) = false) /\ fresh_ops (ins l).
  Proof.
    intros H. split.
    - intros e He. apply in_map_iff in He as (x & <- & Hx). apply (H x Hx).
    - unfold fresh_ops. induction l as [|e l IH]; cbn; [reflexivity|].
      rewrite (H e) by (left; reflexivity). apply IH. intros x Hx. apply H. right. exact Hx.
  Qed.
  Lemma insert_all_fits (l : list item) d : (forall e, In e l -> fits (ri_start (fst e)) /\ ri_end (fst e) <= 2 ^ 32 - 1) ->
    (forall k, dl d k <> None -> fits k) ->
    forall k, dl (d_insert_all l d) k <> None -> fits k.
  Proof.
    revert d. induction l as [|[r v] l IH]; intros d Hl Hd k; cbn [d_insert_all fold_left]; [apply Hd|].
    apply IH; [intros e He; apply Hl; right; exact He|]. intros q. unfold d_insert. cbn [fst snd].
    rewrite fold_dl, keys_in. destruct (Hl (r, v) (or_introl eq_refl)) as [H1 H2]. cbn in H1, H2.
    destruct (negb (ri_exhausted r) && (ri_start r <=? q) && (q <=? ri_end r)) eqn:E; [lia|apply Hd].
  Qed.

  Lemma ioracle (Hrefl : forall v, veqb v v = true) l :
    (forall e, In e l -> ri_exhausted (fst e) = false) ->
    exists D, (forall n, nexts_m (d_next veqb) n (d_iter (d_insert_all (map ditem l) d_new)) = map Ret (yields n D)) /\
      Forall2 (fun x y => fst x = d_range (fst y) /\ veqb (snd x) (snd y) = true) D (im_iter (irun (ins l))).
  Proof.
    intros Hl. destruct (ditem_fresh l Hl) as [F1 F2].
    set (d := d_insert_all (map ditem l) d_new).
    assert (HS : sorted d) by (apply insert_all_sorted; constructor).
    exists (dvec0 d). split.
    - intros n. apply iter_yields; [exact HS|]. apply dl_fits; [exact HS|]. apply insert_all_fits; [|intros k H; contradiction H; reflexivity].
      intros e He. apply in_map_iff in He as (x & <- & Hx). cbn. split; apply fits_val.
    - pose proof (run_sim HCu Z_order HV (ins l) F2) as HR.
      assert (E : map zop (ins l) = zins (map ditem l)) by (unfold zins; rewrite !map_map; reflexivity).
      rewrite E in HR.
      assert (HF : Forall2 eqz (map zence (dvec0 d)) (rm_run Z.compare veqb (zins (map ditem l)))).
      { apply dvec0_same; auto; [apply (run_WF Z_order HV)|]. intros k. unfold d. rewrite run_dl by exact F1.
        apply (osame_sym HV). apply (run_lk Z_order HV). }
      destruct (dvec0_ok d HS) as (_ & H2 & _). clearbody d. clear E HS.
      assert (Hx : forall x, In x (dvec0 d) -> ri_exhausted (fst x) = false) by (intros x Hx; apply (H2 x Hx)).
      clear H2. revert HF HR Hx. unfold im_iter. generalize (dvec0 d) as D. generalize (rm_run Z.compare veqb (zins (map ditem l))) as m.
      generalize (irun (ins l)) as mi. induction mi as [|[ri vi] mi IH]; intros m [|[x xv] D] HF HR Hx; inversion HR; subst; inversion HF; subst; constructor.
      + destruct H1 as (((R1 & R2) & R3) & R4). destruct H4 as (E1 & E2 & E3). cbn in *.
        apply Z.compare_eq in R1, R2. rewrite z_eqb in E1, E2. subst. split; [|exact E3].
        specialize (Hx (x, xv) (or_introl eq_refl)). cbn in Hx. destruct x as [a b c]. cbn in *. unfold d_range. subst c. rewrite R3. f_equal; lia.
      + eapply IH; eauto. intros z Hz. apply Hx; right; exact Hz.
  Qed.
  Lemma ifrom_list m (Hrefl : forall v, veqb v v = true) : (forall e, In e m -> ri_exhausted (fst e) = false) ->
    WF (map zent m) -> forall n,
    nexts_m (d_next veqb) n (d_iter (d_from_imap m)) = map Ret (yields n (map ditem (im_iter m))).
  Proof.
    intros HFr HWz n.
    destruct (ditem_fresh m HFr) as [F1 _].
    unfold d_from_imap. change (map (fun e => (d_range (fst e), snd e)) (im_iter m)) with (map ditem m).
    set (d := d_insert_all (map ditem m) d_new).
    assert (HS : sorted d) by (apply insert_all_sorted; constructor).
    rewrite iter_yields; [|exact HS|].
    - f_equal. f_equal. unfold im_iter.
      assert (E : map zence (dvec0 d) = map zent m).
      { apply dvec0_exact; auto. intros k. unfold d. rewrite run_dl by exact F1.
        assert (E : zins (map ditem m) = map (fun e => OInsert (fst e) (snd e)) (map zent m))
          by (unfold zins; rewrite !map_map; reflexivity).
        unfold spec_run. rewrite E, put_fold by exact HWz. destruct (lk (map zent m) k); reflexivity. }
      destruct (dvec0_ok d HS) as (_ & H2 & _). clearbody d. clear HS HWz F1.
      assert (Hx : forall x, In x (dvec0 d) -> ri_exhausted (fst x) = false) by (intros x Hx; apply (H2 x Hx)).
      clear H2. revert m HFr E Hx. generalize (dvec0 d) as D. induction D as [|[x xv] D IH]; intros [|[r v] m] HFr E Hx; try discriminate; [reflexivity|].
      cbn in E. injection E as E1 E2 E3 E4. cbn [map]. f_equal.
      + specialize (Hx (x, xv) (or_introl eq_refl)). specialize (HFr (r, v) (or_introl eq_refl)). cbn in *.
        unfold ditem, d_range. cbn. destruct x as [a b c]. cbn in *. subst. rewrite HFr. f_equal. f_equal. lia.
      + apply IH; auto; intros z Hz; [apply HFr|apply Hx]; right; exact Hz.
    - apply dl_fits; [exact HS|]. apply insert_all_fits; [|intros k H; contradiction H; reflexivity].
      intros e He. apply in_map_iff in He as (x & <- & Hx). cbn. split; apply fits_val.
  Qed.

  Definition unexhausted (e : rangei (ival u32) * V) : bool := negb (ri_exhausted (fst e)).
  Lemma from_filter m : d_from_imap m = d_from_imap (filter unexhausted m).
  Proof.
    unfold d_from_imap, d_insert_all, im_iter. generalize (@d_new V). induction m as [|[r v] m IH]; intros d; [reflexivity|].
    cbn [map fold_left filter fst snd]. unfold unexhausted at 1. cbn [fst].
    destruct (ri_exhausted r) eqn:E; cbn [negb]; [|cbn [map fold_left fst snd]; apply IH].
    rewrite <- IH. replace (d_insert (d_range r) v d) with d; [reflexivity|].
    unfold d_insert, d_keys. unfold d_range. cbn [ri_exhausted]. rewrite E. reflexivity.
  Qed.
  Lemma WF_part (f : rangei (ival u32) * V -> range Z * V) p m : WF (map f m) -> WF (map f (filter p m)).
  Proof.
    induction m as [|e m IH]; intros H; [exact H|]. cbn [map filter] in *.
    destruct H as [H1 H2]. apply StronglySorted_inv in H1 as [H1 H3].
    assert (IH' : WF (map f (filter p m))) by (apply IH; split; [exact H1|intros x Hx; apply H2; right; exact Hx]).
    destruct (p e); [|exact IH']. cbn [map]. split; [constructor|].
    - apply IH'.
    - apply Forall_forall. intros x Hx. apply in_map_iff in Hx as (y & <- & Hy). apply filter_In in Hy as [Hy _].
      rewrite Forall_forall in H3. apply H3, in_map, Hy.
    - intros x [<-|Hx]; [apply H2; left; reflexivity|]. apply IH', Hx.
  Qed.
  Lemma ifrom ops (Hrefl : forall v, veqb v v = true) n :
    nexts_m (d_next veqb) n (d_iter (d_from_imap (irun ops))) =
    map Ret (yields n (map ditem (filter unexhausted (im_iter (irun ops))))).
  Proof.
    rewrite from_filter. apply (ifrom_list (filter unexhausted (irun ops)) Hrefl).
    - intros e He. apply filter_In in He as [_ He]. unfold unexhausted in He. destruct (ri_exhausted (fst e)); [discriminate|reflexivity].
    - assert (HW : WF (map zent (map freshen_entry (irun ops)))).
      { rewrite <- x_run. apply (WFi_sim Z_order), (run_iWF HCu Z_order HV), freshen_fresh. }
      rewrite map_map in HW. change (WF (map zent (irun ops))) in HW. apply WF_part, HW.
  Qed.

  (** *** half-open *)
  Notation hrun ops := (rm_run (icmp u32) veqb ops).
  Notation zfe := (@fe (ival u32) Z V V (fun k => proj1_sig k) (fun v => v)).
  Notation zfop := (@fop (ival u32) Z V V (fun k => proj1_sig k) (fun v => v)).
  Definition hitem (e : range (ival u32) * V) : item :=
    (incl (val (r_start (fst e))) (val (r_end (fst e)) - 1), snd e).
  Lemma Hfz (a b : ival u32) : Z.compare (val a) (val b) = icmp u32 a b.
  Proof. reflexivity. Qed.
  Lemma run_z ops : rm_run Z.compare veqb (map zfop ops) = map zfe (hrun ops).
  Proof. apply (n_run (cmp' := Z.compare) (veqb' := veqb) _ _ Hfz (fun a b => eq_refl)). Qed.
  Lemma hitem_ops l : zins (map hitem l) = map zfop (ins l).
  Proof.
    unfold zins. rewrite !map_map. apply map_ext. intros [r v]. cbn. unfold zenc, fr. cbn. do 2 f_equal. lia.
  Qed.
  Lemma hitem_fresh l : forall e, In e (map hitem l) -> ri_exhausted (fst e) = false.
  Proof. intros e He. apply in_map_iff in He as (x & <- & _). reflexivity. Qed.
  Lemma hitem_zence l : map zence (map hitem l) = map zfe l.
  Proof. rewrite map_map. apply map_ext. intros [r v]. unfold zence, zenc, fe, fr. cbn. repeat f_equal. lia. Qed.
  Lemma hall_ee (l : rmap (ival u32) V) n :
    nexts_m (d_ee_next veqb) n (d_iter (d_insert_all (map hitem l) d_new)) =
    map Ret (yields n (map zence (dvec0 (d_insert_all (map hitem l) d_new)))).
  Proof.
    set (d := d_insert_all (map hitem l) d_new).
    assert (HS : sorted d) by (apply insert_all_sorted; constructor).
    assert (HF : forall k, dl d k <> None -> 0 <= k <= 2 ^ 32 - 2).
    { unfold d. rewrite <- (map_id (map hitem l)). unfold d_insert_all, d_new. rewrite map_id.
      assert (G : forall l d, (forall k, dl d k <> None -> 0 <= k <= 2 ^ 32 - 2) -> forall k,
        dl (fold_left (fun d e => d_insert (fst e) (snd e) d) (map hitem l) d) k <> None -> 0 <= k <= 2 ^ 32 - 2).
      { clear. induction l as [|[r v] l IH]; intros d Hd k; cbn [map fold_left]; [apply Hd|]. apply IH. intros q.
        unfold d_insert. rewrite fold_dl, keys_in. cbn.
        destruct ((val (r_start r) <=? q) && (q <=? val (r_end r) - 1)) eqn:E; [|apply Hd]. intros _.
        pose proof (fits_val (r_start r)). pose proof (fits_val (r_end r)). cbn beta in *. lia. }
      apply G. intros k H. contradiction H; reflexivity. }
    assert (HF2 : forall x, In x d -> 0 <= fst x <= 2 ^ 32 - 2).
    { intros x Hx. apply HF. clear HF. clearbody d. induction d as [|[k v] d IH]; [destruct Hx|].
      cbn. destruct (Z.eqb_spec (fst x) k); [discriminate|]. destruct Hx as [<-|Hx]; [cbn in *; lia|].
      apply IH; auto. inversion HS; assumption. }
    apply ee_yields.
    - constructor; [exact HS|]. intros x Hx. specialize (HF2 x Hx). lia.
    - intros x Hx. destruct (dvec0_ok d HS) as (_ & H2 & _). destruct (H2 x Hx) as (_ & (v & H3) & _).
      specialize (HF2 _ H3). cbn in HF2. lia.
  Qed.
  Lemma horacle (Hrefl : forall v, veqb v v = true) (l : list (range (ival u32) * V)) :
    exists D, (forall n, nexts_m (d_ee_next veqb) n (d_iter (d_insert_all (map hitem l) d_new)) = map Ret (yields n D)) /\
      Forall2 (fun x y => r_start (fst x) = val (r_start (fst y)) /\ r_end (fst x) = val (r_end (fst y)) /\
                          veqb (snd x) (snd y) = true) D (rm_iter (hrun (ins l))).
  Proof.
    eexists. split; [intros n; apply hall_ee|].
    set (d := d_insert_all (map hitem l) d_new).
    assert (HS : sorted d) by (apply insert_all_sorted; constructor).
    assert (HF : Forall2 eqz (map zence (dvec0 d)) (map zfe (hrun (ins l)))).
    { apply dvec0_same; auto; [rewrite <- run_z; apply (run_WF Z_order HV)|]. intros k. unfold d.
      rewrite run_dl by apply hitem_fresh. rewrite hitem_ops, <- run_z. apply (osame_sym HV). apply (run_lk Z_order HV). }
    clearbody d. revert HF. unfold rm_iter. generalize (map zence (dvec0 d)) as D. generalize (hrun (ins l)) as m.
    induction m as [|[r v] m IH]; intros [|[x xv] D] HF; inversion HF; subst; constructor.
    - destruct H2 as (E1 & E2 & E3). cbn in *. rewrite z_eqb in E1, E2. apply Z.eqb_eq in E1, E2. splits; auto.
    - apply IH; assumption.
  Qed.
  Lemma from_loop_ok (l : rmap (ival u32) V) : (forall e, In e l -> val (r_start (fst e)) < val (r_end (fst e))) ->
    forall d, d_from_loop l d = Ret (d_insert_all (map hitem l) d).
  Proof.
    induction l as [|[r v] l IH]; intros H d; cbn [d_from_loop map d_insert_all fold_left]; [reflexivity|].
    pose proof (H (r, v) (or_introl eq_refl)) as H1. cbn in H1. pose proof (fits_val (r_start r)). pose proof (fits_val (r_end r)).
    rewrite u32_of_ok by (cbn beta in *; lia). cbn [obind]. apply IH. intros e He. apply H. right. exact He.
  Qed.
  Lemma hfrom (HO : TotalOrd (icmp u32)) ops (Hrefl : forall v, veqb v v = true) :
    exists d, d_from_map (hrun ops) = Ret d /\
    forall n, nexts_m (d_ee_next veqb) n (d_iter d) = map Ret (yields n (map zfe (rm_iter (hrun ops)))).
  Proof.
    pose proof (run_WF HO HV ops) as HW. eexists. split.
    - unfold d_from_map. apply from_loop_ok. intros e He. destruct HW as [_ HN]. specialize (HN e He).
      unfold ltb, icmp in HN. destruct (Z.compare_spec (val (r_start (fst e))) (val (r_end (fst e)))); try discriminate. assumption.
    - intros n. rewrite hall_ee. do 2 f_equal. unfold rm_iter.
      assert (HWz : WF (map zfe (hrun ops))) by (rewrite <- run_z; apply (run_WF Z_order HV)).
      apply dvec0_exact; auto; [apply insert_all_sorted; constructor|].
      intros k. rewrite run_dl by apply hitem_fresh.
      assert (E : zins (map hitem (hrun ops)) = map (fun e => OInsert (fst e) (snd e)) (map zfe (hrun ops))).
      { unfold zins. rewrite !map_map. apply map_ext. intros [r v]. unfold zenc. cbn. unfold fr. do 2 f_equal. lia. }
      unfold spec_run. rewrite E, put_fold by exact HWz. destruct (lk (map zfe (hrun ops)) k); reflexivity.
  Qed.

  (** *** the dense map filled by inserts equals the one converted from the range map *)
  Lemma ieq (Hrefl : forall v, veqb v v = true) l : (forall e, In e l -> ri_exhausted (fst e) = false) ->
    d_eqb veqb (d_insert_all (map ditem l) d_new) (d_from_imap (irun (ins l))) = true.
  Proof.
    intros Hl. destruct (ditem_fresh l Hl) as [F1 F2].
    pose proof (run_iWF HCu Z_order HV (ins l) F2) as HW.
    assert (HFr : forall e, In e (irun (ins l)) -> ri_exhausted (fst e) = false) by apply HW.
    destruct (WFi_sim Z_order _ HW) as [_ HWz]. destruct (ditem_fresh _ HFr) as [F3 _].
    unfold d_from_imap. change (map (fun e => (d_range (fst e), snd e)) (im_iter (irun (ins l)))) with (map ditem (irun (ins l))).
    apply dl_eqb; [exact Hrefl|apply insert_all_sorted; constructor|apply insert_all_sorted; constructor|].
    intros k. rewrite run_dl by exact F1. rewrite run_dl by exact F3.
    assert (E : zins (map ditem (irun (ins l))) = map (fun e => OInsert (fst e) (snd e)) (map zent (irun (ins l))))
      by (unfold zins; rewrite !map_map; reflexivity).
    unfold spec_run at 2. rewrite E, put_fold by exact HWz.
    assert (E2 : map zop (ins l) = zins (map ditem l)) by (unfold zins; rewrite !map_map; reflexivity).
    rewrite <- E2. pose proof (run_lk Z_order HV (map zop (ins l)) k) as HL.
    assert (E3 : lk (map zent (irun (ins l))) k = lk (rm_run Z.compare veqb (map zop (ins l))) k).
    { pose proof (run_sim HCu Z_order HV (ins l) F2) as HR. clear - HR. induction HR as [|a b m m' H HF IH]; [reflexivity|].
      destruct a as [r v], b as [r' v']. destruct H as (((R1 & R2) & _) & R4). cbn in *. apply Z.compare_eq in R1, R2. subst v'.
      rewrite IH. unfold r_contains. cbn. rewrite R1, R2. reflexivity. }
    rewrite E3. destruct (lk (rm_run Z.compare veqb (map zop (ins l))) k) eqn:E4; apply (osame_sym HV); exact HL.
  Qed.
  Lemma heq (HO : TotalOrd (icmp u32)) (Hrefl : forall v, veqb v v = true) (l : list (range (ival u32) * V)) :
    exists d, d_from_map (hrun (ins l)) = Ret d /\ d_eqb veqb (d_insert_all (map hitem l) d_new) d = true.
  Proof.
    pose proof (run_WF HO HV (ins l)) as HW. eexists. split.
    - unfold d_from_map. apply from_loop_ok. intros e He. destruct HW as [_ HN]. specialize (HN e He).
      unfold ltb, icmp in HN. destruct (Z.compare_spec (val (r_start (fst e))) (val (r_end (fst e)))); try discriminate. assumption.
    - assert (HWz : WF (map zfe (hrun (ins l)))) by (rewrite <- run_z; apply (run_WF Z_order HV)).
      apply dl_eqb; [exact Hrefl|apply insert_all_sorted; constructor|apply insert_all_sorted; constructor|].
      intros k. rewrite !run_dl by apply hitem_fresh. rewrite hitem_ops.
      assert (E : zins (map hitem (hrun (ins l))) = map (fun e => OInsert (fst e) (snd e)) (map zfe (hrun (ins l)))).
      { unfold zins. rewrite !map_map. apply map_ext. intros [r v]. unfold zenc. cbn. unfold fr. do 2 f_equal. lia. }
      unfold spec_run at 2. unfold rm_iter. rewrite E, put_fold by exact HWz.
      pose proof (run_lk Z_order HV (map zfop (ins l)) k) as HL. rewrite run_z in HL.
      destruct (lk (map zfe (hrun (ins l))) k) eqn:E4; apply (osame_sym HV); exact HL.
  Qed.
End Dense.

(** ** [collect] *)
Section Collect.
  Context {V : Type} (veqb : V -> V -> bool).
  Definition di_size (it : diter (V := V)) : nat :=
    (length (di_inner it) + match di_current it with Some _ => 1 | None => 0 end)%nat.
  Lemma loop_size : forall l cur a it, d_next_loop veqb l cur = (Ret (Some a), it) ->
    (di_size it < length l + match cur with Some _ => 1 | None => 0 end)%nat.
  Proof.
    induction l as [|[k v] l IH]; intros cur a it H; cbn [d_next_loop] in H.
    - injection H as H1 H2. subst. cbn. lia.
    - destruct cur as [[r rv]|].
      + destruct (u32_of (ri_end r + 1)) as [e1| |]; try discriminate.
        destruct ((e1 =? k) && veqb rv v).
        * apply IH in H. cbn in *. lia.
        * injection H as H1 H2. subst. cbn. lia.
      + apply IH in H. cbn in *. lia.
  Qed.
  Lemma next_size it a it' : d_next veqb it = (Ret (Some a), it') -> (di_size it' < di_size it)%nat.
  Proof. apply loop_size. Qed.
  Lemma ee_next_size it a it' : d_ee_next veqb it = (Ret (Some a), it') -> (di_size it' < di_size it)%nat.
  Proof.
    unfold d_ee_next. destruct (d_next veqb it) as [o i] eqn:E. intros H. injection H as H1 H2. subst i.
    destruct o as [[x|]| |]; try discriminate. eapply next_size, E.
  Qed.
  Lemma collect_ok {A} (next : diter (V := V) -> outcome (option A) * diter) :
    (forall it a it', next it = (Ret (Some a), it') -> (di_size it' < di_size it)%nat) ->
    forall l it fuel, (forall n, nexts_m next n it = map Ret (yields n l)) -> (di_size it < fuel)%nat ->
    d_collect next fuel it = Ret l.
  Proof.
    intros HN. induction l as [|a l IH]; intros it fuel H Hf; destruct fuel as [|fuel]; try lia; cbn [d_collect];
      destruct (next it) as [o it'] eqn:E.
    - specialize (H 1%nat). cbn in H. rewrite E in H. injection H as ->. reflexivity.
    - assert (o = Ret (Some a)) as -> by (specialize (H 1%nat); cbn in H; rewrite E in H; injection H as ->; reflexivity).
      cbn [obind]. rewrite IH; [reflexivity| |].
      + intros n. specialize (H (S n)). rewrite yields_cons in H. cbn [nexts_m map] in H. rewrite E in H.
        injection H as H. exact H.
      + apply HN in E. lia.
  Qed.
  Lemma to_vec_ok d l : (forall n, nexts_m (d_next veqb) n (d_iter d) = map Ret (yields n l)) ->
    d_to_vec veqb d = Ret l.
  Proof. intros H. apply collect_ok; [apply next_size|exact H|]. cbn. lia. Qed.
  Lemma to_ee_vec_ok d l : (forall n, nexts_m (d_ee_next veqb) n (d_iter d) = map Ret (yields n l)) ->
    d_to_end_exclusive_vec veqb d = Ret l.
  Proof. intros H. apply collect_ok; [apply ee_next_size|exact H|]. cbn. lia. Qed.
End Collect.
