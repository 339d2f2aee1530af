(** The number of clones of calls and histories (C100, C101), from CloneCount.v
    and the number of [BTreeMap] calls (WorkFacts.v, Cost.v). *)
From Coq Require Import List Bool Lia ZArith.
From Verif Require Import Order Outcome BTree Ranges History Spec SpecOps MapModel IMapModel
  ListLemmas MapProofs MapFacts MapIter MapProps IFacts IMapProps Exhausted CrashModel Cost ExhaustedCrash WorkModel WorkFacts
  CloneModel CloneFacts CloneProps CloneCount.
Import ListNotations.

Definition wc (c : bt_call) : Z := match c with BSearch => 3 | BInsert | BRemove => 2 | _ => 0 end.
Definition wd (c : bt_call) : Z := match c with BSearch => 3 | BInsert => 2 | _ => 0 end.
Lemma weigh_c l : (weigh wc l <= 3 * Z.of_nat (searches l) + 2 * Z.of_nat (changes l))%Z.
Proof. unfold searches, changes, weigh. induction l as [|[] l IH]; cbn [filter length fold_right wc]; lia. Qed.
Lemma weigh_d l : (weigh wd l <= 3 * Z.of_nat (searches l) + 2 * (Z.of_nat (changes l) - Z.of_nat (removes l)))%Z.
Proof. unfold searches, changes, removes, weigh. induction l as [|[] l IH]; cbn [filter length fold_right wd]; lia. Qed.
Lemma removes_changes l : removes l <= changes l.
Proof. unfold changes, removes. induction l as [|[] l IH]; cbn [filter length]; lia. Qed.

Lemma ar_insert n n' l l' (x x' : nat) s c r : n' <= n + (3 * s + 2 * c - 3) -> c + l' <= l + 6 -> s <= r + 2 -> r <= c ->
  x' = l' -> x = l -> n' + 5 * x' <= n + 5 * x + 33.
Proof. lia. Qed.
Lemma ar_iinsert n n' l l' (x x' : nat) s c r : n' <= n + (3 * s + 2 * c - 1) -> c + l' <= l + 6 -> s <= r + 2 -> r <= c ->
  x' = l' -> x = l -> n' + 5 * x' <= n + 5 * x + 35.
Proof. lia. Qed.
Lemma ar_remove n n' l l' (x x' : nat) s c r : n' <= n + (3 * s + 2 * (c - r) - 1) -> c + l' <= l + 4 -> s <= r + 2 -> r <= c ->
  x' = l' -> x = l -> n' + 5 * x' <= n + 5 * x + 25.
Proof. lia. Qed.
Lemma ar_pot n n' (x x' : nat) l l' k : n' + 5 * x' <= n + 5 * x + k -> x = l -> x' = l' -> n' + 5 * l' <= n + 5 * l + k.
Proof. lia. Qed.

(** ** From calls to histories *)
Section Amortised.
  Context {R V E : Type} (mx : op R V -> M (list E) unit) (kx : op R V -> M (counted (list E)) unit).
  Context (RS : list E -> list E -> Prop) (HL : forall m m', RS m m' -> length m' = length m).
  Context (Hsim : forall o m n m', RS m m' -> RS (snd (mx o m)) (snd (snd (kx o (n, m'))))).
  Context (i : nat).
  Notation run ops := (run_ops mx ops []).
  Definition potential (s : counted (list E)) : nat := fst s + 5 * length (snd s).
  Context (Hins : forall ops r v s, RS (run ops) (snd s) -> potential (snd (kx (OInsert r v) s)) <= potential s + i).
  Context (Hrem : forall ops r s, RS (run ops) (snd s) -> potential (snd (kx (ORemove r) s)) <= potential s + 25).
  Context (Hclear : forall s, kx OClear s = (Ret tt, (fst s, []))).
  Context (Hext : forall l, kx (OExtend l) = for_each (fun e => kx (OInsert (fst e) (snd e))) l).
  Lemma cl_snoc ops o : run (ops ++ [o]) = snd (mx o (run ops)).
  Proof. unfold run_ops. rewrite fold_left_app. reflexivity. Qed.
  Lemma extend_clones l : forall ops s, RS (run ops) (snd s) ->
    potential (snd (for_each (fun e => kx (OInsert (fst e) (snd e))) l s)) <= potential s + i * length l.
  Proof.
    induction l as [|[r v] l IH]; intros ops s Hs; cbn [for_each fst snd length].
    - cbn. lia.
    - pose proof (Hins ops r v s Hs) as H. unfold bind.
      assert (G : RS (run (ops ++ [OInsert r v])) (snd (snd (kx (OInsert r v) s)))).
      { rewrite cl_snoc. destruct s as [n m]. apply Hsim, Hs. }
      destruct (kx (OInsert r v) s) as [[[]|p|] s1]; cbn [fst snd] in *; [|lia|lia].
      specialize (IH _ s1 G). lia.
  Qed.
  Lemma call_clones ops o s : RS (run ops) (snd s) -> potential (snd (kx o s)) <= potential s + op_clones i o.
  Proof.
    intros Hs. destruct o as [r v|r| |l]; cbn [op_clones].
    - eapply Hins, Hs.
    - eapply Hrem, Hs.
    - rewrite Hclear. unfold potential. cbn. lia.
    - rewrite Hext. eapply extend_clones, Hs.
  Qed.
  Lemma clones_from ops : forall pre s, RS (run pre) (snd s) ->
    potential (run_ops kx ops s) <= potential s + history_clones i ops.
  Proof.
    induction ops as [|o ops IH]; intros pre s Hs; unfold run_ops in *; cbn [fold_left].
    - unfold history_clones. cbn. lia.
    - pose proof (call_clones pre o s Hs) as H1.
      assert (G : RS (run (pre ++ [o])) (snd (snd (kx o s)))).
      { rewrite cl_snoc. destruct s as [n m]. apply Hsim, Hs. }
      specialize (IH (pre ++ [o]) _ G). unfold history_clones, list_sum in *. cbn [map fold_right] in *. lia.
  Qed.
End Amortised.

Section Half.
  Context {K V : Type} {cmp : K -> K -> comparison} {veqb : V -> V -> bool}.
  Context (HO : TotalOrd cmp) (HV : PartialEquiv veqb).
  Context {kcl : nat -> K -> K} {vcl : nat -> V -> V}.
  Context (CK : forall n k, alike_key cmp k (kcl n k)) (CV : forall n v, alike veqb v (vcl n v)).
  Notation run := (rm_run cmp veqb).
  Notation crun := (rmc_run kcl vcl cmp veqb).
  Notation tx := (rmt_exec cmp veqb).
  Notation kx := (rmc_exec kcl vcl cmp veqb).
  Notation like := (alike_entry (alike_range cmp) veqb).
  Notation HK := (a_cmp HO).
  Notation HW := (a_veq HV).
  Notation CK' := (a_kcl HO CK).
  Notation CV' := (a_vcl CV).

  Lemma cn_insert_at ops r v s : Forall2 like (run ops) (snd s) ->
    let t := fst (tx (OInsert r v) (run ops)) in
    fst (snd (kx (OInsert r v) s)) <= fst s + (3 * searches t + 2 * changes t - 3).
  Proof.
    intros Hs t. destruct s as [n m]. cbn [fst snd] in *.
    pose proof (insert_outcome HO HV ops r v) as H. destruct (valid_range cmp r) eqn:Ev.
    - destruct H as (m' & H & _). pose proof (proj1 (wk_erase (cmp := cmp) (veqb := veqb) (OInsert r v) (run ops))) as E.
      destruct (rt_insert_ HK HW CK' CV' wc eq_refl eq_refl ltac:(cbn; lia) eq_refl r v r v eq_refl
        (a_r_refl HO r) (fun w => eq_refl) (run ops) n m Hs) as (_ & _ & B).
      change (snd (rmt_insert cmp veqb r v (run ops)) = rm_insert cmp veqb r v (run ops)) in E.
      rewrite H in E. specialize (B tt (f_equal fst E)).
      apply Nat2Z.inj_le. eapply Z.le_trans; [exact B|]. clear B.
      match goal with |- context [weigh ?w ?x] => change (weigh w x) with (weigh w t) end. pose proof (weigh_c t) as W. lia.
    - cbn [rmc_exec]; unfold rmc_insert, bind, assert_. unfold valid_range in Ev. rewrite Ev. cbn. lia.
  Qed.
  Lemma cn_remove_at ops r s : Forall2 like (run ops) (snd s) ->
    let t := fst (tx (ORemove r) (run ops)) in
    fst (snd (kx (ORemove r) s)) <= fst s + (3 * searches t + 2 * (changes t - removes t) - 1).
  Proof.
    intros Hs t. destruct s as [n m]. cbn [fst snd] in *.
    pose proof (remove_outcome HO HV ops r) as H. destruct (valid_range cmp r) eqn:Ev.
    - destruct H as (m' & H & _). pose proof (proj1 (wk_erase (cmp := cmp) (veqb := veqb) (ORemove r) (run ops))) as E.
      destruct (rt_remove_ HK CK' CV' wd eq_refl eq_refl ltac:(cbn; lia) eq_refl r r
        (a_r_refl HO r) (run ops) n m Hs) as (_ & _ & B).
      change (snd (rmt_remove cmp r (run ops)) = rm_remove cmp r (run ops)) in E.
      rewrite H in E. specialize (B tt (f_equal fst E)).
      apply Nat2Z.inj_le. eapply Z.le_trans; [exact B|]. clear B.
      match goal with |- context [weigh ?w ?x] => change (weigh w x) with (weigh w t) end. pose proof (weigh_d t) as W. pose proof (removes_changes t). lia.
    - cbn [rmc_exec]; unfold rmc_remove, bind, assert_. unfold valid_range in Ev. rewrite Ev. cbn. lia.
  Qed.
  Lemma cn_insert ops r v : let t := fst (tx (OInsert r v) (run ops)) in
    fst (snd (kx (OInsert r v) (crun ops))) <= fst (crun ops) + (3 * searches t + 2 * changes t - 3).
  Proof. apply cn_insert_at, (clone_same HO HV CK CV). Qed.
  Lemma cn_remove ops r : let t := fst (tx (ORemove r) (run ops)) in
    fst (snd (kx (ORemove r) (crun ops))) <= fst (crun ops) + (3 * searches t + 2 * (changes t - removes t) - 1).
  Proof. apply cn_remove_at, (clone_same HO HV CK CV). Qed.

  Lemma cn_sim o m n m' : Forall2 like m m' -> Forall2 like (snd (rm_exec cmp veqb o m)) (snd (snd (kx o (n, m')))).
  Proof.
    intros H. pose proof (ops_refl (veqb := veqb) _ (a_r_refl HO) [o]) as Ho. inversion Ho as [|? ? ? ? H1 _]; subst.
    exact (proj2 (c_exec HK HW CK' CV' o o H1 m n m' H)).
  Qed.
  Lemma cn_len m m' : Forall2 like m m' -> length m' = length m.
  Proof. intros H. symmetry. exact (f2_length _ _ H). Qed.
  Lemma cn_pot_insert ops r v s : Forall2 like (run ops) (snd s) ->
    potential (snd (kx (OInsert r v) s)) <= potential s + 33.
  Proof.
    intros Hs. pose proof (cn_insert_at ops r v s Hs) as B. cbv zeta in B.
    pose proof (call_budget HO HV ops (OInsert r v)) as HB. destruct (wk_insert HO HV ops r v) as (W & _ & _).
    rewrite <- (proj2 (wk_erase (OInsert r v) (run ops))) in HB. cbn [op_budget] in HB.
    pose proof (removes_changes (fst (tx (OInsert r v) (run ops)))) as HR.
    destruct s as [n m]. pose proof (cn_sim (OInsert r v) (run ops) n m Hs) as G. apply cn_len in G.
    rewrite run_snoc in HB. unfold rm_len in HB. apply cn_len in Hs.
    exact (ar_insert _ _ _ _ _ _ _ _ _ B HB W HR G Hs).
  Qed.
  Lemma cn_pot_remove ops r s : Forall2 like (run ops) (snd s) ->
    potential (snd (kx (ORemove r) s)) <= potential s + 25.
  Proof.
    intros Hs. pose proof (cn_remove_at ops r s Hs) as B. cbv zeta in B.
    pose proof (call_budget HO HV ops (ORemove r)) as HB. destruct (wk_remove HO HV ops r) as (W & _ & _).
    rewrite <- (proj2 (wk_erase (ORemove r) (run ops))) in HB. cbn [op_budget] in HB.
    pose proof (removes_changes (fst (tx (ORemove r) (run ops)))) as HR.
    destruct s as [n m]. pose proof (cn_sim (ORemove r) (run ops) n m Hs) as G. apply cn_len in G.
    rewrite run_snoc in HB. unfold rm_len in HB. apply cn_len in Hs.
    exact (ar_remove _ _ _ _ _ _ _ _ _ B HB W HR G Hs).
  Qed.
  Lemma crun_snoc ops o : crun (ops ++ [o]) = snd (kx o (crun ops)).
  Proof. unfold rmc_run, run_ops. rewrite fold_left_app. reflexivity. Qed.
  Lemma cn_call ops o :
    fst (crun (ops ++ [o])) + 5 * rm_len (run (ops ++ [o])) <= fst (crun ops) + 5 * rm_len (run ops) + op_clones 33 o.
  Proof.
    pose proof (call_clones (rm_exec cmp veqb) kx (Forall2 like) cn_sim 33 cn_pot_insert cn_pot_remove
      (fun _ => eq_refl) (fun _ => eq_refl) ops o (crun ops) (clone_same HO HV CK CV ops)) as H.
    rewrite <- crun_snoc in H.
    exact (ar_pot _ _ _ _ _ _ _ H (cn_len _ _ (clone_same HO HV CK CV ops)) (cn_len _ _ (clone_same HO HV CK CV (ops ++ [o])))).
  Qed.
  Lemma cn_history ops : fst (crun ops) + 5 * rm_len (run ops) <= history_clones 33 ops.
  Proof.
    pose proof (clones_from (rm_exec cmp veqb) kx (Forall2 like) cn_sim 33 cn_pot_insert cn_pot_remove
      (fun _ => eq_refl) (fun _ => eq_refl) ops [] (0, []) (Forall2_nil _)) as H.
    change (run_ops kx ops (0, [])) with (crun ops) in H.
    exact (ar_pot _ _ _ _ _ _ _ H (eq_refl 0) (cn_len _ _ (clone_same HO HV CK CV ops))).
  Qed.
End Half.

Section Incl.
  Context {K V : Type} {cmp : K -> K -> comparison} {veqb : V -> V -> bool} {st : stepfns K}.
  Context (HO : TotalOrd cmp) (HV : PartialEquiv veqb) (HS : StepLaws cmp st).
  Context {kcl : nat -> K -> K} {vcl : nat -> V -> V}.
  Context (CK : forall n k, alike_key cmp k (kcl n k)) (CV : forall n v, alike veqb v (vcl n v)).
  Notation run := (im_run cmp veqb st).
  Notation crun := (imc_run kcl vcl cmp veqb st).
  Notation tx := (imt_exec cmp veqb st).
  Notation kx := (imc_exec kcl vcl cmp veqb st).
  Notation like := (alike_entry (alike_rangei cmp) veqb).
  Notation HK := (a_cmp HO).
  Notation HW := (a_veq HV).
  Notation CK' := (a_kcl HO CK).
  Notation CV' := (a_vcl CV).
  Notation HA := (a_add HO HS).
  Notation HD := (a_sub HO HS).

  Lemma icn_ret ops o : match o with OInsert r _ | ORemove r => valid_rangei cmp r = true | _ => False end ->
    fst (snd (tx o (run ops))) = Ret tt.
  Proof.
    intros Ho. rewrite (proj1 (iwk_erase o (run ops))), <- (x_outcome o (run ops)), <- x_run.
    destruct o as [r v|r| |l]; try contradiction Ho; cbn [freshen_op im_exec].
    - pose proof (iinsert_outcome HO HS HV _ (freshen r) v (freshen_fresh ops) eq_refl) as H.
      change (valid_rangei cmp (freshen r)) with (valid_rangei cmp r) in H. rewrite Ho in H.
      destruct H as (m' & H & _). rewrite H. reflexivity.
    - pose proof (iremove_outcome HO HS HV _ (freshen r) (freshen_fresh ops)) as H.
      change (valid_rangei cmp (freshen r)) with (valid_rangei cmp r) in H. rewrite Ho in H.
      destruct H as (m' & H & _). rewrite H. reflexivity.
  Qed.
  Lemma icn_insert_at ops r v s : Forall2 like (run ops) (snd s) ->
    let t := fst (tx (OInsert r v) (run ops)) in
    fst (snd (kx (OInsert r v) s)) <= fst s + (3 * searches t + 2 * changes t - 1).
  Proof.
    intros Hs t. destruct s as [n m]. cbn [fst snd] in *. destruct (valid_rangei cmp r) eqn:Ev.
    - pose proof (icn_ret ops (OInsert r v) Ev) as H.
      destruct (it_insert_ HK HW CK' CV' wc eq_refl eq_refl ltac:(cbn; lia) eq_refl HA HD r v r v eq_refl
        (a_ri_refl HO r) (fun w => eq_refl) (run ops) n m Hs) as (_ & _ & B).
      specialize (B tt H).
      apply Nat2Z.inj_le. eapply Z.le_trans; [exact B|]. clear B.
      match goal with |- context [weigh ?w ?x] => change (weigh w x) with (weigh w t) end. pose proof (weigh_c t) as W. lia.
    - cbn [imc_exec]; unfold imc_insert, bind, assert_. unfold valid_rangei in Ev.
      replace (leb cmp (ri_start r) (ri_end r)) with false by ord. cbn. lia.
  Qed.
  Lemma icn_remove_at ops r s : Forall2 like (run ops) (snd s) ->
    let t := fst (tx (ORemove r) (run ops)) in
    fst (snd (kx (ORemove r) s)) <= fst s + (3 * searches t + 2 * (changes t - removes t) - 1).
  Proof.
    intros Hs t. destruct s as [n m]. cbn [fst snd] in *. destruct (valid_rangei cmp r) eqn:Ev.
    - pose proof (icn_ret ops (ORemove r) Ev) as H.
      destruct (it_remove_ HK CK' CV' wd eq_refl eq_refl ltac:(cbn; lia) eq_refl HA HD r r
        (a_ri_refl HO r) (run ops) n m Hs) as (_ & _ & B).
      specialize (B tt H).
      apply Nat2Z.inj_le. eapply Z.le_trans; [exact B|]. clear B.
      match goal with |- context [weigh ?w ?x] => change (weigh w x) with (weigh w t) end. pose proof (weigh_d t) as W. pose proof (removes_changes t). lia.
    - cbn [imc_exec]; unfold imc_remove, bind, assert_. unfold valid_rangei in Ev.
      replace (leb cmp (ri_start r) (ri_end r)) with false by ord. cbn. lia.
  Qed.
  Lemma icn_insert ops r v : let t := fst (tx (OInsert r v) (run ops)) in
    fst (snd (kx (OInsert r v) (crun ops))) <= fst (crun ops) + (3 * searches t + 2 * changes t - 1).
  Proof. apply icn_insert_at, (iclone_same HO HV CK CV HS). Qed.
  Lemma icn_remove ops r : let t := fst (tx (ORemove r) (run ops)) in
    fst (snd (kx (ORemove r) (crun ops))) <= fst (crun ops) + (3 * searches t + 2 * (changes t - removes t) - 1).
  Proof. apply icn_remove_at, (iclone_same HO HV CK CV HS). Qed.

  Lemma icn_sim o m n m' : Forall2 like m m' -> Forall2 like (snd (im_exec cmp veqb st o m)) (snd (snd (kx o (n, m')))).
  Proof.
    intros H. pose proof (ops_refl (veqb := veqb) _ (a_ri_refl HO) [o]) as Ho. inversion Ho as [|? ? ? ? H1 _]; subst.
    exact (proj2 (ci_exec HK HW CK' CV' HA HD o o H1 m n m' H)).
  Qed.
  Lemma icn_len m m' : Forall2 like m m' -> length m' = length m.
  Proof. intros H. symmetry. exact (f2_length _ _ H). Qed.
  Lemma irun_snoc_ ops o : run (ops ++ [o]) = snd (im_exec cmp veqb st o (run ops)).
  Proof. unfold im_run, run_ops. rewrite fold_left_app. reflexivity. Qed.
  Lemma icn_pot_insert ops r v s : Forall2 like (run ops) (snd s) ->
    potential (snd (kx (OInsert r v) s)) <= potential s + 35.
  Proof.
    intros Hs. pose proof (icn_insert_at ops r v s Hs) as B. cbv zeta in B.
    pose proof (icall_budget_any HO HS HV ops (OInsert r v)) as HB. destruct (iwk_insert HO HS HV ops r v) as (W & _ & _).
    rewrite <- (proj2 (iwk_erase (OInsert r v) (run ops))) in HB. cbn [op_budget] in HB.
    pose proof (removes_changes (fst (tx (OInsert r v) (run ops)))) as HR.
    destruct s as [n m]. pose proof (icn_sim (OInsert r v) (run ops) n m Hs) as G. apply icn_len in G.
    rewrite irun_snoc_ in HB. unfold im_len in HB. apply icn_len in Hs.
    exact (ar_iinsert _ _ _ _ _ _ _ _ _ B HB W HR G Hs).
  Qed.
  Lemma icn_pot_remove ops r s : Forall2 like (run ops) (snd s) ->
    potential (snd (kx (ORemove r) s)) <= potential s + 25.
  Proof.
    intros Hs. pose proof (icn_remove_at ops r s Hs) as B. cbv zeta in B.
    pose proof (icall_budget_any HO HS HV ops (ORemove r)) as HB. destruct (iwk_remove HO HS HV ops r) as (W & _ & _).
    rewrite <- (proj2 (iwk_erase (ORemove r) (run ops))) in HB. cbn [op_budget] in HB.
    pose proof (removes_changes (fst (tx (ORemove r) (run ops)))) as HR.
    destruct s as [n m]. pose proof (icn_sim (ORemove r) (run ops) n m Hs) as G. apply icn_len in G.
    rewrite irun_snoc_ in HB. unfold im_len in HB. apply icn_len in Hs.
    exact (ar_remove _ _ _ _ _ _ _ _ _ B HB W HR G Hs).
  Qed.
  Lemma icrun_snoc ops o : crun (ops ++ [o]) = snd (kx o (crun ops)).
  Proof. unfold imc_run, run_ops. rewrite fold_left_app. reflexivity. Qed.
  Lemma icn_call ops o :
    fst (crun (ops ++ [o])) + 5 * im_len (run (ops ++ [o])) <= fst (crun ops) + 5 * im_len (run ops) + op_clones 35 o.
  Proof.
    pose proof (call_clones (im_exec cmp veqb st) kx (Forall2 like) icn_sim 35 icn_pot_insert icn_pot_remove
      (fun _ => eq_refl) (fun _ => eq_refl) ops o (crun ops) (iclone_same HO HV CK CV HS ops)) as H.
    rewrite <- icrun_snoc in H.
    exact (ar_pot _ _ _ _ _ _ _ H (icn_len _ _ (iclone_same HO HV CK CV HS ops)) (icn_len _ _ (iclone_same HO HV CK CV HS (ops ++ [o])))).
  Qed.
  Lemma icn_history ops : fst (crun ops) + 5 * im_len (run ops) <= history_clones 35 ops.
  Proof.
    pose proof (clones_from (im_exec cmp veqb st) kx (Forall2 like) icn_sim 35 icn_pot_insert icn_pot_remove
      (fun _ => eq_refl) (fun _ => eq_refl) ops [] (0, []) (Forall2_nil _)) as H.
    change (run_ops kx ops (0, [])) with (crun ops) in H.
    exact (ar_pot _ _ _ _ _ _ _ H (eq_refl 0) (icn_len _ _ (iclone_same HO HV CK CV HS ops))).
  Qed.
End Incl.

(** ** Queries *)
Section Queries.
  Context {K V : Type} (cmp : K -> K -> comparison) (veqb : V -> V -> bool) (st : stepfns K).
  Context (kcl : nat -> K -> K) (vcl : nat -> V -> V).
  Lemma cq_overlapping q (s : counted (rmap K V)) : fst (snd (rmc_overlapping kcl cmp q s)) = 2 + fst s.
  Proof. unfold rmc_overlapping, bind, kclone, cget, lift. destruct (bt_range _ _ _ _); reflexivity. Qed.
  Lemma cq_get k (s : counted (rmap K V)) : fst (snd (rmc_get kcl cmp k s)) = 2 + fst s.
  Proof. unfold rmc_get, rmc_get_key_value, bind, kclone, cget, lift. destruct (bt_range _ _ _ _); reflexivity. Qed.
  Lemma cq_gaps q (s : counted (rmap K V)) : fst (snd (rmc_gaps kcl cmp q s)) = 2 + fst s.
  Proof.
    pose proof (cq_overlapping q s) as H. unfold rmc_gaps, bind. destruct (rmc_overlapping _ _ _ _) as [[o|p|] s']; exact H.
  Qed.
  Lemma cq_loop {S} qend (l : list (range K * V)) : forall cand (s : counted S), exists x n,
    gpc_loop kcl cmp cand qend l s = (Ret x, (n, snd s)) /\
    n = (match fst (fst x) with Some _ => 2 | None => 0 end) + fst s.
  Proof.
    induction l as [|[r v] l IH]; intros cand s; cbn [gpc_loop].
    - destruct s as [n s]. do 2 eexists. split; reflexivity.
    - destruct (leb cmp qend (r_start r)); [destruct s as [n s]; do 2 eexists; split; reflexivity|].
      destruct (ltb cmp cand (r_start r)); [do 2 eexists; split; [reflexivity|reflexivity]|]. apply IH.
  Qed.
  Lemma cq_next (s : counted (gaps K V)) : exists o, fst (gpc_next kcl cmp s) = Ret o /\
    fst (snd (gpc_next kcl cmp s)) = (match o with Some _ => 2 | None => 0 end) + fst s.
  Proof.
    cut (exists o n g, gpc_next kcl cmp s = (Ret o, (n, g)) /\ n = (match o with Some _ => 2 | None => 0 end) + fst s).
    { intros (o & n & g & -> & H). exists o. split; [reflexivity|exact H]. }
    unfold gpc_next. unfold bind at 1, cget.
    destruct (cq_loop (gp_query_end (snd s)) (gp_iter (snd s)) (gp_candidate_start (snd s)) s) as ([[o c] l] & n & H & ->).
    unfold bind at 1. rewrite H. cbn [fst snd]. destruct o as [o|].
    - do 3 eexists. split; reflexivity.
    - destruct (ltb cmp c (gp_query_end (snd s))); do 3 eexists; split; reflexivity.
  Qed.
  Lemma cq_entries {S R} (rc : R -> M (counted S) R) (l : list (R * V)) :
    (forall r s, exists r', rc r s = (Ret r', (2 + fst s, snd s))) ->
    forall s, fst (snd (clone_entries vcl rc l s)) = 3 * length l + fst s.
  Proof.
    intros Hr. induction l as [|[r v] l IH]; intros s; cbn [clone_entries length]; [reflexivity|].
    unfold bind at 1. destruct (Hr r s) as (r' & ->). unfold bind at 1, vclone. unfold bind.
    specialize (IH (Datatypes.S (fst (2 + fst s, snd s)), snd (2 + fst s, snd s))). cbn [fst snd] in *.
    destruct (clone_entries vcl rc l _) as [[x|p|] s2]; cbn [fst snd ret] in *; lia.
  Qed.
  Lemma cq_clone (s : counted (rmap K V)) : fst (snd (rmc_clone kcl vcl s)) = 3 * rm_len (snd s) + fst s.
  Proof.
    exact (cq_entries (r_clone kcl) (snd s) (fun r s' => ex_intro _ _ eq_refl) s).
  Qed.

  Lemma ciq_overlapping q (s : counted (imap K V)) : fst (snd (imc_overlapping kcl cmp q s)) = 2 + fst s.
  Proof. unfold imc_overlapping, bind, kclone, cget, lift. destruct (bt_range _ _ _ _); reflexivity. Qed.
  Lemma ciq_get k (s : counted (imap K V)) : fst (snd (imc_get kcl cmp k s)) = 2 + fst s.
  Proof. unfold imc_get, imc_get_key_value, bind, kclone, cget, lift. destruct (bt_range _ _ _ _); reflexivity. Qed.
  Lemma ciq_gaps q (s : counted (imap K V)) : fst (snd (imc_gaps kcl cmp q s)) = 2 + fst s.
  Proof.
    pose proof (ciq_overlapping q s) as H. unfold imc_gaps, bind. destruct (imc_overlapping _ _ _ _) as [[o|p|] s']; exact H.
  Qed.
  Lemma ciq_clone (s : counted (imap K V)) : fst (snd (imc_clone kcl vcl s)) = 3 * im_len (snd s) + fst s.
  Proof.
    exact (cq_entries (ri_clone kcl) (snd s) (fun r s' => ex_intro _ _ eq_refl) s).
  Qed.
  Lemma ciq_needs (l : list (rangei K * V)) : forall s : counted (gapsi K V), gpi_needs_plus_one (snd s) = true ->
    gpi_needs_plus_one (snd (snd (gpic_loop kcl cmp st l s))) <> false.
  Proof.
    induction l as [|[r v] l IH]; intros s Hs; cbn [gpic_loop].
    - unfold bind, cmodify. cbn. rewrite Hs. discriminate.
    - unfold bind at 1, cget. cbv zeta. destruct (ltb cmp (gpi_query_end (snd s)) (ri_start r)).
      { unfold bind, cmodify. cbn. rewrite Hs. discriminate. }
      unfold bind at 1, cmodify. cbn [fst snd]. rewrite Hs. unfold bind at 1, lift.
      destruct (step_o _) as [c|p|]; try discriminate. destruct (ltb cmp c (ri_start r)).
      + unfold bind, lift. destruct (step_o _); discriminate.
      + apply IH. reflexivity.
  Qed.
  Definition few (s : counted (gapsi K V)) (x : outcome (option (rangei K)) * counted (gapsi K V)) : Prop :=
    fst (snd x) <= (if gpi_needs_plus_one (snd s) then 0 else 1) + fst s /\
    (gpi_needs_plus_one (snd (snd x)) = false -> fst (snd x) = fst s).
  Lemma ciq_loop (l : list (rangei K * V)) : forall s, few s (gpic_loop kcl cmp st l s).
  Proof.
    induction l as [|[r v] l IH]; intros s; cbn [gpic_loop].
    - unfold few, bind, cmodify. cbn. split; [lia|auto].
    - unfold bind at 1, cget. cbv zeta. destruct (ltb cmp (gpi_query_end (snd s)) (ri_start r)).
      { unfold few, bind, cmodify. cbn. split; [lia|auto]. }
      unfold bind at 1, cmodify. cbn [fst snd].
      set (s1 := (fst s, _)). assert (N1 : gpi_needs_plus_one (snd s1) = true) by reflexivity.
      assert (F1 : fst s1 = fst s) by reflexivity.
      assert (G : forall (s2 : counted (gapsi K V)) cur, gpi_needs_plus_one (snd s2) = true -> 
        fst s2 <= (if gpi_needs_plus_one (snd s) then 0 else 1) + fst s ->
        few s ((if ltb cmp cur (ri_start r)
           then p <- lift (step_o (sub_one st (ri_start r))) ;; ret (Some (incl cur p))
           else gpic_loop kcl cmp st l)%M s2)).
      { intros s2 cur H2 Hc. destruct (ltb cmp cur (ri_start r)).
        - unfold few, bind, lift. destruct (step_o _); cbn; rewrite H2; split; auto; discriminate.
        - destruct (IH s2) as [B1 _]. rewrite H2 in B1. split; [lia|].
          intros E. destruct (ciq_needs l s2 H2 E). }
      unfold bind at 1. destruct (gpi_needs_plus_one (snd s)) eqn:En.
      + unfold lift at 1. destruct (step_o (add_one st _)) as [c|p|]; cbn [fst snd].
        * apply G; [exact N1|rewrite F1; lia].
        * unfold few. rewrite En. cbn. split; [lia|auto].
        * unfold few. rewrite En. cbn. split; [lia|auto].
      + unfold kclone. apply G; [exact N1|cbn [fst]; lia].
  Qed.
  Lemma ciq_next (s : counted (gapsi K V)) : fst (snd (gpic_next kcl cmp st s)) <= 2 + fst s.
  Proof.
    unfold gpic_next. unfold bind at 1, cget. pose proof (ciq_loop (gpi_iter (snd s)) s) as [H1 H2].
    unfold bind at 1. destruct (gpic_loop _ _ _ _ s) as [[[o|]|p|] s1]; cbn [fst snd ret] in *.
    - destruct (gpi_needs_plus_one (snd s)); lia.
    - unfold bind at 1. cbv zeta. cbn [snd]. unfold bind at 1, cmodify. cbn [fst snd].
      destruct (gpi_needs_plus_one (snd s1)).
      + destruct (ltb _ _ _); [|destruct (gpi_needs_plus_one (snd s)); cbn; lia].
        unfold bind, lift, kclone. destruct (step_o _); cbn; destruct (gpi_needs_plus_one (snd s)); lia.
      + specialize (H2 eq_refl). destruct (leb _ _ _); cbn; lia.
    - destruct (gpi_needs_plus_one (snd s)); lia.
    - destruct (gpi_needs_plus_one (snd s)); lia.
  Qed.
End Queries.
