(** The number of clones (C100, C101).
    [fst (rmc_run kcl vcl cmp veqb ops)] is the number of keys and values cloned
    in a history, every [.clone()] of the code being a call of user code
    (CloneModel.v, C73, C74); [fst (rmt_exec cmp veqb o m)] is the list of the
    calls [o] makes on the [BTreeMap] (WorkModel.v, C83, C84).  The laws assumed
    of [Clone] are those of C73. *)
From Coq Require Import List Bool ZArith Lia.
From Verif Require Import Order Outcome BTree Ranges History Spec SpecOps MapModel IMapModel StepModel StepFacts
  MapMore MapProps IMapProps WorkModel CloneModel CloneBound Instances P_Cost P_Clone.
Import ListNotations.

Section Half.
  Context {K V : Type} {cmp : K -> K -> comparison} {veqb : V -> V -> bool}.
  Context (HO : TotalOrd cmp) (HV : PartialEquiv veqb).
  Context {kcl : nat -> K -> K} {vcl : nat -> V -> V}.
  Context (CK : forall n k, alike_key cmp k (kcl n k)) (CV : forall n v, alike veqb v (vcl n v)).
  Notation run := (rm_run cmp veqb).
  Notation crun := (rmc_run kcl vcl cmp veqb).
  Notation tx := (rmt_exec cmp veqb).
  Notation kx := (rmc_exec kcl vcl cmp veqb).

  (** ** C100 *)
  (** clones are charged to searches and modifications: 3 and 2 *)
  Theorem C100_insert : forall ops r v, let t := fst (tx (OInsert r v) (run ops)) in
    fst (snd (kx (OInsert r v) (crun ops))) <= fst (crun ops) + (3 * searches t + 2 * changes t - 3).
  Proof. exact (cn_insert HO HV CK CV). Qed.
  Theorem C100_remove : forall ops r, let t := fst (tx (ORemove r) (run ops)) in
    fst (snd (kx (ORemove r) (crun ops))) <= fst (crun ops) + (3 * searches t + 2 * (changes t - removes t) - 1).
  Proof. exact (cn_remove HO HV CK CV). Qed.
  (** so a call's clones are paid for by a constant and by the entries that disappear *)
  Theorem C100_call : forall ops o,
    fst (crun (ops ++ [o])) + 5 * rm_len (run (ops ++ [o])) <= fst (crun ops) + 5 * rm_len (run ops) + op_clones 33 o.
  Proof. exact (cn_call HO HV CK CV). Qed.
  (** [clear] clones nothing at all *)
  Theorem C100_clear : forall ops, fst (crun (ops ++ [OClear])) = fst (crun ops).
  Proof. intros ops. unfold rmc_run, run_ops. rewrite fold_left_app. reflexivity. Qed.
  (** and a history makes a constant number for every range given to it *)
  Theorem C100_history : forall ops, fst (crun ops) + 5 * rm_len (run ops) <= history_clones 33 ops.
  Proof. exact (cn_history HO HV CK CV). Qed.
End Half.
(** queries, whatever the map, the order and the clones: two clones to set one
    up, two for every gap; three for every entry of a cloned map *)
Theorem C100_queries : forall (K V : Type) (cmp : K -> K -> comparison) (kcl : nat -> K -> K) (vcl : nat -> V -> V)
    (s : counted (rmap K V)),
  (forall k, fst (snd (rmc_get kcl cmp k s)) = 2 + fst s) /\
  (forall q, fst (snd (rmc_overlapping kcl cmp q s)) = 2 + fst s) /\
  (forall q, fst (snd (rmc_gaps kcl cmp q s)) = 2 + fst s) /\
  fst (snd (rmc_clone kcl vcl s)) = 3 * rm_len (snd s) + fst s /\
  (forall g : counted (gaps K V), exists o, fst (gpc_next kcl cmp g) = Ret o /\
     fst (snd (gpc_next kcl cmp g)) = (match o with Some _ => 2 | None => 0 end) + fst g).
Proof.
  intros K V cmp kcl vcl s.
  exact (conj (fun k => cq_get cmp kcl k s) (conj (fun q => cq_overlapping cmp kcl q s) (conj (fun q => cq_gaps cmp kcl q s)
    (conj (cq_clone kcl vcl s) (cq_next cmp kcl))))).
Qed.

Section Incl.
  Context {K V : Type} {cmp : K -> K -> comparison} {veqb : V -> V -> bool} {st : stepfns K}.
  Context (HO : TotalOrd cmp) (HV : PartialEquiv veqb) (HS : StepLaws cmp st).
  Context {kcl : nat -> K -> K} {vcl : nat -> V -> V}.
  Context (CK : forall n k, alike_key cmp k (kcl n k)) (CV : forall n v, alike veqb v (vcl n v)).
  Notation run := (im_run cmp veqb st).
  Notation crun := (imc_run kcl vcl cmp veqb st).
  Notation tx := (imt_exec cmp veqb st).
  Notation kx := (imc_exec kcl vcl cmp veqb st).

  (** ** C101 *)
  Theorem C101_insert : forall ops r v, let t := fst (tx (OInsert r v) (run ops)) in
    fst (snd (kx (OInsert r v) (crun ops))) <= fst (crun ops) + (3 * searches t + 2 * changes t - 1).
  Proof. exact (icn_insert HO HV HS CK CV). Qed.
  Theorem C101_remove : forall ops r, let t := fst (tx (ORemove r) (run ops)) in
    fst (snd (kx (ORemove r) (crun ops))) <= fst (crun ops) + (3 * searches t + 2 * (changes t - removes t) - 1).
  Proof. exact (icn_remove HO HV HS CK CV). Qed.
  Theorem C101_call : forall ops o,
    fst (crun (ops ++ [o])) + 5 * im_len (run (ops ++ [o])) <= fst (crun ops) + 5 * im_len (run ops) + op_clones 35 o.
  Proof. exact (icn_call HO HV HS CK CV). Qed.
  (** [clear] clones nothing at all *)
  Theorem C101_clear : forall ops, fst (crun (ops ++ [OClear])) = fst (crun ops).
  Proof. intros ops. unfold imc_run, run_ops. rewrite fold_left_app. reflexivity. Qed.
  Theorem C101_history : forall ops, fst (crun ops) + 5 * im_len (run ops) <= history_clones 35 ops.
  Proof. exact (icn_history HO HV HS CK CV). Qed.
End Incl.
Theorem C101_queries : forall (K V : Type) (cmp : K -> K -> comparison) (st : stepfns K)
    (kcl : nat -> K -> K) (vcl : nat -> V -> V) (s : counted (imap K V)),
  (forall k, fst (snd (imc_get kcl cmp k s)) = 2 + fst s) /\
  (forall q, fst (snd (imc_overlapping kcl cmp q s)) = 2 + fst s) /\
  (forall q, fst (snd (imc_gaps kcl cmp q s)) = 2 + fst s) /\
  fst (snd (imc_clone kcl vcl s)) = 3 * im_len (snd s) + fst s /\
  (forall g : counted (gapsi K V), fst (snd (gpic_next kcl cmp st g)) <= 2 + fst g).
Proof.
  intros K V cmp st kcl vcl s.
  exact (conj (fun k => ciq_get cmp kcl k s) (conj (fun q => ciq_overlapping cmp kcl q s) (conj (fun q => ciq_gaps cmp kcl q s)
    (conj (ciq_clone kcl vcl s) (ciq_next cmp st kcl))))).
Qed.

Local Open Scope Z_scope.
Notation kid := (fun (_ : nat) k => k).
Notation vid := (fun (_ : nat) v => v).
Notation zkx := (rmc_exec kid vid Z.compare Z.eqb).
Notation zcrun := (rmc_run kid vid Z.compare Z.eqb).
Notation zrun := (rm_run Z.compare Z.eqb).
Notation ztx := (rmt_exec Z.compare Z.eqb).
Notation izkx := (imc_exec kid vid Z.compare Z.eqb zst).
Notation izcrun := (imc_run kid vid Z.compare Z.eqb zst).
Notation izrun := (im_run Z.compare Z.eqb zst).
Notation iztx := (imt_exec Z.compare Z.eqb zst).
Lemma kid_alike : forall (n : nat) k, alike_key Z.compare k (kid n k).
Proof. intros n k. apply Z.compare_refl. Qed.
Lemma vid_alike : forall (n : nat) v, alike Z.eqb v (vid n v).
Proof. intros n v w. reflexivity. Qed.
(** The bound of [C100_insert] is met by an insertion joining its two neighbours,
    that of [C100_remove] missed by one by a removal out of the middle of an
    entry; an invalid range clones nothing; labelled clones (P_Clone.v). *)
Definition cc_ops : list (op (range Z) Z) := [OExtend [(mkR 0 9, 1); (mkR 20 30, 2); (mkR 30 40, 3); (mkR 50 60, 2)]].
Example C100_example :
  TotalOrd Z.compare /\ PartialEquiv Z.eqb /\
  (forall (n : nat) k, alike_key Z.compare k (kid n k)) /\ (forall (n : nat) v, alike Z.eqb v (vid n v)) /\
  fst (zcrun cc_ops) = 11%nat /\
  (let t := fst (ztx (OInsert (mkR 40 50) 2) (zrun cc_ops)) in
   fst (snd (zkx (OInsert (mkR 40 50) 2) (zcrun cc_ops))) = 21%nat /\ (searches t, changes t) = (3, 2)%nat) /\
  (let o := OInsert (mkR 9 20) 2 in let p := [OInsert (mkR 0 9) 2; OInsert (mkR 20 30) 2] in
   let t := fst (ztx o (zrun p)) in
   fst (zcrun p) = 4%nat /\ fst (snd (zkx o (zcrun p))) = 16%nat /\ (3 * searches t + 2 * changes t - 3 = 12)%nat) /\
  (let t := fst (ztx (ORemove (mkR 3 4)) (zrun cc_ops)) in
   fst (snd (zkx (ORemove (mkR 3 4)) (zcrun cc_ops))) = 19%nat /\
   (3 * searches t + 2 * (changes t - removes t) - 1 = 9)%nat) /\
  fst (snd (zkx (ORemove (mkR 3 3)) (zcrun cc_ops))) = 11%nat /\
  fst (rmc_run lk_cl lk_cl lk_cmp lk_eqb lk_ops) = 25%nat /\ history_clones 33 lk_ops = 124%nat.
Proof.
  split; [exact Z_order|]. split; [exact Z_per|]. split; [exact kid_alike|]. split; [exact vid_alike|].
  vm_compute. auto 12.
Qed.
Definition cci_ops : list (op (rangei Z) Z) := [OExtend [(incl 0 9, 1); (incl 20 30, 2); (incl 31 40, 3); (mkRI 51 60 true, 2)]].
Example C101_example :
  TotalOrd Z.compare /\ PartialEquiv Z.eqb /\ StepLaws Z.compare zst /\
  fst (izcrun cci_ops) = 11%nat /\
  (let o := OInsert (incl 10 19) 2 in let p := [OInsert (incl 0 9) 2; OInsert (incl 20 30) 2] in
   let t := fst (iztx o (izrun p)) in
   fst (izcrun p) = 4%nat /\ fst (snd (izkx o (izcrun p))) = 16%nat /\ (3 * searches t + 2 * changes t - 1 = 14)%nat) /\
  (let t := fst (iztx (ORemove (incl 3 4)) (izrun cci_ops)) in
   fst (snd (izkx (ORemove (incl 3 4)) (izcrun cci_ops))) = 19%nat /\
   (3 * searches t + 2 * (changes t - removes t) - 1 = 9)%nat) /\
  fst (snd (izkx (ORemove (incl 3 2)) (izcrun cci_ops))) = 11%nat /\
  history_clones 35 cci_ops = 140%nat.
Proof. split; [exact Z_order|]. split; [exact Z_per|]. split; [exact zst_laws|]. vm_compute. auto 12. Qed.
(** queries of 9..35, and the clone, of 0..9, 20..30, 30..40, 50..60 *)
Example C100_queries_example :
  fst (snd (rmc_get kid Z.compare 25 (zcrun cc_ops))) = 13%nat /\
  fst (snd (rmc_clone kid vid (zcrun cc_ops))) = 23%nat /\
  exists g, fst (rmc_gaps kid Z.compare (mkR 9 35) (zcrun cc_ops)) = Ret g /\
    fst (snd (gpc_next kid Z.compare (10%nat, g))) = 12%nat /\
    fst (snd (gpc_next kid Z.compare (snd (gpc_next kid Z.compare (10%nat, g))))) = 12%nat.
Proof. vm_compute. split; [reflexivity|]. split; [reflexivity|]. eexists. split; [reflexivity|]. auto. Qed.
Example C101_queries_example :
  fst (snd (imc_clone kid vid (izcrun cci_ops))) = 23%nat /\
  exists g, fst (imc_gaps kid Z.compare (incl 15 70) (izcrun cci_ops)) = Ret g /\
    let x := gpic_next kid Z.compare zst (10%nat, g) in
    let y := gpic_next kid Z.compare zst (snd x) in
    let z := gpic_next kid Z.compare zst (snd y) in
    (fst x, fst (snd x)) = (Ret (Some (incl 15 19)), 11%nat) /\
    (fst y, fst (snd y)) = (Ret (Some (incl 41 50)), 11%nat) /\
    (fst z, fst (snd z)) = (Ret (Some (incl 61 70)), 12%nat).
Proof. vm_compute. split; [reflexivity|]. eexists. split; [reflexivity|]. auto. Qed.

(** "a single call makes a bounded number of clones" is false *)
Ltac zc := repeat match goal with |- context [Z.compare ?a ?b] => destruct (Z.compare_spec a b); try lia end; try reflexivity.
Lemma cells_range r e n a : -1 = r_start r -> 0 <= a -> a + 2 * Z.of_nat n <= r_start e ->
  bt_range (cmp_start Z.compare) (Excluded r) (Excluded e) (cells n a) = Ret (cells n a).
Proof.
  intros Hr Ha He. unfold bt_range.
  replace (bad_bounds _ _ _) with false by (cbn [bad_bounds]; unfold cmp_start; zc). f_equal.
  assert (D : drop_while (fun e => below (cmp_start Z.compare) (Excluded r) (fst e)) (cells n a) = cells n a).
  { destruct n as [|n]; [reflexivity|]. cbn [cells drop_while fst below]. unfold cmp_start. cbn [r_start]. zc. }
  rewrite D. clear D. revert a Ha He. induction n as [|n IH]; intros a Ha He; [reflexivity|].
  cbn [cells take_while fst above]. rewrite IH by lia. unfold cmp_start. cbn [r_start]. zc.
Qed.
Lemma cells_loop r e : -1 = r_start r -> r_start e = r_end r ->
  forall n fuel a c, (n < fuel)%nat -> 0 <= a -> a + 2 * Z.of_nat n <= r_end r ->
  fst (snd (rmc_remove_loop kid vid Z.compare fuel r e (c, cells n a))) = (3 * n + c)%nat.
Proof.
  intros Hr He. induction n as [|n IH]; intros fuel a c Hf Ha Hn; (destruct fuel as [|fuel]; [lia|]); cbn [rmc_remove_loop].
  - unfold bind at 1, cget. cbn [snd]. unfold bind at 1, lift. rewrite cells_range by lia. reflexivity.
  - unfold bind at 1, cget. cbn [snd]. unfold bind at 1, lift. rewrite cells_range by lia. cbn [cells it_next fst].
    unfold r_clone, vclone, kclone, rmc_adjust_overlapping_ranges_for_remove, bind, ret, cmodify. cbn [fst snd bt_remove r_start r_end].
    unfold cmp_start. cbn [r_start r_end]. rewrite Z.compare_refl.
    replace (ltb Z.compare a (r_start r)) with false by (unfold ltb; zc).
    replace (gtb Z.compare (a + 1) (r_end r)) with false by (unfold gtb, ltb; zc).
    rewrite IH by lia. lia.
Qed.
Theorem C100_bounded_call_refuted : forall n, exists ops r,
  (n + fst (zcrun ops) < fst (snd (zkx (ORemove r) (zcrun ops))))%nat.
Proof.
  intros n. set (m := cells (S n) 0). set (r := mkR (-1) (2 * Z.of_nat (S n))).
  set (ops := map (fun e => OInsert (fst e) (snd e)) m). exists ops, r.
  assert (E : snd (zcrun ops) = m).
  { rewrite C73_identity. apply (insert_all_app Z_order m [] (cells_WF (S n) 0)). }
  destruct (zcrun ops) as [c m']. cbn [fst snd] in *. subst m'. cbn [rmc_exec]. unfold rmc_remove.
  replace (ltb Z.compare (r_start r) (r_end r)) with true by (unfold ltb; cbn [r r_start r_end]; zc).
  unfold assert_. unfold bind at 1, ret at 1. unfold bind at 1, cget. cbn [snd]. unfold bind at 1, lift.
  assert (B : bt_range (cmp_start Z.compare) Unbounded (Included r) m = Ret []).
  { unfold bt_range. reflexivity. }
  rewrite B. cbn [last_opt it_next_back rev fst]. unfold bind at 1, ret at 1. unfold bind at 1, kclone at 1. unfold bind at 1. cbn [fst snd].
  unfold bind, kclone. cbn [fst snd]. unfold m. rewrite cells_loop; cbn [r r_start r_end fst]; rewrite ?cells_length; lia.
Qed.
Lemma icells_range r e n a : -1 = ri_start r -> 0 <= a -> a + 2 * Z.of_nat n <= ri_start e ->
  bt_range (cmpi_start Z.compare) (Excluded r) (Included e) (icells n a) = Ret (icells n a).
Proof.
  intros Hr Ha He. unfold bt_range.
  replace (bad_bounds _ _ _) with false by (cbn [bad_bounds]; unfold cmpi_start; zc). f_equal.
  assert (D : drop_while (fun e => below (cmpi_start Z.compare) (Excluded r) (fst e)) (icells n a) = icells n a).
  { destruct n as [|n]; [reflexivity|]. unfold icells. cbn [cells map drop_while fst below]. unfold cmpi_start, icell, incl. cbn [ri_start r_start]. zc. }
  rewrite D. clear D. revert a Ha He. induction n as [|n IH]; intros a Ha He; [reflexivity|].
  unfold icells in *. cbn [cells map take_while fst above]. rewrite IH by lia. unfold cmpi_start, icell, incl. cbn [ri_start r_start]. zc.
Qed.
Lemma icells_loop r e : -1 = ri_start r -> ri_start e = ri_end r ->
  forall n fuel a c, (n < fuel)%nat -> 0 <= a -> a + 2 * Z.of_nat n <= ri_end r ->
  fst (snd (imc_remove_loop kid vid Z.compare zst fuel r e (c, icells n a))) = (3 * n + c)%nat.
Proof.
  intros Hr He. induction n as [|n IH]; intros fuel a c Hf Ha Hn; (destruct fuel as [|fuel]; [lia|]); cbn [imc_remove_loop].
  - unfold bind at 1, cget. cbn [snd]. unfold bind at 1, lift. rewrite icells_range by lia. reflexivity.
  - unfold bind at 1, cget. cbn [snd]. unfold bind at 1, lift. rewrite icells_range by lia.
    replace (icells (S n) a) with ((incl a (a + 1 - 1), 0) :: icells n (a + 2)) by reflexivity. cbn [it_next fst].
    unfold ri_clone, vclone, kclone, imc_adjust_overlapping_ranges_for_remove, bind, ret, cmodify. cbn [fst snd bt_remove ri_start ri_end incl].
    unfold cmpi_start. cbn [ri_start ri_end]. rewrite Z.compare_refl.
    replace (ltb Z.compare a (ri_start r)) with false by (unfold ltb; zc).
    replace (gtb Z.compare (a + 1 - 1) (ri_end r)) with false by (unfold gtb, ltb; zc).
    rewrite IH by lia. lia.
Qed.
Theorem C101_bounded_call_refuted : forall n, exists ops r,
  (n + fst (izcrun ops) < fst (snd (izkx (ORemove r) (izcrun ops))))%nat.
Proof.
  intros n. set (r := incl (-1) (2 * Z.of_nat (S n))). exists (icell_ops (S n)), r.
  assert (E : snd (izcrun (icell_ops (S n))) = icells (S n) 0).
  { rewrite C74_identity. apply icells_run. }
  destruct (izcrun (icell_ops (S n))) as [c m']. cbn [fst snd] in *. subst m'. cbn [imc_exec]. unfold imc_remove.
  replace (leb Z.compare (ri_start r) (ri_end r)) with true by (unfold leb; cbn [r incl ri_start ri_end]; zc).
  unfold assert_. unfold bind at 1, ret at 1. unfold bind at 1, cget. cbn [snd]. unfold bind at 1, lift.
  assert (B : bt_range (cmpi_start Z.compare) Unbounded (Included r) (icells (S n) 0) = Ret []).
  { unfold bt_range. reflexivity. }
  rewrite B. cbn [last_opt it_next_back rev fst]. unfold bind at 1, ret at 1. unfold bind at 1, kclone at 1. unfold bind at 1. cbn [fst snd].
  unfold bind, kclone. cbn [fst snd]. rewrite icells_loop; cbn [r incl ri_start ri_end fst]; unfold icells; rewrite ?map_length, ?cells_length; lia.
Qed.

Print Assumptions C100_insert.
Print Assumptions C100_remove.
Print Assumptions C100_call.
Print Assumptions C100_history.
Print Assumptions C100_clear.
Print Assumptions C100_queries.
Print Assumptions C101_insert.
Print Assumptions C101_remove.
Print Assumptions C101_call.
Print Assumptions C101_history.
Print Assumptions C101_clear.
Print Assumptions C101_queries.
Print Assumptions C100_bounded_call_refuted.
Print Assumptions C101_bounded_call_refuted.
