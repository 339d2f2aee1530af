(** [Debug] output (C69).  [fk] and [fv] are what the [Debug] impls of keys and
    values write; [delimited] (Spec.v) says that such texts can be told apart
    and that their end can be recognised before the listed separators, as is the
    case for integers (C69_integers). *)
From Coq Require Import List Bool Sorting.Sorted ZArith String.
From Verif Require Import Order Outcome BTree Ranges History Spec MapModel IMapModel SetModel ISetModel
  StepModel StepFacts IMapProps DebugModel DebugFacts Instances.
Import ListNotations.
Local Open Scope string_scope.

Section Debug.
  Context {K V : Type} (cmp : K -> K -> comparison) (veqb : V -> V -> bool).
  Context (fk : K -> string) (fv : V -> string).

  Theorem C69_map_text : forall m, rm_debug fk fv m =
    "{" ++ concat ", " (map (fun e => (fk (r_start (fst e)) ++ ".." ++ fk (r_end (fst e))) ++ ": " ++ fv (snd e))
                            (rm_iter m)) ++ "}".
  Proof. exact (map_text fk fv). Qed.
  Theorem C69_inclusive_map_text : forall m, im_debug fk fv m =
    "{" ++ concat ", " (map (fun e =>
      (fk (ri_start (fst e)) ++ "..=" ++ fk (ri_end (fst e)) ++ (if ri_exhausted (fst e) then "@exhausted" else ""))
      ++ ": " ++ fv (snd e)) (im_iter m)) ++ "}".
  Proof. exact (imap_text fk fv). Qed.
  Theorem C69_set_text : forall s, rs_debug fk s =
    "{" ++ concat ", " (map (fun r => fk (r_start r) ++ ".." ++ fk (r_end r)) (map fst (rs_iter s))) ++ "}".
  Proof. exact (set_text fk). Qed.
  Theorem C69_inclusive_set_text : forall s, is_debug fk s =
    "{" ++ concat ", " (map (fun r =>
      fk (ri_start r) ++ "..=" ++ fk (ri_end r) ++ (if ri_exhausted r then "@exhausted" else ""))
      (map fst (is_iter s))) ++ "}".
  Proof. exact (iset_text fk). Qed.

  (** different maps print differently *)
  Theorem C69_map_separates : forall a b,
    delimited (eqb cmp) [".."; ": "] fk -> delimited veqb [", "; "}"] fv ->
    rm_debug fk fv a = rm_debug fk fv b -> rm_eqb cmp veqb a b = true.
  Proof. exact (map_apart cmp veqb fk fv). Qed.
  Theorem C69_inclusive_map_separates : forall a b,
    delimited (eqb cmp) ["..="; ": "; "@exhausted"] fk -> delimited veqb [", "; "}"] fv ->
    im_debug fk fv a = im_debug fk fv b -> im_eqb cmp veqb a b = true.
  Proof. exact (imap_apart cmp veqb fk fv). Qed.
  Theorem C69_set_separates : forall a b, delimited (eqb cmp) [".."; ", "; "}"] fk ->
    rs_debug fk a = rs_debug fk b -> rs_eqb cmp a b = true.
  Proof. exact (set_apart cmp fk). Qed.
  Theorem C69_inclusive_set_separates : forall a b,
    delimited (eqb cmp) ["..="; "@exhausted"; ", "; "}"] fk ->
    is_debug fk a = is_debug fk b -> is_eqb cmp a b = true.
  Proof. exact (iset_apart cmp fk). Qed.

  (** equal maps print the same *)
  Theorem C69_map_consistent : forall a b,
    (forall x y, eqb cmp x y = true -> fk x = fk y) -> (forall x y, veqb x y = true -> fv x = fv y) ->
    rm_eqb cmp veqb a b = true -> rm_debug fk fv a = rm_debug fk fv b.
  Proof. exact (fun a b Hk => map_same cmp veqb fk fv Hk a b). Qed.
  Theorem C69_inclusive_map_consistent : forall a b,
    (forall x y, eqb cmp x y = true -> fk x = fk y) -> (forall x y, veqb x y = true -> fv x = fv y) ->
    im_eqb cmp veqb a b = true -> im_debug fk fv a = im_debug fk fv b.
  Proof. exact (fun a b Hk => imap_same cmp veqb fk fv Hk a b). Qed.
  Theorem C69_set_consistent : forall a b, (forall x y, eqb cmp x y = true -> fk x = fk y) ->
    rs_eqb cmp a b = true -> rs_debug fk a = rs_debug fk b.
  Proof. exact (fun a b Hk => set_same cmp fk Hk a b). Qed.
  Theorem C69_inclusive_set_consistent : forall a b, (forall x y, eqb cmp x y = true -> fk x = fk y) ->
    is_eqb cmp a b = true -> is_debug fk a = is_debug fk b.
  Proof. exact (fun a b Hk => iset_same cmp fk Hk a b). Qed.
End Debug.

(** Decimal integers meet the hypotheses: integer maps print the same iff equal. *)
Lemma zeqb_cmp x y : eqb Z.compare x y = Z.eqb x y.
Proof. unfold eqb. rewrite Z.eqb_compare. reflexivity. Qed.
Lemma show_delim seps : forallb starts_odd seps = true -> delimited (eqb Z.compare) seps show_Z.
Proof. intros H x y p q s t. rewrite zeqb_cmp. apply show_delimited, H. Qed.
Lemma show_eq x y : eqb Z.compare x y = true -> show_Z x = show_Z y.
Proof. rewrite zeqb_cmp, Z.eqb_eq. congruence. Qed.
Lemma show_eqv x y : Z.eqb x y = true -> show_Z x = show_Z y.
Proof. rewrite Z.eqb_eq. congruence. Qed.
Theorem C69_integers :
  (forall a b, rm_debug show_Z show_Z a = rm_debug show_Z show_Z b <-> rm_eqb Z.compare Z.eqb a b = true) /\
  (forall a b, im_debug show_Z show_Z a = im_debug show_Z show_Z b <-> im_eqb Z.compare Z.eqb a b = true) /\
  (forall a b, rs_debug show_Z a = rs_debug show_Z b <-> rs_eqb Z.compare a b = true) /\
  (forall a b, is_debug show_Z a = is_debug show_Z b <-> is_eqb Z.compare a b = true).
Proof.
  split; [|split; [|split]]; intros a b; split.
  - apply map_apart; [apply show_delim|apply show_delimited]; reflexivity.
  - apply map_same; [exact show_eq|exact show_eqv].
  - apply imap_apart; [apply show_delim|apply show_delimited]; reflexivity.
  - apply imap_same; [exact show_eq|exact show_eqv].
  - apply set_apart, show_delim. reflexivity.
  - apply set_same, show_eq.
  - apply iset_apart, show_delim. reflexivity.
  - apply iset_same, show_eq.
Qed.

Local Open Scope Z_scope.
Example C69_example :
  rm_debug show_Z show_Z (rm_run Z.compare Z.eqb [OInsert (mkR (-12) 5) 3; OInsert (mkR 7 100) (-4)]) =
    "{-12..5: 3, 7..100: -4}"%string /\
  im_debug show_Z show_Z (im_run Z.compare Z.eqb zst [OInsert (incl 2 5) 0; OInsert (mkRI 9 9 true) 1]) =
    "{2..=5: 0, 9..=9@exhausted: 1}"%string /\
  rs_debug show_Z (rs_run Z.compare [SInsert (mkR 2 5); SInsert (mkR 7 8); SInsert (mkR 10 11)]) =
    "{2..5, 7..8, 10..11}"%string /\
  is_debug show_Z (is_run Z.compare zst [SInsert (incl 2 5); SInsert (incl 6 8)]) = "{2..=8}"%string /\
  rs_debug show_Z (rs_run Z.compare []) = "{}"%string.
Proof. vm_compute. repeat split. Qed.

Print Assumptions C69_map_text.
Print Assumptions C69_inclusive_map_text.
Print Assumptions C69_set_text.
Print Assumptions C69_inclusive_set_text.
Print Assumptions C69_map_separates.
Print Assumptions C69_inclusive_map_separates.
Print Assumptions C69_set_separates.
Print Assumptions C69_inclusive_set_separates.
Print Assumptions C69_map_consistent.
Print Assumptions C69_inclusive_map_consistent.
Print Assumptions C69_set_consistent.
Print Assumptions C69_inclusive_set_consistent.
Print Assumptions C69_integers.
