(** Indented [Debug] output, [{:#?}] (C85).  [fk] and [fv] are the pieces that the
    [Debug] impls of keys and values write, one [write_str] call each.  The
    theorems say that only their concatenation matters. *)
From Coq Require Import List Bool Sorting.Sorted ZArith String Ascii.
From Verif Require Import Order Outcome BTree Ranges History Spec MapModel IMapModel SetModel ISetModel
  StepModel StepFacts IMapProps DebugModel DebugFacts PrettyFacts Instances P_Debug.
Import ListNotations.
Local Open Scope string_scope.
Notation nl := (String "010" "").

Section Pretty.
  Context {K V : Type} (cmp : K -> K -> comparison) (veqb : V -> V -> bool).
  Context (fk : K -> list string) (fv : V -> list string).
  Notation tk k := (concat "" (fk k)).
  Notation tv v := (concat "" (fv v)).

  Theorem C85_map_text : forall m, rm_pretty fk fv m =
    match rm_iter m with
    | [] => "{}"
    | _ => "{" ++ nl ++ concat "" (map (fun e => indented true
             (((tk (r_start (fst e)) ++ ".." ++ tk (r_end (fst e))) ++ ": " ++ tv (snd e)) ++ "," ++ nl)) (rm_iter m)) ++ "}"
    end.
  Proof. exact (fun m => eq_trans (map_pretty fk fv m) (pretty_of_map _ _)). Qed.
  Theorem C85_inclusive_map_text : forall m, im_pretty fk fv m =
    match im_iter m with
    | [] => "{}"
    | _ => "{" ++ nl ++ concat "" (map (fun e => indented true
             (((tk (ri_start (fst e)) ++ "..=" ++ tk (ri_end (fst e))
                ++ (if ri_exhausted (fst e) then "@exhausted" else "")) ++ ": " ++ tv (snd e)) ++ "," ++ nl)) (im_iter m)) ++ "}"
    end.
  Proof. exact (fun m => eq_trans (imap_pretty fk fv m) (pretty_of_map _ _)). Qed.
  Theorem C85_set_text : forall s, rs_pretty fk s =
    match map fst (rs_iter s) with
    | [] => "{}"
    | _ => "{" ++ nl ++ concat "" (map (fun r => indented true
             ((tk (r_start r) ++ ".." ++ tk (r_end r)) ++ "," ++ nl)) (map fst (rs_iter s))) ++ "}"
    end.
  Proof. exact (fun s => eq_trans (set_pretty fk s) (pretty_of_map _ _)). Qed.
  Theorem C85_inclusive_set_text : forall s, is_pretty fk s =
    match map fst (is_iter s) with
    | [] => "{}"
    | _ => "{" ++ nl ++ concat "" (map (fun r => indented true
             ((tk (ri_start r) ++ "..=" ++ tk (ri_end r)
               ++ (if ri_exhausted r then "@exhausted" else "")) ++ "," ++ nl)) (map fst (is_iter s))) ++ "}"
    end.
  Proof. exact (fun s => eq_trans (iset_pretty fk s) (pretty_of_map _ _)). Qed.

  (** different maps print differently *)
  Theorem C85_map_separates : forall a b,
    delimited (eqb cmp) [".."; ": "] (fun k => tk k) -> delimited veqb ["," ++ nl] (fun v => tv v) ->
    rm_pretty fk fv a = rm_pretty fk fv b -> rm_eqb cmp veqb a b = true.
  Proof. exact (map_pretty_apart cmp veqb fk fv). Qed.
  Theorem C85_inclusive_map_separates : forall a b,
    delimited (eqb cmp) ["..="; ": "; "@exhausted"] (fun k => tk k) -> delimited veqb ["," ++ nl] (fun v => tv v) ->
    im_pretty fk fv a = im_pretty fk fv b -> im_eqb cmp veqb a b = true.
  Proof. exact (imap_pretty_apart cmp veqb fk fv). Qed.
  Theorem C85_set_separates : forall a b, delimited (eqb cmp) [".."; "," ++ nl] (fun k => tk k) ->
    rs_pretty fk a = rs_pretty fk b -> rs_eqb cmp a b = true.
  Proof. exact (set_pretty_apart cmp fk). Qed.
  Theorem C85_inclusive_set_separates : forall a b,
    delimited (eqb cmp) ["..="; "@exhausted"; "," ++ nl] (fun k => tk k) ->
    is_pretty fk a = is_pretty fk b -> is_eqb cmp a b = true.
  Proof. exact (iset_pretty_apart cmp fk). Qed.

  (** equal maps print the same *)
  Theorem C85_map_consistent : forall a b,
    (forall x y, eqb cmp x y = true -> tk x = tk y) -> (forall x y, veqb x y = true -> tv x = tv y) ->
    rm_eqb cmp veqb a b = true -> rm_pretty fk fv a = rm_pretty fk fv b.
  Proof. exact (fun a b Hk => map_pretty_same cmp veqb fk fv Hk a b). Qed.
  Theorem C85_inclusive_map_consistent : forall a b,
    (forall x y, eqb cmp x y = true -> tk x = tk y) -> (forall x y, veqb x y = true -> tv x = tv y) ->
    im_eqb cmp veqb a b = true -> im_pretty fk fv a = im_pretty fk fv b.
  Proof. exact (fun a b Hk => imap_pretty_same cmp veqb fk fv Hk a b). Qed.
  Theorem C85_set_consistent : forall a b, (forall x y, eqb cmp x y = true -> tk x = tk y) ->
    rs_eqb cmp a b = true -> rs_pretty fk a = rs_pretty fk b.
  Proof. exact (fun a b Hk => set_pretty_same cmp fk Hk a b). Qed.
  Theorem C85_inclusive_set_consistent : forall a b, (forall x y, eqb cmp x y = true -> tk x = tk y) ->
    is_eqb cmp a b = true -> is_pretty fk a = is_pretty fk b.
  Proof. exact (fun a b Hk => iset_pretty_same cmp fk Hk a b). Qed.
End Pretty.

(** Integers meet the hypotheses, however many pieces they are written in. *)
Definition show_pieces (z : Z) : list string :=
  if (z <? 0)%Z then ["-"; show_Z (- z)] else [show_Z z].
Lemma show_pieces_text z : concat "" (show_pieces z) = show_Z z.
Proof.
  unfold show_pieces. destruct (Z.ltb_spec z 0) as [H|H]; [|reflexivity].
  destruct z as [|p|p]; try discriminate H; try reflexivity; try (exfalso; revert H; apply Z.le_ngt; discriminate).
Qed.
Lemma pieces_delim seps : forallb starts_odd seps = true ->
  delimited (eqb Z.compare) seps (fun z => concat "" (show_pieces z)).
Proof. intros H x y p q s t. rewrite !show_pieces_text. apply show_delim, H. Qed.
Lemma pieces_eq x y : eqb Z.compare x y = true -> concat "" (show_pieces x) = concat "" (show_pieces y).
Proof. rewrite !show_pieces_text. apply show_eq. Qed.
Lemma pieces_delimv seps : forallb starts_odd seps = true ->
  delimited Z.eqb seps (fun z => concat "" (show_pieces z)).
Proof. intros H x y p q s t. rewrite !show_pieces_text. apply show_delimited, H. Qed.
Lemma pieces_eqv x y : Z.eqb x y = true -> concat "" (show_pieces x) = concat "" (show_pieces y).
Proof. rewrite !show_pieces_text. apply show_eqv. Qed.
Notation zm := (rm_pretty show_pieces show_pieces).
Notation zi := (im_pretty show_pieces show_pieces).
Theorem C85_integers :
  (forall a b, zm a = zm b <-> rm_eqb Z.compare Z.eqb a b = true) /\
  (forall a b, zi a = zi b <-> im_eqb Z.compare Z.eqb a b = true) /\
  (forall a b, rs_pretty show_pieces a = rs_pretty show_pieces b <-> rs_eqb Z.compare a b = true) /\
  (forall a b, is_pretty show_pieces a = is_pretty show_pieces b <-> is_eqb Z.compare a b = true).
Proof.
  split; [|split; [|split]]; intros a b; split.
  - apply map_pretty_apart; [apply pieces_delim|apply pieces_delimv]; reflexivity.
  - apply map_pretty_same; [exact pieces_eq|exact pieces_eqv].
  - apply imap_pretty_apart; [apply pieces_delim|apply pieces_delimv]; reflexivity.
  - apply imap_pretty_same; [exact pieces_eq|exact pieces_eqv].
  - apply set_pretty_apart, pieces_delim. reflexivity.
  - apply set_pretty_same, pieces_eq.
  - apply iset_pretty_apart, pieces_delim. reflexivity.
  - apply iset_pretty_same, pieces_eq.
Qed.

Local Open Scope Z_scope.
(** a map of sets: the lines of a value are indented twice *)
Example C85_example :
  let set l := rs_pretty show_pieces (rs_run Z.compare (map (fun r => SInsert r) l)) in
  rm_pretty show_pieces (fun l => [set l])
    (rm_run Z.compare (fun _ _ => false)
       [OInsert (mkR (-12) 5) [mkR 1 2; mkR (-5) (-3)]; OInsert (mkR 5 9) []]) =
"{
    -12..5: {
        -5..-3,
        1..2,
    },
    5..9: {},
}"%string /\
  im_pretty show_pieces show_pieces
    (im_run Z.compare Z.eqb zst [OInsert (incl 2 5) 0; OInsert (mkRI 9 9 true) (-1)]) =
"{
    2..=5: 0,
    9..=9@exhausted: -1,
}"%string /\
  is_pretty show_pieces (is_run Z.compare zst [SInsert (incl 2 5); SInsert (incl 6 8)]) =
"{
    2..=8,
}"%string.
Proof. vm_compute. repeat split. Qed.

Print Assumptions C85_map_text.
Print Assumptions C85_inclusive_map_text.
Print Assumptions C85_set_text.
Print Assumptions C85_inclusive_set_text.
Print Assumptions C85_map_separates.
Print Assumptions C85_inclusive_map_separates.
Print Assumptions C85_set_separates.
Print Assumptions C85_inclusive_set_separates.
Print Assumptions C85_map_consistent.
Print Assumptions C85_inclusive_map_consistent.
Print Assumptions C85_set_consistent.
Print Assumptions C85_inclusive_set_consistent.
Print Assumptions C85_integers.
