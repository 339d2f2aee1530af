(** [Debug] output, in the compact form [{:?}] and the indented one [{:#?}].
    Formatting into the buffer never fails. *)
From Coq Require Import List Bool String Ascii.
From Verif Require Import Order Ranges MapModel IMapModel SetModel ISetModel.
Import ListNotations.
Local Open Scope string_scope.

(** [core::fmt::builders::DebugMap] / [DebugSet], compact form, as used by [fmt]
    map.rs:605, inclusive_map.rs:700, set.rs:261, inclusive_set.rs:287: the text written
    so far and the [has_fields] flag. *)
Record debugger : Type := mkDebug { d_text : string; d_has_fields : bool }.
Definition debug_new : debugger := mkDebug "{" false.
Definition debug_finish (d : debugger) : string := d_text d ++ "}".
(** [DebugMap::entry] = [key] then [value] *)
Definition debug_key (k : string) (d : debugger) : debugger :=
  mkDebug (d_text d ++ (if d_has_fields d then ", " else "") ++ k ++ ": ") (d_has_fields d).
Definition debug_value (v : string) (d : debugger) : debugger := mkDebug (d_text d ++ v) true.
Definition debug_map_entry (k v : string) (d : debugger) : debugger := debug_value v (debug_key k d).
(** [DebugSet::entry] *)
Definition debug_set_entry (k : string) (d : debugger) : debugger :=
  mkDebug (d_text d ++ (if d_has_fields d then ", " else "") ++ k) true.

Section Model.
  (** [fk], [fv]: what the [Debug] impls of [K] and [V] write *)
  Context {K V : Type} (fk : K -> string) (fv : V -> string).

  (** [Debug for Range], [Debug for RangeInclusive] (core) *)
  Definition r_debug (r : range K) : string := fk (r_start r) ++ ".." ++ fk (r_end r).
  Definition ri_debug (r : rangei K) : string :=
    fk (ri_start r) ++ "..=" ++ fk (ri_end r) ++ (if ri_exhausted r then "@exhausted" else "").

  (** [Debug::fmt] map.rs:604-608: [f.debug_map().entries(self.iter()).finish()] *)
  Definition rm_debug (m : rmap K V) : string :=
    debug_finish (fold_left (fun d e => debug_map_entry (r_debug (fst e)) (fv (snd e)) d) (rm_iter m) debug_new).
  (** [Debug::fmt] inclusive_map.rs:695-703 *)
  Definition im_debug (m : imap K V) : string :=
    debug_finish (fold_left (fun d e => debug_map_entry (ri_debug (fst e)) (fv (snd e)) d) (im_iter m) debug_new).
  (** [Debug::fmt] set.rs:257-264: [f.debug_set().entries(self.iter()).finish()] *)
  Definition rs_debug (s : rset K) : string :=
    debug_finish (fold_left (fun d r => debug_set_entry (r_debug r) d) (map fst (rs_iter s)) debug_new).
  (** [Debug::fmt] inclusive_set.rs:283-290 *)
  Definition is_debug (s : iset K) : string :=
    debug_finish (fold_left (fun d r => debug_set_entry (ri_debug r) d) (map fst (is_iter s)) debug_new).
End Model.

(** ** The indented form [{:#?}] *)

(** [str::split_inclusive('\n')] (core): the lines, each with its newline; a
    last line without one only if it is not empty. *)
Fixpoint split_inclusive (s : string) : list string :=
  match s with
  | EmptyString => []
  | String c s' =>
      if Ascii.eqb c "010" then String c "" :: split_inclusive s'
      else match split_inclusive s' with
           | [] => [String c ""]
           | l :: ls => String c l :: ls
           end
  end.
(** [str::ends_with('\n')] *)
Fixpoint ends_with_newline (s : string) : bool :=
  match s with
  | EmptyString => false
  | String c EmptyString => Ascii.eqb c "010"
  | String _ s' => ends_with_newline s'
  end.
(** [core::fmt::builders::PadAdapter]: what it has written to the formatter it
    wraps, and [PadAdapterState::on_newline]; [write_str] *)
Definition pad_line (st : string * bool) (line : string) : string * bool :=
  (fst st ++ (if snd st then "    " else "") ++ line, ends_with_newline line).
Definition pad_write (st : string * bool) (s : string) : string * bool :=
  fold_left pad_line (split_inclusive s) st.
(** an item that writes its text in several calls of [write_str] *)
Definition pad_writes (st : string * bool) (l : list string) : string * bool := fold_left pad_write l st.

(** [DebugMap] / [DebugSet] with the alternate flag: text, [has_fields], and the
    state of the pad adapter (which [DebugMap] keeps from [key] to [value]). *)
Record pretty : Type := mkPretty { p_text : string; p_has_fields : bool; p_on_newline : bool }.
Definition pretty_new : pretty := mkPretty "{" false true.
Definition pretty_finish (d : pretty) : string := p_text d ++ "}".
Definition newline : string := String "010" "".
Definition pretty_key (k : list string) (d : pretty) : pretty :=
  let t := if p_has_fields d then p_text d else p_text d ++ newline in
  let (t', b) := pad_write (pad_writes (t, true) k) ": " in
  mkPretty t' (p_has_fields d) b.
Definition pretty_value (v : list string) (d : pretty) : pretty :=
  let (t', b) := pad_write (pad_writes (p_text d, p_on_newline d) v) ("," ++ newline) in
  mkPretty t' true b.
Definition pretty_map_entry (k v : list string) (d : pretty) : pretty := pretty_value v (pretty_key k d).
Definition pretty_set_entry (k : list string) (d : pretty) : pretty :=
  let t := if p_has_fields d then p_text d else p_text d ++ newline in
  let (t', b) := pad_write (pad_writes (t, true) k) ("," ++ newline) in
  mkPretty t' true b.

Section Pretty.
  (** [fk], [fv]: the pieces that the [Debug] impls of [K] and [V] write, given
      the alternate flag *)
  Context {K V : Type} (fk : K -> list string) (fv : V -> list string).

  (** [Debug for Range], [Debug for RangeInclusive] (core) *)
  Definition r_pretty (r : range K) : list string := (fk (r_start r) ++ [".."] ++ fk (r_end r))%list.
  Definition ri_pretty (r : rangei K) : list string :=
    (fk (ri_start r) ++ ["..="] ++ fk (ri_end r) ++ (if ri_exhausted r then ["@exhausted"] else []))%list.
  (** [Debug::fmt] map.rs:604-608, inclusive_map.rs:695-703, set.rs:257-264,
      inclusive_set.rs:283-290 *)
  Definition rm_pretty (m : rmap K V) : string :=
    pretty_finish (fold_left (fun d e => pretty_map_entry (r_pretty (fst e)) (fv (snd e)) d) (rm_iter m) pretty_new).
  Definition im_pretty (m : imap K V) : string :=
    pretty_finish (fold_left (fun d e => pretty_map_entry (ri_pretty (fst e)) (fv (snd e)) d) (im_iter m) pretty_new).
  Definition rs_pretty (s : rset K) : string :=
    pretty_finish (fold_left (fun d r => pretty_set_entry (r_pretty r) d) (map fst (rs_iter s)) pretty_new).
  Definition is_pretty (s : iset K) : string :=
    pretty_finish (fold_left (fun d r => pretty_set_entry (ri_pretty r) d) (map fst (is_iter s)) pretty_new).
End Pretty.
