(** What an update leaves, entry by entry.  Specification only: nothing here refers
    to the model. *)
From Coq Require Import List Bool.
From Verif Require Import Order Ranges History.
Import ListNotations.

Section HalfOpen.
  Context {K V : Type} (cmp : K -> K -> comparison) (veqb : V -> V -> bool).
  Notation entry := (range K * V)%type.
  Notation st e := (r_start (fst e)).
  Notation en e := (r_end (fst e)).

  (** What of an entry lies before [x], or at or after [x]. *)
  Definition part_before (x : K) (e : entry) : list entry :=
    if ltb cmp (st e) x
    then [if leb cmp (en e) x then e else (mkR (st e) x, snd e)] else [].
  Definition part_from (x : K) (e : entry) : list entry :=
    if ltb cmp x (en e)
    then [if leb cmp x (st e) then e else (mkR x (en e), snd e)] else [].

  (** The entries a new entry [r -> v] is joined with: equal value, overlapping or touching. *)
  Definition joins (r : range K) (v : V) (e : entry) : bool :=
    veqb (snd e) v && leb cmp (r_start r) (en e) && leb cmp (st e) (r_end r).
  (** [r] widened to take in the entries [js], in ascending order. *)
  Definition widened (r : range K) (js : list entry) : range K :=
    mkR (match js with [] => r_start r | e :: _ => kmin cmp (r_start r) (st e) end)
        (match rev js with [] => r_end r | e :: _ => kmax cmp (r_end r) (en e) end).

  Definition put_entries (r : range K) (v : V) (l : list entry) : list entry :=
    let others := filter (fun e => negb (joins r v e)) l in
    flat_map (part_before (r_start r)) others ++
    (widened r (filter (joins r v) l), v) ::
    flat_map (part_from (r_end r)) others.
  Definition del_entries (r : range K) (l : list entry) : list entry :=
    flat_map (part_before (r_start r)) l ++ flat_map (part_from (r_end r)) l.
End HalfOpen.

Section Inclusive.
  Context {K V : Type} (cmp : K -> K -> comparison) (veqb : V -> V -> bool) (st : stepfns K).
  Notation entry := (rangei K * V)%type.
  Notation sti e := (ri_start (fst e)).
  Notation eni e := (ri_end (fst e)).

  (** The neighbouring keys ([x] itself where there is none). *)
  Definition key_after (x : K) : K := match add_one st x with Some s => s | None => x end.
  Definition key_before (x : K) : K := match sub_one st x with Some p => p | None => x end.

  (** What of an entry lies before [x], or after [x]. *)
  Definition part_beforei (x : K) (e : entry) : list entry :=
    if ltb cmp (sti e) x
    then [if ltb cmp (eni e) x then e else (mkRI (sti e) (key_before x) false, snd e)] else [].
  Definition part_afteri (x : K) (e : entry) : list entry :=
    if ltb cmp x (eni e)
    then [if ltb cmp x (sti e) then e else (mkRI (key_after x) (eni e) false, snd e)] else [].

  (** No key lies strictly between [a] and [b]. *)
  Definition reaches (a b : K) : bool := leb cmp b a || leb cmp b (key_after a).
  Definition joinsi (r : rangei K) (v : V) (e : entry) : bool :=
    veqb (snd e) v && reaches (eni e) (ri_start r) && reaches (ri_end r) (sti e).
  (** [r] widened to take in [js]; a fresh range unless there are none. *)
  Definition widenedi (r : rangei K) (js : list entry) : rangei K :=
    mkRI (match js with [] => ri_start r | e :: _ => kmin cmp (ri_start r) (sti e) end)
         (match rev js with [] => ri_end r | e :: _ => kmax cmp (ri_end r) (eni e) end)
         (match js with [] => ri_exhausted r | _ => false end).

  Definition puti_entries (r : rangei K) (v : V) (l : list entry) : list entry :=
    let others := filter (fun e => negb (joinsi r v e)) l in
    flat_map (part_beforei (ri_start r)) others ++
    (widenedi r (filter (joinsi r v) l), v) ::
    flat_map (part_afteri (ri_end r)) others.
  Definition deli_entries (r : rangei K) (l : list entry) : list entry :=
    flat_map (part_beforei (ri_start r)) l ++ flat_map (part_afteri (ri_end r)) l.
End Inclusive.

(** The entries after a history; a call with an invalid range changes nothing,
    [extend] stops at the first invalid range. *)
Section Histories.
  Context {R V : Type} (valid : R -> bool).
  Context (puts : R -> V -> list (R * V) -> list (R * V)) (dels : R -> list (R * V) -> list (R * V)).
  Fixpoint put_each (l : list (R * V)) (s : list (R * V)) : list (R * V) :=
    match l with
    | [] => s
    | (r, v) :: l' => if valid r then put_each l' (puts r v s) else s
    end.
  Definition entries_op (s : list (R * V)) (o : op R V) : list (R * V) :=
    match o with
    | OInsert r v => if valid r then puts r v s else s
    | ORemove r => if valid r then dels r s else s
    | OClear => []
    | OExtend l => put_each l s
    end.
  Definition entries_run (ops : list (op R V)) : list (R * V) := fold_left entries_op ops [].
End Histories.
