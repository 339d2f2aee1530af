(** Model of [RangeSet] (/repo/src/set.rs), function by function.

    [RangeSet<T> { rm: RangeMap<T, ()> }] (set.rs:30-32) is its only field, a
    range map with unit values. *)
From Coq Require Import List Bool.
From Verif Require Import Order Outcome BTree Ranges History MapModel OpsModel.
Import ListNotations.

(** [PartialEq for ()] and [Ord for ()] (core) *)
Definition unit_eqb (_ _ : unit) : bool := true.
Definition unit_cmp (_ _ : unit) : comparison := Eq.

(** [RangeSet] set.rs:30-32 *)
Definition rset (K : Type) : Type := rmap K unit.

Section Model.
  Context {K : Type} (cmp : K -> K -> comparison).

  (** [new] set.rs:57-72, [Default] 34-40 *)
  Definition rs_new : rset K := rm_new.
  (** [get] set.rs:75-77 *)
  Definition rs_get (s : rset K) (value : K) : outcome (option (range K)) :=
    omap (option_map fst) (rm_get_key_value cmp s value).
  (** [contains] set.rs:80-82 *)
  Definition rs_contains (s : rset K) (value : K) : outcome bool := rm_contains_key cmp s value.

  (** [Iter] set.rs:193-216 and [IntoIter] 224-252: the inner map iterator with
      the unit value projected away *)
  Definition rs_iter_next (i : list (range K * unit)) : option (range K) * list (range K * unit) :=
    let (o, i') := it_next i in (option_map fst o, i').
  Definition rs_iter_next_back (i : list (range K * unit)) : option (range K) * list (range K * unit) :=
    let (o, i') := it_next_back i in (option_map fst o, i').
  Definition rs_iter_size_hint (i : list (range K * unit)) : nat * option nat := it_size_hint i.
  (** [iter] set.rs:86-90, [into_iter] 231-235 *)
  Definition rs_iter (s : rset K) : list (range K * unit) := rm_iter s.
  Definition rs_into_iter (s : rset K) : list (range K * unit) := rm_into_iter s.

  (** [clear] set.rs:93-95 *)
  Definition rs_clear : M (rset K) unit := rm_clear.
  (** [len] set.rs:98-100, [is_empty] 103-105 *)
  Definition rs_len (s : rset K) : nat := rm_len s.
  Definition rs_is_empty (s : rset K) : bool := rm_is_empty s.

  (** [insert] set.rs:126-128, [remove] 139-141 *)
  Definition rs_insert (r : range K) : M (rset K) unit := rm_insert cmp unit_eqb r tt.
  Definition rs_remove (r : range K) : M (rset K) unit := rm_remove cmp r.

  (** [gaps] set.rs:152-156; [Gaps::next] 375-377 is the inner [next] *)
  Definition rs_gaps (s : rset K) (outer : range K) : outcome (gaps K unit) := rm_gaps cmp s outer.
  Definition rs_gaps_next : gaps K unit -> option (range K) * gaps K unit := gp_next cmp.
  (** [overlapping] set.rs:162-166; [Overlapping] 387-415 *)
  Definition rs_overlapping (s : rset K) (q : range K) : outcome (overlapping K unit) :=
    rm_overlapping cmp s q.
  Definition rs_ov_next (o : overlapping K unit) : option (range K) * overlapping K unit :=
    let (e, o') := ov_next cmp o in (option_map fst e, o').
  Definition rs_ov_next_back (o : overlapping K unit) : option (range K) * overlapping K unit :=
    let (e, o') := ov_next_back cmp o in (option_map fst e, o').
  (** [overlaps] set.rs:170-172 *)
  Definition rs_overlaps (s : rset K) (q : range K) : outcome bool :=
    omap (fun o => match fst (rs_ov_next o) with Some _ => true | None => false end)
         (rs_overlapping s q).
  (** [first] set.rs:176-178, [last] 182-184 *)
  Definition rs_first (s : rset K) : option (range K) := option_map fst (rm_first_range_value s).
  Definition rs_last (s : rset K) : option (range K) := option_map fst (rm_last_range_value s).

  (** [Extend] set.rs:281-285, [FromIterator] 270-274 *)
  Definition rs_extend (l : list (range K)) : M (rset K) unit := for_each rs_insert l.
  Definition rs_from_iter (l : list (range K)) : outcome (rset K) :=
    match rs_extend l rs_new with
    | (Ret _, s) => Ret s
    | (Panicked p, _) => Panicked p
    | (OutOfFuel, _) => OutOfFuel
    end.
  (** [From<[Range<T>; N]>] set.rs:433-441 and the [range_set!] macro 452-456 *)
  Fixpoint rs_from_array_loop (l : list (range K)) : M (rset K) unit :=
    match l with
    | [] => ret tt
    | r :: l' => (rs_insert r ;;; rs_from_array_loop l')%M
    end.
  Definition rs_from_array (l : list (range K)) : outcome (rset K) :=
    match rs_from_array_loop l rs_new with
    | (Ret _, s) => Ret s
    | (Panicked p, _) => Panicked p
    | (OutOfFuel, _) => OutOfFuel
    end.
  (** [Arbitrary] set.rs:42-52 *)
  Definition rs_arbitrary (l : list (range K * unit)) : outcome (rset K) := rm_arbitrary cmp unit_eqb l.

  (** [Serialize] set.rs:293-303: announced length and elements *)
  Definition rs_serialize (s : rset K) : option nat * list (K * K) :=
    (Some (length s), map (fun e => (r_start (fst e), r_end (fst e))) (rs_iter s)).
  (** [Deserialize] set.rs:307-354 *)
  Fixpoint rs_visit_seq {E} (l : list (E + K * K)) : M (rset K) (E + unit) :=
    match l with
    | [] => ret (inr tt)
    | inl err :: _ => ret (inl err)
    | inr (s, e) :: l' => (rs_insert (mkR s e) ;;; rs_visit_seq l')%M
    end.
  Definition rs_deserialize {E} (l : list (E + K * K)) : outcome (E + rset K) :=
    match rs_visit_seq l rs_new with
    | (Ret (inr _), m) => Ret (inr m)
    | (Ret (inl err), _) => Ret (inl err)
    | (Panicked p, _) => Panicked p
    | (OutOfFuel, _) => OutOfFuel
    end.

  (** [union] set.rs:113-115, [intersection] 108-110, and the [next] of the
      iterators (set.rs:17-21 instantiates operations.rs) *)
  Notation pair := (pair_iter (range K) (list (range K * unit))).
  Definition rs_union (a b : rset K) : pair := op_new (rs_iter a) (rs_iter b).
  Definition rs_intersection (a b : rset K) : pair := op_new (rs_iter a) (rs_iter b).
  Definition rs_union_next : M pair (option (range K)) :=
    un_next rs_iter_next (@length _) (r_order_start cmp) (r_merge cmp).
  Definition rs_intersection_next : M pair (option (range K)) :=
    in_next rs_iter_next (@length _) (r_order_end cmp) (r_intersect cmp).
  (** [BitOr] set.rs:425-431, [BitAnd] 417-423: [collect] drains the iterator
      into [from_iter].  The code interleaves draining and inserting; the two do
      not share state.  Both loops get fuel for all stored ranges. *)
  Definition rs_bitor (a b : rset K) : outcome (rset K) :=
    obind (fst (drain rs_union_next (rs_len a + rs_len b + 1) (rs_union a b))) rs_from_iter.
  Definition rs_bitand (a b : rset K) : outcome (rset K) :=
    obind (fst (drain rs_intersection_next (rs_len a + rs_len b + 1) (rs_intersection a b)))
          rs_from_iter.

  (** Executing a history of calls from the empty set. *)
  Definition rs_exec (o : sop (range K)) : M (rset K) unit :=
    match o with
    | SInsert r => rs_insert r
    | SRemove r => rs_remove r
    | SClear => rs_clear
    | SExtend l => rs_extend l
    end.
  Definition rs_run (ops : list (sop (range K))) : rset K := run_ops rs_exec ops rs_new.

  (** Evaluating a program that combines sets; a call that panics is caught. *)
  Fixpoint rs_eval (x : sexp (range K)) : outcome (rset K) :=
    match x with
    | XNew => Ret rs_new
    | XOp y o => omap (fun s => snd (rs_exec o s)) (rs_eval y)
    | XOr y z => obind (rs_eval y) (fun a => obind (rs_eval z) (fun b => rs_bitor a b))
    | XAnd y z => obind (rs_eval y) (fun a => obind (rs_eval z) (fun b => rs_bitand a b))
    end.

  (** [derive(Hash, Eq, PartialEq, PartialOrd, Ord)] set.rs:23 on the only field *)
  Definition rs_eqb (a b : rset K) : bool := rm_eqb cmp unit_eqb a b.
  Definition rs_cmp (a b : rset K) : comparison := rm_cmp cmp unit_cmp a b.
  Definition rs_partial_cmp (pcmp : K -> K -> option comparison) (a b : rset K) : option comparison :=
    rm_partial_cmp pcmp (fun x y => Some (unit_cmp x y)) a b.
  Definition rs_hash {T} (hk : K -> list T) (s : rset K) : list (hwrite T) :=
    rm_hash hk (fun _ => []) s.
End Model.
