(** Model of [RangeInclusiveSet] (/repo/src/inclusive_set.rs), function by function.

    [RangeInclusiveSet<T, StepFnsT> { rm: RangeInclusiveMap<T, (), StepFnsT> }]
    (inclusive_set.rs:30-32) is its only field. *)
From Coq Require Import List Bool.
From Verif Require Import Order Outcome BTree Ranges History MapModel IMapModel OpsModel SetModel.
Import ListNotations.

Definition iset (K : Type) : Type := imap K unit.

Section Model.
  Context {K : Type} (cmp : K -> K -> comparison) (st : stepfns K).

  (** constructors inclusive_set.rs:58-102, [Default] 34-40 *)
  Definition is_new : iset K := im_new.
  (** [get] inclusive_set.rs:105-107 *)
  Definition is_get (s : iset K) (value : K) : outcome (option (rangei K)) :=
    omap (option_map fst) (im_get_key_value cmp s value).
  (** [contains] inclusive_set.rs:110-112 *)
  Definition is_contains (s : iset K) (value : K) : outcome bool := im_contains_key cmp s value.

  (** [Iter] inclusive_set.rs:219-242 and [IntoIter] 250-278 *)
  Definition is_iter_next (i : list (rangei K * unit)) : option (rangei K) * list (rangei K * unit) :=
    let (o, i') := it_next i in (option_map fst o, i').
  Definition is_iter_next_back (i : list (rangei K * unit)) : option (rangei K) * list (rangei K * unit) :=
    let (o, i') := it_next_back i in (option_map fst o, i').
  Definition is_iter_size_hint (i : list (rangei K * unit)) : nat * option nat := it_size_hint i.
  (** [iter] inclusive_set.rs:116-120, [into_iter] 257-261 *)
  Definition is_iter (s : iset K) : list (rangei K * unit) := im_iter s.
  Definition is_into_iter (s : iset K) : list (rangei K * unit) := im_into_iter s.

  (** [clear] inclusive_set.rs:123-125 *)
  Definition is_clear : M (iset K) unit := im_clear.
  (** [len] inclusive_set.rs:128-130, [is_empty] 133-135 *)
  Definition is_len (s : iset K) : nat := im_len s.
  Definition is_is_empty (s : iset K) : bool := im_is_empty s.

  (** [insert] inclusive_set.rs:146-148, [remove] 159-161 *)
  Definition is_insert (r : rangei K) : M (iset K) unit := im_insert cmp unit_eqb st r tt.
  Definition is_remove (r : rangei K) : M (iset K) unit := im_remove cmp st r.

  (** [gaps] inclusive_set.rs:168-172; [Gaps::next] 407-409 is the inner [next] *)
  Definition is_gaps (s : iset K) (outer : rangei K) : outcome (gapsi K unit) := im_gaps cmp s outer.
  Definition is_gaps_next : M (gapsi K unit) (option (rangei K)) := gpi_next cmp st.
  (** [overlapping] inclusive_set.rs:178-182; [Overlapping] 419-447 *)
  Definition is_overlapping (s : iset K) (q : rangei K) : outcome (overlappingi K unit) :=
    im_overlapping cmp s q.
  Definition is_ov_next (o : overlappingi K unit) : option (rangei K) * overlappingi K unit :=
    let (e, o') := ovi_next cmp o in (option_map fst e, o').
  Definition is_ov_next_back (o : overlappingi K unit) : option (rangei K) * overlappingi K unit :=
    let (e, o') := ovi_next_back cmp o in (option_map fst e, o').
  (** [overlaps] inclusive_set.rs:186-188 *)
  Definition is_overlaps (s : iset K) (q : rangei K) : outcome bool :=
    omap (fun o => match fst (is_ov_next o) with Some _ => true | None => false end)
         (is_overlapping s q).
  (** [first] inclusive_set.rs:192-194, [last] 198-200 *)
  Definition is_first (s : iset K) : option (rangei K) := option_map fst (im_first_range_value s).
  Definition is_last (s : iset K) : option (rangei K) := option_map fst (im_last_range_value s).

  (** [Extend] inclusive_set.rs:307-311, [FromIterator] 296-300 *)
  Definition is_extend (l : list (rangei K)) : M (iset K) unit := for_each is_insert l.
  Definition is_from_iter (l : list (rangei K)) : outcome (iset K) :=
    match is_extend l is_new with
    | (Ret _, s) => Ret s
    | (Panicked p, _) => Panicked p
    | (OutOfFuel, _) => OutOfFuel
    end.
  (** [From<[RangeInclusive<T>; N]>] inclusive_set.rs:449-459 and the
      [range_inclusive_set!] macro 470-474 *)
  Fixpoint is_from_array_loop (l : list (rangei K)) : M (iset K) unit :=
    match l with
    | [] => ret tt
    | r :: l' => (is_insert r ;;; is_from_array_loop l')%M
    end.
  Definition is_from_array (l : list (rangei K)) : outcome (iset K) :=
    match is_from_array_loop l is_new with
    | (Ret _, s) => Ret s
    | (Panicked p, _) => Panicked p
    | (OutOfFuel, _) => OutOfFuel
    end.
  (** [Arbitrary] inclusive_set.rs:42-52 *)
  Definition is_arbitrary (l : list (rangei K * unit)) : outcome (iset K) :=
    im_arbitrary cmp unit_eqb st l.

  (** [Serialize] inclusive_set.rs:319-329: announced length and elements *)
  Definition is_serialize (s : iset K) : option nat * list (K * K) :=
    (Some (length s), map (fun e => (ri_start (fst e), ri_end (fst e))) (is_iter s)).
  (** [Deserialize] inclusive_set.rs:333-380 *)
  Fixpoint is_visit_seq {E} (l : list (E + K * K)) : M (iset K) (E + unit) :=
    match l with
    | [] => ret (inr tt)
    | inl err :: _ => ret (inl err)
    | inr (s, e) :: l' => (is_insert (incl s e) ;;; is_visit_seq l')%M
    end.
  Definition is_deserialize {E} (l : list (E + K * K)) : outcome (E + iset K) :=
    match is_visit_seq l is_new with
    | (Ret (inr _), m) => Ret (inr m)
    | (Ret (inl err), _) => Ret (inl err)
    | (Panicked p, _) => Panicked p
    | (OutOfFuel, _) => OutOfFuel
    end.

  (** [union] inclusive_set.rs:203-205, [intersection] 208-210, and the [next] of
      the iterators (inclusive_set.rs:17-21 instantiates operations.rs) *)
  Notation pair := (pair_iter (rangei K) (list (rangei K * unit))).
  Definition is_union (a b : iset K) : pair := op_new (is_iter a) (is_iter b).
  Definition is_intersection (a b : iset K) : pair := op_new (is_iter a) (is_iter b).
  Definition is_union_next : M pair (option (rangei K)) :=
    un_next is_iter_next (@length _) (ri_order_start cmp) (ri_merge cmp).
  Definition is_intersection_next : M pair (option (rangei K)) :=
    in_next is_iter_next (@length _) (ri_order_end cmp) (ri_intersect cmp).
  (** [BitOr] inclusive_set.rs:484-490, [BitAnd] 476-482; see SetModel.v *)
  Definition is_bitor (a b : iset K) : outcome (iset K) :=
    obind (fst (drain is_union_next (is_len a + is_len b + 1) (is_union a b))) is_from_iter.
  Definition is_bitand (a b : iset K) : outcome (iset K) :=
    obind (fst (drain is_intersection_next (is_len a + is_len b + 1) (is_intersection a b)))
          is_from_iter.

  (** Executing a history of calls from the empty set. *)
  Definition is_exec (o : sop (rangei K)) : M (iset K) unit :=
    match o with
    | SInsert r => is_insert r
    | SRemove r => is_remove r
    | SClear => is_clear
    | SExtend l => is_extend l
    end.
  Definition is_run (ops : list (sop (rangei K))) : iset K := run_ops is_exec ops is_new.

  (** Evaluating a program that combines sets; a call that panics is caught. *)
  Fixpoint is_eval (x : sexp (rangei K)) : outcome (iset K) :=
    match x with
    | XNew => Ret is_new
    | XOp y o => omap (fun s => snd (is_exec o s)) (is_eval y)
    | XOr y z => obind (is_eval y) (fun a => obind (is_eval z) (fun b => is_bitor a b))
    | XAnd y z => obind (is_eval y) (fun a => obind (is_eval z) (fun b => is_bitand a b))
    end.

  (** [derive(Hash, Eq, PartialEq, PartialOrd, Ord)] inclusive_set.rs:23 *)
  Definition is_eqb (a b : iset K) : bool := im_eqb cmp unit_eqb a b.
  Definition is_cmp (a b : iset K) : comparison := im_cmp cmp unit_cmp a b.
  Definition is_partial_cmp (pcmp : K -> K -> option comparison) (a b : iset K) : option comparison :=
    im_partial_cmp pcmp (fun x y => Some (unit_cmp x y)) a b.
  Definition is_hash {T} (hk : K -> list T) (hb : bool -> list T) (s : iset K) : list (hwrite T) :=
    im_hash hk hb (fun _ => []) s.
End Model.
