(** Model of [RangeMap] (/repo/src/map.rs), function by function.

    [RangeMap<K, V> { btm: BTreeMap<RangeStartWrapper<K>, V> }] (map.rs:26-31)
    is the list of its entries in iteration order.  [RangeStartWrapper] and
    [RangeEndWrapper] are newtypes around the range whose only effect is the
    ordering used (range_wrapper.rs), so entries are keyed by [range K] and the
    ordering is an explicit argument: [cmp_start] everywhere except in
    [overlapping], which searches with [cmp_end] through [Borrow]. *)
From Coq Require Import List Bool.
From Verif Require Import Order Outcome BTree Ranges History.
Import ListNotations.

Definition rmap (K V : Type) : Type := list (range K * V).

Section Model.
  Context {K V : Type} (cmp : K -> K -> comparison) (veqb : V -> V -> bool).

  Notation ltb := (ltb cmp).
  Notation gtb := (gtb cmp).
  Notation eqb := (eqb cmp).
  Notation c_start := (cmp_start cmp).
  Notation c_end := (cmp_end cmp).

  (** [new] map.rs:102-116, [Default] map.rs:33-39 *)
  Definition rm_new : rmap K V := [].
  (** [iter] map.rs:122-126 and [Iter] 529-557; [into_iter] 571-599.  The
      iterator is the list of remaining entries ([it_next], [it_next_back]). *)
  Definition rm_iter (m : rmap K V) : list (range K * V) := m.
  Definition rm_into_iter (m : rmap K V) : list (range K * V) := m.
  (** [clear] map.rs:129-131 *)
  Definition rm_clear : M (rmap K V) unit := modify (fun _ => []).
  (** [len] map.rs:134-136 *)
  Definition rm_len (m : rmap K V) : nat := length m.
  (** [is_empty] map.rs:139-141 *)
  Definition rm_is_empty (m : rmap K V) : bool := match m with [] => true | _ => false end.
  (** [expanded_iter] map.rs:146-148 *)
  Definition rm_expanded_iter (m : rmap K V) : list (K * K * V) :=
    map (fun e => (r_start (fst e), r_end (fst e), snd e)) m.

  (** [get_key_value] map.rs:163-176 *)
  Definition rm_get_key_value (m : rmap K V) (key : K) : outcome (option (range K * V)) :=
    let key_as_start := mkR key key in
    obind (bt_range c_start Unbounded (Included key_as_start) m) (fun l =>
      Ret (match last_opt l with
           | Some e => if r_contains cmp (fst e) key then Some e else None
           | None => None
           end)).
  (** [get] map.rs:157-159 *)
  Definition rm_get (m : rmap K V) (key : K) : outcome (option V) :=
    omap (option_map snd) (rm_get_key_value m key).
  (** [contains_key] map.rs:179-181 *)
  Definition rm_contains_key (m : rmap K V) (key : K) : outcome bool :=
    omap (fun o => match o with Some _ => true | None => false end) (rm_get m key).

  (** [Overlapping] map.rs:773-776 *)
  Record overlapping : Type := mkOverlapping {
    ov_query : range K;
    ov_iter : list (range K * V)
  }.
  (** [overlapping] map.rs:203-218 *)
  Definition rm_overlapping (m : rmap K V) (q : range K) : outcome overlapping :=
    let start_sliver := mkR (r_start q) (r_start q) in
    obind (bt_range c_end (Excluded start_sliver) Unbounded m) (fun l =>
      Ret (mkOverlapping q l)).
  (** [Iterator for Overlapping] map.rs:790-804 *)
  Definition ov_next (o : overlapping) : option (range K * V) * overlapping :=
    match it_next (ov_iter o) with
    | (Some e, l) =>
        (if ltb (r_start (fst e)) (r_end (ov_query o)) then Some e else None,
         mkOverlapping (ov_query o) l)
    | (None, l) => (None, mkOverlapping (ov_query o) l)
    end.
  (** [DoubleEndedIterator for Overlapping] map.rs:811-819; the [while let]
      loop consumes one item of the underlying iterator per turn. *)
  Fixpoint ov_back_loop (q : range K) (rl : list (range K * V))
    : option (range K * V) * list (range K * V) :=
    match rl with
    | [] => (None, [])
    | e :: rl' => if ltb (r_start (fst e)) (r_end q) then (Some e, rl')
                  else ov_back_loop q rl'
    end.
  Definition ov_next_back (o : overlapping) : option (range K * V) * overlapping :=
    let (r, rl) := ov_back_loop (ov_query o) (rev (ov_iter o)) in
    (r, mkOverlapping (ov_query o) (rev rl)).
  (** [overlaps] map.rs:222-224 *)
  Definition rm_overlaps (m : rmap K V) (q : range K) : outcome bool :=
    omap (fun o => match fst (ov_next o) with Some _ => true | None => false end)
         (rm_overlapping m q).

  (** [first_range_value] map.rs:228-232, [last_range_value] map.rs:236-240 *)
  Definition rm_first_range_value (m : rmap K V) : option (range K * V) := first_opt m.
  Definition rm_last_range_value (m : rmap K V) : option (range K * V) := last_opt m.

  (** [Gaps] map.rs:713-717 *)
  Record gaps : Type := mkGaps {
    gp_candidate_start : K;
    gp_query_end : K;
    gp_iter : list (range K * V)
  }.
  (** [gaps] map.rs:192-199 *)
  Definition rm_gaps (m : rmap K V) (outer : range K) : outcome gaps :=
    omap (fun o => mkGaps (r_start outer) (r_end outer) (ov_iter o))
         (rm_overlapping m outer).
  (** the [for overlap in ... by_ref()] loop of [Gaps::next] map.rs:730-750:
      returns the early-returned gap if any, the candidate start and the rest *)
  Fixpoint gp_loop (cand qend : K) (l : list (range K * V))
    : option (range K) * K * list (range K * V) :=
    match l with
    | [] => (None, cand, [])
    | (o, _) :: l' =>
        if leb cmp qend (r_start o) then (None, cand, l')            (* break *)
        else
          if ltb cand (r_start o)
          then (Some (mkR cand (r_start o)), r_end o, l')            (* return *)
          else gp_loop (r_end o) qend l'
    end.
  (** [Gaps::next] map.rs:728-761 *)
  Definition gp_next (g : gaps) : option (range K) * gaps :=
    match gp_loop (gp_candidate_start g) (gp_query_end g) (gp_iter g) with
    | (Some gap, cand, l) => (Some gap, mkGaps cand (gp_query_end g) l)
    | (None, cand, l) =>
        if ltb cand (gp_query_end g)
        then (Some (mkR cand (gp_query_end g)), mkGaps (gp_query_end g) (gp_query_end g) l)
        else (None, mkGaps cand (gp_query_end g) l)
    end.

  (** [adjust_touching_ranges_for_insert] map.rs:439-488.  The [&mut Range]
      argument becomes the returned range. *)
  Definition rm_adjust_touching_ranges_for_insert
      (stored : range K) (stored_value : V) (new_range : range K) (new_value : V)
    : M (rmap K V) (range K) :=
    (if veqb stored_value new_value then
       let new_range' := mkR (kmin cmp (r_start new_range) (r_start stored))
                             (kmax cmp (r_end new_range) (r_end stored)) in
       modify (bt_remove c_start stored) ;;;
       ret new_range'
     else
       if r_overlaps cmp new_range stored then
         modify (bt_remove c_start stored) ;;;
         (if ltb (r_start stored) (r_start new_range)
          then modify (bt_insert c_start (mkR (r_start stored) (r_start new_range)) stored_value)
          else ret tt) ;;;
         (if gtb (r_end stored) (r_end new_range)
          then modify (bt_insert c_start (mkR (r_end new_range) (r_end stored)) stored_value)
          else ret tt) ;;;
         ret new_range
       else ret new_range)%M.

  (** the [while let] loop of [insert] map.rs:326-359 *)
  Fixpoint rm_insert_loop (fuel : nat) (new_start_wrapper : range K) (new_value : V)
      (new_range_end_as_start : range K) : M (rmap K V) (range K) :=
    match fuel with
    | O => nofuel
    | S fuel' =>
        (m <- get ;;
         l <- lift (bt_range c_start (Included new_start_wrapper)
                                     (Included new_range_end_as_start) m) ;;
         match fst (it_next l) with
         | None => ret new_start_wrapper
         | Some (stored, stored_value) =>
             if eqb (r_start stored) (r_end new_start_wrapper)
                && negb (veqb stored_value new_value)
             then ret new_start_wrapper                              (* break *)
             else
               new' <- rm_adjust_touching_ranges_for_insert
                         stored stored_value new_start_wrapper new_value ;;
               rm_insert_loop fuel' new' new_value new_range_end_as_start
         end)%M
    end.

  (** [insert] map.rs:261-363.  The loop gets [length m + 2] fuel, where [m] is
      the map when the loop is entered; it is proved never to run out. *)
  Definition rm_insert (r : range K) (new_value : V) : M (rmap K V) unit :=
    (assert_ (ltb (r_start r) (r_end r)) ;;;
     m <- get ;;
     before <- lift (bt_range c_start Unbounded (Included r) m) ;;
     new1 <- match filter (fun e => r_touches cmp (fst e) r) (firstn 2 (rev before)) with
             | [] => ret r
             | [(s, sv)] => rm_adjust_touching_ranges_for_insert s sv r new_value
             | _ :: (s, sv) :: _ => rm_adjust_touching_ranges_for_insert s sv r new_value
             end ;;
     m1 <- get ;;
     new2 <- rm_insert_loop (length m1 + 2) new1 new_value (mkR (r_end new1) (r_end new1)) ;;
     modify (bt_insert c_start new2 new_value))%M.

  (** [adjust_overlapping_ranges_for_remove] map.rs:490-514 *)
  Definition rm_adjust_overlapping_ranges_for_remove
      (stored : range K) (stored_value : V) (range_to_remove : range K)
    : M (rmap K V) unit :=
    (modify (bt_remove c_start stored) ;;;
     (if ltb (r_start stored) (r_start range_to_remove)
      then modify (bt_insert c_start (mkR (r_start stored) (r_start range_to_remove)) stored_value)
      else ret tt) ;;;
     (if gtb (r_end stored) (r_end range_to_remove)
      then modify (bt_insert c_start (mkR (r_end range_to_remove) (r_end stored)) stored_value)
      else ret tt))%M.

  (** the [while let] loop of [remove] map.rs:420-436 *)
  Fixpoint rm_remove_loop (fuel : nat) (r : range K) (new_range_end_as_start : range K)
    : M (rmap K V) unit :=
    match fuel with
    | O => nofuel
    | S fuel' =>
        (m <- get ;;
         l <- lift (bt_range c_start (Excluded r) (Excluded new_range_end_as_start) m) ;;
         match fst (it_next l) with
         | None => ret tt
         | Some (stored, stored_value) =>
             rm_adjust_overlapping_ranges_for_remove stored stored_value r ;;;
             rm_remove_loop fuel' r new_range_end_as_start
         end)%M
    end.

  (** [remove] map.rs:375-437 *)
  Definition rm_remove (r : range K) : M (rmap K V) unit :=
    (assert_ (ltb (r_start r) (r_end r)) ;;;
     m <- get ;;
     before <- lift (bt_range c_start Unbounded (Included r) m) ;;
     match last_opt before with
     | Some (s, sv) =>
         if r_overlaps cmp s r
         then rm_adjust_overlapping_ranges_for_remove s sv r
         else ret tt
     | None => ret tt
     end ;;;
     m1 <- get ;;
     rm_remove_loop (length m1 + 1) r (mkR (r_end r) (r_end r)))%M.

  (** [Extend::extend] map.rs:627-631 *)
  Definition rm_extend (l : list (range K * V)) : M (rmap K V) unit :=
    for_each (fun e => rm_insert (fst e) (snd e)) l.
  (** [FromIterator::from_iter] map.rs:615-619 *)
  Definition rm_from_iter (l : list (range K * V)) : outcome (rmap K V) :=
    match rm_extend l rm_new with
    | (Ret _, m) => Ret m
    | (Panicked p, _) => Panicked p
    | (OutOfFuel, _) => OutOfFuel
    end.
  (** [From<[(Range<K>, V); N]>] map.rs:825-831, and the [range_map!] macro
      map.rs:847-851 which expands to it: a [for] loop of inserts. *)
  Fixpoint rm_from_array_loop (l : list (range K * V)) : M (rmap K V) unit :=
    match l with
    | [] => ret tt
    | (r, v) :: l' => (rm_insert r v ;;; rm_from_array_loop l')%M
    end.
  Definition rm_from_array (l : list (range K * V)) : outcome (rmap K V) :=
    match rm_from_array_loop l rm_new with
    | (Ret _, m) => Ret m
    | (Panicked p, _) => Panicked p
    | (OutOfFuel, _) => OutOfFuel
    end.
  (** [quickcheck::Arbitrary::arbitrary] map.rs:92-98, as a function of the
      generated vector. *)
  Definition rm_arbitrary (l : list (range K * V)) : outcome (rmap K V) :=
    rm_from_iter (filter (fun e => negb (r_is_empty cmp (fst e))) l).

  (** [Serialize] map.rs:640-650: the announced length and the elements. *)
  Definition rm_serialize (m : rmap K V) : option nat * list ((K * K) * V) :=
    (Some (length m), map (fun e => ((r_start (fst e), r_end (fst e)), snd e)) (rm_iter m)).
  (** [Deserialize] map.rs:659-703.  The input is the sequence of results of
      [access.next_element()?]: an element or a deserialiser error [E]. *)
  Fixpoint rm_visit_seq {E} (l : list (E + (K * K) * V)) : M (rmap K V) (E + unit) :=
    match l with
    | [] => ret (inr tt)
    | inl err :: _ => ret (inl err)
    | inr ((s, e), v) :: l' => (rm_insert (mkR s e) v ;;; rm_visit_seq l')%M
    end.
  Definition rm_deserialize {E} (l : list (E + (K * K) * V)) : outcome (E + rmap K V) :=
    match rm_visit_seq l rm_new with
    | (Ret (inr _), m) => Ret (inr m)
    | (Ret (inl err), _) => Ret (inl err)
    | (Panicked p, _) => Panicked p
    | (OutOfFuel, _) => OutOfFuel
    end.

  (** Executing a history of calls (History.v) from the empty map. *)
  Definition rm_exec (o : op (range K) V) : M (rmap K V) unit :=
    match o with
    | OInsert r v => rm_insert r v
    | ORemove r => rm_remove r
    | OClear => rm_clear
    | OExtend l => rm_extend l
    end.
  Definition rm_run (ops : list (op (range K) V)) : rmap K V := run_ops rm_exec ops rm_new.

  (** [PartialEq::eq] map.rs:59-61: element-wise over [iter()]. *)
  Fixpoint list_eqb {A} (e : A -> A -> bool) (a b : list A) : bool :=
    match a, b with
    | [], [] => true
    | x :: a', y :: b' => e x y && list_eqb e a' b'
    | _, _ => false
    end.
  Definition rm_eqb (a b : rmap K V) : bool :=
    list_eqb (fun x y => r_eqb cmp (fst x) (fst y) && veqb (snd x) (snd y))
             (rm_iter a) (rm_iter b).
End Model.

Arguments overlapping : clear implicits.
Arguments gaps : clear implicits.
Arguments mkOverlapping {K V} _ _.
Arguments ov_query {K V} _.
Arguments ov_iter {K V} _.
Arguments mkGaps {K V} _ _ _.
Arguments gp_candidate_start {K V} _.
Arguments gp_query_end {K V} _.
Arguments gp_iter {K V} _.

(** [Iterator::cmp] / [Iterator::partial_cmp] (core): lexicographic. *)
Fixpoint lex_cmp {A} (c : A -> A -> comparison) (a b : list A) : comparison :=
  match a, b with
  | [], [] => Eq
  | [], _ :: _ => Lt
  | _ :: _, [] => Gt
  | x :: a', y :: b' => match c x y with Eq => lex_cmp c a' b' | o => o end
  end.
Fixpoint lex_pcmp {A} (c : A -> A -> option comparison) (a b : list A) : option comparison :=
  match a, b with
  | [], [] => Some Eq
  | [], _ :: _ => Some Lt
  | _ :: _, [] => Some Gt
  | x :: a', y :: b' => match c x y with Some Eq => lex_pcmp c a' b' | o => o end
  end.
(** [Ord]/[PartialOrd] of the triples [(&K, &K, &V)] (core tuples). *)
Definition triple_cmp {K V} (cmp : K -> K -> comparison) (vcmp : V -> V -> comparison)
    (x y : K * K * V) : comparison :=
  let '(a, b, v) := x in let '(a', b', v') := y in
  match cmp a a' with Eq => match cmp b b' with Eq => vcmp v v' | o => o end | o => o end.
Definition triple_pcmp {K V} (pcmp : K -> K -> option comparison)
    (vpcmp : V -> V -> option comparison) (x y : K * K * V) : option comparison :=
  let '(a, b, v) := x in let '(a', b', v') := y in
  match pcmp a a' with
  | Some Eq => match pcmp b b' with Some Eq => vpcmp v v' | o => o end
  | o => o end.
(** [Ord::cmp] map.rs:81-83, [PartialOrd::partial_cmp] map.rs:70-72 *)
Definition rm_cmp {K V} (cmp : K -> K -> comparison) (vcmp : V -> V -> comparison)
    (a b : rmap K V) : comparison :=
  lex_cmp (triple_cmp cmp vcmp) (rm_expanded_iter a) (rm_expanded_iter b).
Definition rm_partial_cmp {K V} (pcmp : K -> K -> option comparison)
    (vpcmp : V -> V -> option comparison) (a b : rmap K V) : option comparison :=
  lex_pcmp (triple_pcmp pcmp vpcmp) (rm_expanded_iter a) (rm_expanded_iter b).

(** [Hash::hash] map.rs:46-51: what is written to the hasher.  A hasher is any
    consumer of this sequence of writes; [hk]/[hv] are the writes made by the
    [Hash] impls of [K] and [V]; [Range] derives [Hash] (start, then end). *)
Inductive hwrite (T : Type) : Type :=
| HLen (n : nat)       (* write_usize *)
| HUser (t : T).       (* a write made by K's or V's Hash impl *)
Arguments HLen {T} n.
Arguments HUser {T} t.
Definition rm_hash {K V T} (hk : K -> list T) (hv : V -> list T) (m : rmap K V)
  : list (hwrite T) :=
  HLen (length m) ::
  flat_map (fun e => map HUser (hk (r_start (fst e)) ++ hk (r_end (fst e)) ++ hv (snd e)))
           (rm_iter m).
