(** Model of [RangeInclusiveMap] (/repo/src/inclusive_map.rs), function by function.

    [RangeInclusiveMap<K, V, StepFnsT> { btm: BTreeMap<RangeInclusiveStartWrapper<K>, V> }]
    (inclusive_map.rs:37-43) is the list of its entries in iteration order.  The
    wrappers are newtypes whose only effect is the ordering used
    (range_wrapper.rs:129-238), so entries are keyed by [rangei K] and the
    ordering is explicit: [cmpi_start] everywhere except in [overlapping],
    which searches with [cmpi_end].  The type parameter [StepFnsT] is the
    explicit argument [st]; [None] from it is a panic. *)
From Coq Require Import List Bool.
From Verif Require Import Order Outcome BTree Ranges History MapModel.
Import ListNotations.

Definition imap (K V : Type) : Type := list (rangei K * V).

(** [a..=b] *)
Definition incl {K} (a b : K) : rangei K := mkRI a b false.

Section Model.
  Context {K V : Type} (cmp : K -> K -> comparison) (veqb : V -> V -> bool) (st : stepfns K).

  Notation ltb := (ltb cmp).
  Notation leb := (leb cmp).
  Notation gtb := (gtb cmp).
  Notation eqb := (eqb cmp).
  Notation c_start := (cmpi_start cmp).
  Notation c_end := (cmpi_end cmp).

  (** [new] inclusive_map.rs:144-190 (all four constructors), [Default] 45-52 *)
  Definition im_new : imap K V := [].
  (** [iter] inclusive_map.rs:126-130 and [Iter] 618-650; [into_iter] 658-690.
      The iterator is the list of remaining entries. *)
  Definition im_iter (m : imap K V) : list (rangei K * V) := m.
  Definition im_into_iter (m : imap K V) : list (rangei K * V) := m.
  (** [clear] inclusive_map.rs:222-224 *)
  Definition im_clear : M (imap K V) unit := modify (fun _ => []).
  (** [len] inclusive_map.rs:227-229 *)
  Definition im_len (m : imap K V) : nat := length m.
  (** [is_empty] inclusive_map.rs:232-234 *)
  Definition im_is_empty (m : imap K V) : bool := match m with [] => true | _ => false end.
  (** [expanded_iter] inclusive_map.rs:133-135 *)
  Definition im_expanded_iter (m : imap K V) : list (K * K * V) :=
    map (fun e => (ri_start (fst e), ri_end (fst e), snd e)) m.

  (** [get_key_value] inclusive_map.rs:199-214 *)
  Definition im_get_key_value (m : imap K V) (key : K) : outcome (option (rangei K * V)) :=
    let key_as_start := incl key key in
    obind (bt_range c_start Unbounded (Included key_as_start) m) (fun l =>
      Ret (match last_opt l with
           | Some e => if ri_contains cmp (fst e) key then Some e else None
           | None => None
           end)).
  (** [get] inclusive_map.rs:193-195 *)
  Definition im_get (m : imap K V) (key : K) : outcome (option V) :=
    omap (option_map snd) (im_get_key_value m key).
  (** [contains_key] inclusive_map.rs:217-219 *)
  Definition im_contains_key (m : imap K V) (key : K) : outcome bool :=
    omap (fun o => match o with Some _ => true | None => false end) (im_get m key).

  (** [Overlapping] inclusive_map.rs:889-892 *)
  Record overlappingi : Type := mkOverlappingI {
    ovi_query : rangei K;
    ovi_iter : list (rangei K * V)
  }.
  (** [overlapping] inclusive_map.rs:567-585 *)
  Definition im_overlapping (m : imap K V) (q : rangei K) : outcome overlappingi :=
    let start_sliver := incl (ri_start q) (ri_start q) in
    obind (bt_range c_end (Included start_sliver) Unbounded m) (fun l =>
      Ret (mkOverlappingI q l)).
  (** [Iterator for Overlapping] inclusive_map.rs:901-922 *)
  Definition ovi_next (o : overlappingi) : option (rangei K * V) * overlappingi :=
    match it_next (ovi_iter o) with
    | (Some e, l) =>
        (if leb (ri_start (fst e)) (ri_end (ovi_query o)) then Some e else None,
         mkOverlappingI (ovi_query o) l)
    | (None, l) => (None, mkOverlappingI (ovi_query o) l)
    end.
  (** [DoubleEndedIterator for Overlapping] inclusive_map.rs:924-936; the
      [while let] loop consumes one item of the underlying iterator per turn. *)
  Fixpoint ovi_back_loop (q : rangei K) (rl : list (rangei K * V))
    : option (rangei K * V) * list (rangei K * V) :=
    match rl with
    | [] => (None, [])
    | e :: rl' => if leb (ri_start (fst e)) (ri_end q) then (Some e, rl')
                  else ovi_back_loop q rl'
    end.
  Definition ovi_next_back (o : overlappingi) : option (rangei K * V) * overlappingi :=
    let (r, rl) := ovi_back_loop (ovi_query o) (rev (ovi_iter o)) in
    (r, mkOverlappingI (ovi_query o) (rev rl)).
  (** [overlaps] inclusive_map.rs:589-591 *)
  Definition im_overlaps (m : imap K V) (q : rangei K) : outcome bool :=
    omap (fun o => match fst (ovi_next o) with Some _ => true | None => false end)
         (im_overlapping m q).

  (** [first_range_value] inclusive_map.rs:595-599, [last_range_value] 603-607 *)
  Definition im_first_range_value (m : imap K V) : option (rangei K * V) := first_opt m.
  Definition im_last_range_value (m : imap K V) : option (rangei K * V) := last_opt m.

  (** [Gaps] inclusive_map.rs:808-818 *)
  Record gapsi : Type := mkGapsI {
    gpi_needs_plus_one : bool;
    gpi_candidate_start : K;
    gpi_query_end : K;
    gpi_iter : list (rangei K * V)
  }.
  (** [gaps] inclusive_map.rs:551-563 *)
  Definition im_gaps (m : imap K V) (outer : rangei K) : outcome gapsi :=
    omap (fun o => mkGapsI false (ri_start outer) (ri_end outer) (ovi_iter o))
         (im_overlapping m outer).
  (** the [for overlap in ... by_ref()] loop of [Gaps::next]
      inclusive_map.rs:836-861: the early-returned gap if any ([add_one]/[sub_one]
      may panic), and the fields left behind *)
  Fixpoint gpi_loop (needs : bool) (cand qend : K) (l : list (rangei K * V))
    : outcome (option (rangei K)) * bool * K * list (rangei K * V) :=
    match l with
    | [] => (Ret None, needs, cand, [])
    | (o, _) :: l' =>
        if ltb qend (ri_start o) then (Ret None, needs, cand, l')      (* break *)
        else
          match (if needs then step_o (add_one st cand) else Ret cand) with
          | Ret cur =>
              if ltb cur (ri_start o)
              then (omap (fun p => Some (incl cur p)) (step_o (sub_one st (ri_start o))),
                    true, ri_end o, l')                                (* return *)
              else gpi_loop true (ri_end o) qend l'
          | Panicked p => (Panicked p, true, ri_end o, l')
          | OutOfFuel => (OutOfFuel, true, ri_end o, l')
          end
    end.
  (** [Gaps::next] inclusive_map.rs:835-878 *)
  Definition gpi_next : M gapsi (option (rangei K)) := fun g =>
    let qend := gpi_query_end g in
    match gpi_loop (gpi_needs_plus_one g) (gpi_candidate_start g) qend (gpi_iter g) with
    | (Ret None, needs, cand, l) =>
        let g' := mkGapsI true qend qend l in
        if needs then
          if ltb cand qend
          then (omap (fun s => Some (incl s qend)) (step_o (add_one st cand)), g')
          else (Ret None, g')
        else if leb cand qend then (Ret (Some (incl cand qend)), g')
        else (Ret None, g')
    | (o, needs, cand, l) => (o, mkGapsI needs cand qend l)
    end.

  (** [adjust_touching_ranges_for_insert] inclusive_map.rs:462-514.  The
      [&mut RangeInclusive] argument becomes the returned range. *)
  Definition im_adjust_touching_ranges_for_insert
      (stored : rangei K) (stored_value : V) (new_range : rangei K) (new_value : V)
    : M (imap K V) (rangei K) :=
    (if veqb stored_value new_value then
       let new_range' := incl (kmin cmp (ri_start new_range) (ri_start stored))
                              (kmax cmp (ri_end new_range) (ri_end stored)) in
       modify (bt_remove c_start stored) ;;;
       ret new_range'
     else
       if ri_overlaps cmp new_range stored then
         modify (bt_remove c_start stored) ;;;
         (if ltb (ri_start stored) (ri_start new_range)
          then p <- lift (step_o (sub_one st (ri_start new_range))) ;;
               modify (bt_insert c_start (incl (ri_start stored) p) stored_value)
          else ret tt) ;;;
         (if gtb (ri_end stored) (ri_end new_range)
          then s <- lift (step_o (add_one st (ri_end new_range))) ;;
               modify (bt_insert c_start (incl s (ri_end stored)) stored_value)
          else ret tt) ;;;
         ret new_range
       else ret new_range)%M.

  (** the [while let] loop of [insert] inclusive_map.rs:321-370.  The two
      [break]s are the two [ret]s under [brk]. *)
  Fixpoint im_insert_loop (fuel : nat) (new_start_wrapper : rangei K) (new_value : V)
      (second_last_possible_start : rangei K) : M (imap K V) (rangei K) :=
    match fuel with
    | O => nofuel
    | S fuel' =>
        (m <- get ;;
         l <- lift (bt_range c_start (Included new_start_wrapper) Unbounded m) ;;
         match fst (it_next l) with
         | None => ret new_start_wrapper
         | Some (stored, stored_value) =>
             brk <- lift (if gtb (ri_start stored) (ri_start second_last_possible_start)
                          then omap (fun latest_possible_start =>
                                 gtb (ri_start stored) latest_possible_start
                                 || (eqb (ri_start stored) latest_possible_start
                                     && negb (veqb stored_value new_value)))
                               (step_o (add_one st (ri_start second_last_possible_start)))
                          else Ret false) ;;
             if brk then ret new_start_wrapper
             else
               new' <- im_adjust_touching_ranges_for_insert
                         stored stored_value new_start_wrapper new_value ;;
               im_insert_loop fuel' new' new_value second_last_possible_start
         end)%M
    end.

  (** [insert] inclusive_map.rs:249-374.  The loop gets [length m + 2] fuel,
      where [m] is the map when the loop is entered; it is proved never to run
      out.  [filter] is lazy in the code, but both candidates are always
      demanded when there are two ([candidates.next()] twice) unless the first
      call already reached the end. *)
  Definition im_insert (r : rangei K) (new_value : V) : M (imap K V) unit :=
    (assert_ (leb (ri_start r) (ri_end r)) ;;;
     m <- get ;;
     before <- lift (bt_range c_start Unbounded (Included r) m) ;;
     cands <- lift (filter_o (fun e => ri_touches cmp st (fst e) r) (firstn 2 (rev before))) ;;
     new1 <- match cands with
             | [] => ret r
             | [(s, sv)] => im_adjust_touching_ranges_for_insert s sv r new_value
             | _ :: (s, sv) :: _ => im_adjust_touching_ranges_for_insert s sv r new_value
             end ;;
     m1 <- get ;;
     new2 <- im_insert_loop (length m1 + 2) new1 new_value (incl (ri_end new1) (ri_end new1)) ;;
     modify (bt_insert c_start new2 new_value))%M.

  (** [adjust_overlapping_ranges_for_remove] inclusive_map.rs:516-544 *)
  Definition im_adjust_overlapping_ranges_for_remove
      (stored : rangei K) (stored_value : V) (range_to_remove : rangei K)
    : M (imap K V) unit :=
    (modify (bt_remove c_start stored) ;;;
     (if ltb (ri_start stored) (ri_start range_to_remove)
      then p <- lift (step_o (sub_one st (ri_start range_to_remove))) ;;
           modify (bt_insert c_start (incl (ri_start stored) p) stored_value)
      else ret tt) ;;;
     (if gtb (ri_end stored) (ri_end range_to_remove)
      then s <- lift (step_o (add_one st (ri_end range_to_remove))) ;;
           modify (bt_insert c_start (incl s (ri_end stored)) stored_value)
      else ret tt))%M.

  (** the [while let] loop of [remove] inclusive_map.rs:440-459 *)
  Fixpoint im_remove_loop (fuel : nat) (r : rangei K) (new_range_end_as_start : rangei K)
    : M (imap K V) unit :=
    match fuel with
    | O => nofuel
    | S fuel' =>
        (m <- get ;;
         l <- lift (bt_range c_start (Excluded r) (Included new_range_end_as_start) m) ;;
         match fst (it_next l) with
         | None => ret tt
         | Some (stored, stored_value) =>
             im_adjust_overlapping_ranges_for_remove stored stored_value r ;;;
             im_remove_loop fuel' r new_range_end_as_start
         end)%M
    end.

  (** [remove] inclusive_map.rs:386-460 *)
  Definition im_remove (r : rangei K) : M (imap K V) unit :=
    (assert_ (leb (ri_start r) (ri_end r)) ;;;
     m <- get ;;
     before <- lift (bt_range c_start Unbounded (Included r) m) ;;
     match last_opt before with
     | Some (s, sv) =>
         if ri_overlaps cmp s r
         then im_adjust_overlapping_ranges_for_remove s sv r
         else ret tt
     | None => ret tt
     end ;;;
     m1 <- get ;;
     im_remove_loop (length m1 + 1) r (incl (ri_end r) (ri_end r)))%M.

  (** [Extend::extend] inclusive_map.rs:722-726 *)
  Definition im_extend (l : list (rangei K * V)) : M (imap K V) unit :=
    for_each (fun e => im_insert (fst e) (snd e)) l.
  (** [FromIterator::from_iter] inclusive_map.rs:710-714 *)
  Definition im_from_iter (l : list (rangei K * V)) : outcome (imap K V) :=
    match im_extend l im_new with
    | (Ret _, m) => Ret m
    | (Panicked p, _) => Panicked p
    | (OutOfFuel, _) => OutOfFuel
    end.
  (** [From<[(RangeInclusive<K>, V); N]>] inclusive_map.rs:938-948, and the
      [range_inclusive_map!] macro 962-966 which expands to it. *)
  Fixpoint im_from_array_loop (l : list (rangei K * V)) : M (imap K V) unit :=
    match l with
    | [] => ret tt
    | (r, v) :: l' => (im_insert r v ;;; im_from_array_loop l')%M
    end.
  Definition im_from_array (l : list (rangei K * V)) : outcome (imap K V) :=
    match im_from_array_loop l im_new with
    | (Ret _, m) => Ret m
    | (Panicked p, _) => Panicked p
    | (OutOfFuel, _) => OutOfFuel
    end.
  (** [quickcheck::Arbitrary::arbitrary] inclusive_map.rs:112-118, as a function
      of the generated vector. *)
  Definition im_arbitrary (l : list (rangei K * V)) : outcome (imap K V) :=
    im_from_iter (filter (fun e => negb (ri_is_empty cmp (fst e))) l).

  (** [Serialize] inclusive_map.rs:734-744: the announced length and the elements. *)
  Definition im_serialize (m : imap K V) : option nat * list ((K * K) * V) :=
    (Some (length m), map (fun e => ((ri_start (fst e), ri_end (fst e)), snd e)) (im_iter m)).
  (** [Deserialize] inclusive_map.rs:748-798.  The input is the sequence of
      results of [access.next_element()?]. *)
  Fixpoint im_visit_seq {E} (l : list (E + (K * K) * V)) : M (imap K V) (E + unit) :=
    match l with
    | [] => ret (inr tt)
    | inl err :: _ => ret (inl err)
    | inr ((s, e), v) :: l' => (im_insert (incl s e) v ;;; im_visit_seq l')%M
    end.
  Definition im_deserialize {E} (l : list (E + (K * K) * V)) : outcome (E + imap K V) :=
    match im_visit_seq l im_new with
    | (Ret (inr _), m) => Ret (inr m)
    | (Ret (inl err), _) => Ret (inl err)
    | (Panicked p, _) => Panicked p
    | (OutOfFuel, _) => OutOfFuel
    end.

  (** Executing a history of calls (History.v) from the empty map. *)
  Definition im_exec (o : op (rangei K) V) : M (imap K V) unit :=
    match o with
    | OInsert r v => im_insert r v
    | ORemove r => im_remove r
    | OClear => im_clear
    | OExtend l => im_extend l
    end.
  Definition im_run (ops : list (op (rangei K) V)) : imap K V := run_ops im_exec ops im_new.

  (** [PartialEq::eq] inclusive_map.rs:72-74: element-wise over [iter()]; the
      comparison of [RangeInclusive]s includes the [exhausted] flag. *)
  Definition im_eqb (a b : imap K V) : bool :=
    list_eqb (fun x y => ri_eqb cmp (fst x) (fst y) && veqb (snd x) (snd y))
             (im_iter a) (im_iter b).
End Model.

Arguments overlappingi : clear implicits.
Arguments gapsi : clear implicits.
Arguments mkOverlappingI {K V} _ _.
Arguments ovi_query {K V} _.
Arguments ovi_iter {K V} _.
Arguments mkGapsI {K V} _ _ _ _.
Arguments gpi_needs_plus_one {K V} _.
Arguments gpi_candidate_start {K V} _.
Arguments gpi_query_end {K V} _.
Arguments gpi_iter {K V} _.

(** [Ord::cmp] inclusive_map.rs:101-103, [PartialOrd::partial_cmp] 90-92 *)
Definition im_cmp {K V} (cmp : K -> K -> comparison) (vcmp : V -> V -> comparison)
    (a b : imap K V) : comparison :=
  lex_cmp (triple_cmp cmp vcmp) (im_expanded_iter a) (im_expanded_iter b).
Definition im_partial_cmp {K V} (pcmp : K -> K -> option comparison)
    (vpcmp : V -> V -> option comparison) (a b : imap K V) : option comparison :=
  lex_pcmp (triple_pcmp pcmp vpcmp) (im_expanded_iter a) (im_expanded_iter b).

(** [Hash::hash] inclusive_map.rs:59-64.  [RangeInclusive] derives [Hash]:
    start, end, then the [exhausted] flag, which [hb] writes. *)
Definition im_hash {K V T} (hk : K -> list T) (hb : bool -> list T) (hv : V -> list T)
    (m : imap K V) : list (hwrite T) :=
  HLen (length m) ::
  flat_map (fun e => map HUser (hk (ri_start (fst e)) ++ hk (ri_end (fst e)) ++
                                hb (ri_exhausted (fst e)) ++ hv (snd e)))
           (im_iter m).
