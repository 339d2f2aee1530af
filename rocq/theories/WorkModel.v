(** The calls an update makes on the underlying [BTreeMap].

    The functions below are the same text as in MapModel.v and IMapModel.v over
    a monad that also records, in order, every [BTreeMap::range], every item
    taken out of the iterator it returns, and every [BTreeMap::insert],
    [remove] and [clear].  WorkFacts.v proves that forgetting the record gives
    back the functions of MapModel.v and IMapModel.v, and that the modifications
    in it are those of CrashModel.v. *)
From Coq Require Import List Bool.
From Verif Require Import Order Outcome BTree Ranges History Spec MapModel IMapModel.
Import ListNotations.

(** A computation with the calls it made ([bt_call], Spec.v). *)
Definition T (S A : Type) : Type := S -> list bt_call * (outcome A * S).
Definition tret {S A} (a : A) : T S A := fun s => ([], (Ret a, s)).
Definition tbind {S A B} (c : T S A) (f : A -> T S B) : T S B :=
  fun s => match c s with
           | (t, (Ret a, s')) => let (t', x) := f a s' in (t ++ t', x)
           | (t, (Panicked p, s')) => (t, (Panicked p, s'))
           | (t, (OutOfFuel, s')) => (t, (OutOfFuel, s'))
           end.
Definition tget {S} : T S S := fun s => ([], (Ret s, s)).
Definition tnofuel {S A} : T S A := fun s => ([], (OutOfFuel, s)).
Definition tlift {S A} (o : outcome A) : T S A := fun s => ([], (o, s)).
Definition tassert {S} (b : bool) : T S unit := fun s => ([], assert_ b s).
(** [BTreeMap::range], [insert], [remove], [clear]; where they are called: BTree.v,
    and map.rs:130, inclusive_map.rs:223 ([clear]) *)
Definition tsearch {S A} (o : outcome A) : T S A := fun s => ([BSearch], (o, s)).
Definition tinsert {S} (f : S -> S) : T S unit := fun s => ([BInsert], (Ret tt, f s)).
Definition tremove {S} (f : S -> S) : T S unit := fun s => ([BRemove], (Ret tt, f s)).
Definition tclear {E} : T (list E) unit := fun _ => ([BClear], (Ret tt, [])).
(** [rev().take(2)], [next] and [next_back] on the range iterator *)
Definition tread {S A} (l : list A) : T S (list A) := fun s => (map (fun _ => BRead) l, (Ret l, s)).
Definition tnext {S A} (l : list A) : T S (option A) := fun s =>
  let (x, _) := it_next l in (match x with Some _ => [BRead] | None => [] end, (Ret x, s)).
Definition tnext_back {S A} (l : list A) : T S (option A) := fun s =>
  let (x, _) := it_next_back l in (match x with Some _ => [BRead] | None => [] end, (Ret x, s)).

Declare Scope t_scope.
Delimit Scope t_scope with T.
Notation "x <- c ;; d" := (tbind c (fun x => d))
  (at level 61, c at next level, right associativity) : t_scope.
Notation "c ;;; d" := (tbind c (fun _ => d))
  (at level 61, right associativity) : t_scope.
Fixpoint tfor_each {S A} (f : A -> T S unit) (l : list A) : T S unit :=
  match l with
  | [] => tret tt
  | a :: l' => (f a ;;; tfor_each f l')%T
  end.

(** The calls of a history. *)
Fixpoint bt_calls {R V S} (exec : op R V -> T S unit) (ops : list (op R V)) (s : S) : list bt_call :=
  match ops with
  | [] => []
  | o :: ops' => fst (exec o s) ++ bt_calls exec ops' (snd (snd (exec o s)))
  end.

Section Half.
  Context {K V : Type} (cmp : K -> K -> comparison) (veqb : V -> V -> bool).

  Notation ltb := (ltb cmp).
  Notation gtb := (gtb cmp).
  Notation eqb := (eqb cmp).
  Notation c_start := (cmp_start cmp).

  (** [adjust_touching_ranges_for_insert] map.rs:439-488.  The [&mut Range]
      argument becomes the returned range. *)
  Definition rmt_adjust_touching_ranges_for_insert
      (stored : range K) (stored_value : V) (new_range : range K) (new_value : V)
    : T (rmap K V) (range K) :=
    (if veqb stored_value new_value then
       let new_range' := mkR (kmin cmp (r_start new_range) (r_start stored))
                             (kmax cmp (r_end new_range) (r_end stored)) in
       tremove (bt_remove c_start stored) ;;;
       tret new_range'
     else
       if r_overlaps cmp new_range stored then
         tremove (bt_remove c_start stored) ;;;
         (if ltb (r_start stored) (r_start new_range)
          then tinsert (bt_insert c_start (mkR (r_start stored) (r_start new_range)) stored_value)
          else tret tt) ;;;
         (if gtb (r_end stored) (r_end new_range)
          then tinsert (bt_insert c_start (mkR (r_end new_range) (r_end stored)) stored_value)
          else tret tt) ;;;
         tret new_range
       else tret new_range)%T.

  (** the [while let] loop of [insert] map.rs:326-359 *)
  Fixpoint rmt_insert_loop (fuel : nat) (new_start_wrapper : range K) (new_value : V)
      (new_range_end_as_start : range K) : T (rmap K V) (range K) :=
    match fuel with
    | O => tnofuel
    | S fuel' =>
        (m <- tget ;;
         l <- tsearch (bt_range c_start (Included new_start_wrapper)
                                     (Included new_range_end_as_start) m) ;;
         x <- tnext l ;;
         match x with
         | None => tret new_start_wrapper
         | Some (stored, stored_value) =>
             if eqb (r_start stored) (r_end new_start_wrapper)
                && negb (veqb stored_value new_value)
             then tret new_start_wrapper                              (* break *)
             else
               new' <- rmt_adjust_touching_ranges_for_insert
                         stored stored_value new_start_wrapper new_value ;;
               rmt_insert_loop fuel' new' new_value new_range_end_as_start
         end)%T
    end.

  (** [insert] map.rs:261-363.  The loop gets [length m + 2] fuel, where [m] is
      the map when the loop is entered; it is proved never to run out. *)
  Definition rmt_insert (r : range K) (new_value : V) : T (rmap K V) unit :=
    (tassert (ltb (r_start r) (r_end r)) ;;;
     m <- tget ;;
     before <- tsearch (bt_range c_start Unbounded (Included r) m) ;;
     two <- tread (firstn 2 (rev before)) ;;
     new1 <- match filter (fun e => r_touches cmp (fst e) r) two with
             | [] => tret r
             | [(s, sv)] => rmt_adjust_touching_ranges_for_insert s sv r new_value
             | _ :: (s, sv) :: _ => rmt_adjust_touching_ranges_for_insert s sv r new_value
             end ;;
     m1 <- tget ;;
     new2 <- rmt_insert_loop (length m1 + 2) new1 new_value (mkR (r_end new1) (r_end new1)) ;;
     tinsert (bt_insert c_start new2 new_value))%T.

  (** [adjust_overlapping_ranges_for_remove] map.rs:490-514 *)
  Definition rmt_adjust_overlapping_ranges_for_remove
      (stored : range K) (stored_value : V) (range_to_remove : range K)
    : T (rmap K V) unit :=
    (tremove (bt_remove c_start stored) ;;;
     (if ltb (r_start stored) (r_start range_to_remove)
      then tinsert (bt_insert c_start (mkR (r_start stored) (r_start range_to_remove)) stored_value)
      else tret tt) ;;;
     (if gtb (r_end stored) (r_end range_to_remove)
      then tinsert (bt_insert c_start (mkR (r_end range_to_remove) (r_end stored)) stored_value)
      else tret tt))%T.

  (** the [while let] loop of [remove] map.rs:420-436 *)
  Fixpoint rmt_remove_loop (fuel : nat) (r : range K) (new_range_end_as_start : range K)
    : T (rmap K V) unit :=
    match fuel with
    | O => tnofuel
    | S fuel' =>
        (m <- tget ;;
         l <- tsearch (bt_range c_start (Excluded r) (Excluded new_range_end_as_start) m) ;;
         x <- tnext l ;;
         match x with
         | None => tret tt
         | Some (stored, stored_value) =>
             rmt_adjust_overlapping_ranges_for_remove stored stored_value r ;;;
             rmt_remove_loop fuel' r new_range_end_as_start
         end)%T
    end.

  (** [remove] map.rs:375-437 *)
  Definition rmt_remove (r : range K) : T (rmap K V) unit :=
    (tassert (ltb (r_start r) (r_end r)) ;;;
     m <- tget ;;
     before <- tsearch (bt_range c_start Unbounded (Included r) m) ;;
     x <- tnext_back before ;;
     match x with
     | Some (s, sv) =>
         if r_overlaps cmp s r
         then rmt_adjust_overlapping_ranges_for_remove s sv r
         else tret tt
     | None => tret tt
     end ;;;
     m1 <- tget ;;
     rmt_remove_loop (length m1 + 1) r (mkR (r_end r) (r_end r)))%T.

  (** [Extend::extend] map.rs:627-631 *)
  Definition rmt_extend (l : list (range K * V)) : T (rmap K V) unit :=
    tfor_each (fun e => rmt_insert (fst e) (snd e)) l.
  (** [clear] map.rs:129-131 *)
  Definition rmt_clear : T (rmap K V) unit := tclear.
  (** any mutating call (History.v) *)
  Definition rmt_exec (o : op (range K) V) : T (rmap K V) unit :=
    match o with
    | OInsert r v => rmt_insert r v
    | ORemove r => rmt_remove r
    | OClear => rmt_clear
    | OExtend l => rmt_extend l
    end.
End Half.

Section Incl.
  Context {K V : Type} (cmp : K -> K -> comparison) (veqb : V -> V -> bool) (st : stepfns K).

  Notation ltb := (ltb cmp).
  Notation leb := (leb cmp).
  Notation gtb := (gtb cmp).
  Notation eqb := (eqb cmp).
  Notation c_start := (cmpi_start cmp).

  (** [adjust_touching_ranges_for_insert] inclusive_map.rs:462-514.  The
      [&mut RangeInclusive] argument becomes the returned range. *)
  Definition imt_adjust_touching_ranges_for_insert
      (stored : rangei K) (stored_value : V) (new_range : rangei K) (new_value : V)
    : T (imap K V) (rangei K) :=
    (if veqb stored_value new_value then
       let new_range' := incl (kmin cmp (ri_start new_range) (ri_start stored))
                              (kmax cmp (ri_end new_range) (ri_end stored)) in
       tremove (bt_remove c_start stored) ;;;
       tret new_range'
     else
       if ri_overlaps cmp new_range stored then
         tremove (bt_remove c_start stored) ;;;
         (if ltb (ri_start stored) (ri_start new_range)
          then p <- tlift (step_o (sub_one st (ri_start new_range))) ;;
               tinsert (bt_insert c_start (incl (ri_start stored) p) stored_value)
          else tret tt) ;;;
         (if gtb (ri_end stored) (ri_end new_range)
          then s <- tlift (step_o (add_one st (ri_end new_range))) ;;
               tinsert (bt_insert c_start (incl s (ri_end stored)) stored_value)
          else tret tt) ;;;
         tret new_range
       else tret new_range)%T.

  (** the [while let] loop of [insert] inclusive_map.rs:321-370.  The two
      [break]s are the two [ret]s under [brk]. *)
  Fixpoint imt_insert_loop (fuel : nat) (new_start_wrapper : rangei K) (new_value : V)
      (second_last_possible_start : rangei K) : T (imap K V) (rangei K) :=
    match fuel with
    | O => tnofuel
    | S fuel' =>
        (m <- tget ;;
         l <- tsearch (bt_range c_start (Included new_start_wrapper) Unbounded m) ;;
         x <- tnext l ;;
         match x with
         | None => tret new_start_wrapper
         | Some (stored, stored_value) =>
             brk <- tlift (if gtb (ri_start stored) (ri_start second_last_possible_start)
                          then omap (fun latest_possible_start =>
                                 gtb (ri_start stored) latest_possible_start
                                 || (eqb (ri_start stored) latest_possible_start
                                     && negb (veqb stored_value new_value)))
                               (step_o (add_one st (ri_start second_last_possible_start)))
                          else Ret false) ;;
             if brk then tret new_start_wrapper
             else
               new' <- imt_adjust_touching_ranges_for_insert
                         stored stored_value new_start_wrapper new_value ;;
               imt_insert_loop fuel' new' new_value second_last_possible_start
         end)%T
    end.

  (** [insert] inclusive_map.rs:249-374.  The loop gets [length m + 2] fuel,
      where [m] is the map when the loop is entered; it is proved never to run
      out.  [filter] is lazy in the code, but both candidates are always
      demanded when there are two ([candidates.next()] twice) unless the first
      call already reached the end. *)
  Definition imt_insert (r : rangei K) (new_value : V) : T (imap K V) unit :=
    (tassert (leb (ri_start r) (ri_end r)) ;;;
     m <- tget ;;
     before <- tsearch (bt_range c_start Unbounded (Included r) m) ;;
     two <- tread (firstn 2 (rev before)) ;;
     cands <- tlift (filter_o (fun e => ri_touches cmp st (fst e) r) two) ;;
     new1 <- match cands with
             | [] => tret r
             | [(s, sv)] => imt_adjust_touching_ranges_for_insert s sv r new_value
             | _ :: (s, sv) :: _ => imt_adjust_touching_ranges_for_insert s sv r new_value
             end ;;
     m1 <- tget ;;
     new2 <- imt_insert_loop (length m1 + 2) new1 new_value (incl (ri_end new1) (ri_end new1)) ;;
     tinsert (bt_insert c_start new2 new_value))%T.

  (** [adjust_overlapping_ranges_for_remove] inclusive_map.rs:516-544 *)
  Definition imt_adjust_overlapping_ranges_for_remove
      (stored : rangei K) (stored_value : V) (range_to_remove : rangei K)
    : T (imap K V) unit :=
    (tremove (bt_remove c_start stored) ;;;
     (if ltb (ri_start stored) (ri_start range_to_remove)
      then p <- tlift (step_o (sub_one st (ri_start range_to_remove))) ;;
           tinsert (bt_insert c_start (incl (ri_start stored) p) stored_value)
      else tret tt) ;;;
     (if gtb (ri_end stored) (ri_end range_to_remove)
      then s <- tlift (step_o (add_one st (ri_end range_to_remove))) ;;
           tinsert (bt_insert c_start (incl s (ri_end stored)) stored_value)
      else tret tt))%T.

  (** the [while let] loop of [remove] inclusive_map.rs:440-459 *)
  Fixpoint imt_remove_loop (fuel : nat) (r : rangei K) (new_range_end_as_start : rangei K)
    : T (imap K V) unit :=
    match fuel with
    | O => tnofuel
    | S fuel' =>
        (m <- tget ;;
         l <- tsearch (bt_range c_start (Excluded r) (Included new_range_end_as_start) m) ;;
         x <- tnext l ;;
         match x with
         | None => tret tt
         | Some (stored, stored_value) =>
             imt_adjust_overlapping_ranges_for_remove stored stored_value r ;;;
             imt_remove_loop fuel' r new_range_end_as_start
         end)%T
    end.

  (** [remove] inclusive_map.rs:386-460 *)
  Definition imt_remove (r : rangei K) : T (imap K V) unit :=
    (tassert (leb (ri_start r) (ri_end r)) ;;;
     m <- tget ;;
     before <- tsearch (bt_range c_start Unbounded (Included r) m) ;;
     x <- tnext_back before ;;
     match x with
     | Some (s, sv) =>
         if ri_overlaps cmp s r
         then imt_adjust_overlapping_ranges_for_remove s sv r
         else tret tt
     | None => tret tt
     end ;;;
     m1 <- tget ;;
     imt_remove_loop (length m1 + 1) r (incl (ri_end r) (ri_end r)))%T.

  (** [Extend::extend] inclusive_map.rs:722-726 *)
  Definition imt_extend (l : list (rangei K * V)) : T (imap K V) unit :=
    tfor_each (fun e => imt_insert (fst e) (snd e)) l.
  (** [clear] inclusive_map.rs:222-224 *)
  Definition imt_clear : T (imap K V) unit := tclear.
  (** any mutating call (History.v) *)
  Definition imt_exec (o : op (rangei K) V) : T (imap K V) unit :=
    match o with
    | OInsert r v => imt_insert r v
    | ORemove r => imt_remove r
    | OClear => imt_clear
    | OExtend l => imt_extend l
    end.
End Incl.
