(** Interrupted updates: what a map looks like when user code ([Ord], [Clone],
    [PartialEq], [StepFns], or a panic in an iterator handed to [extend])
    panics in the middle of [insert], [remove], [clear] or [extend].

    User code runs only between two modifications of the underlying
    [BTreeMap]: the crate's methods call [self.btm.remove]/[self.btm.insert]
    and otherwise only read (map.rs:261-514, inclusive_map.rs:249-544), and
    [BTreeMap::insert]/[remove] call [Ord::cmp] only while searching, before
    they change anything (std's [search_tree], trusted).  So the maps that can
    be left behind are the map before the call and the map after each
    modification.  The functions below are the same text as in MapModel.v and
    IMapModel.v over a monad that also records the state after every
    modification; CrashFacts.v proves that forgetting the record gives back
    exactly the functions of MapModel.v and IMapModel.v. *)
From Coq Require Import List Bool.
From Verif Require Import Order Outcome BTree Ranges History MapModel IMapModel.
Import ListNotations.

(** A computation with the list of states it went through. *)
Definition C (S A : Type) : Type := S -> list S * (outcome A * S).
Definition cret {S A} (a : A) : C S A := fun s => ([], (Ret a, s)).
Definition cbind {S A B} (c : C S A) (f : A -> C S B) : C S B :=
  fun s => match c s with
           | (t, (Ret a, s')) => let (t', x) := f a s' in (t ++ t', x)
           | (t, (Panicked p, s')) => (t, (Panicked p, s'))
           | (t, (OutOfFuel, s')) => (t, (OutOfFuel, s'))
           end.
Definition cget {S} : C S S := fun s => ([], (Ret s, s)).
Definition cmodify {S} (f : S -> S) : C S unit := fun s => ([f s], (Ret tt, f s)).
Definition cnofuel {S A} : C S A := fun s => ([], (OutOfFuel, s)).
Definition clift {S A} (o : outcome A) : C S A := fun s => ([], (o, s)).
Definition cassert {S} (b : bool) : C S unit := fun s => ([], assert_ b s).

Declare Scope c_scope.
Delimit Scope c_scope with C.
Notation "x <- c ;; d" := (cbind c (fun x => d))
  (at level 61, c at next level, right associativity) : c_scope.
Notation "c ;;; d" := (cbind c (fun _ => d))
  (at level 61, right associativity) : c_scope.
Fixpoint cfor_each {S A} (f : A -> C S unit) (l : list A) : C S unit :=
  match l with
  | [] => cret tt
  | a :: l' => (f a ;;; cfor_each f l')%C
  end.

(** The states a call started in [s] can leave behind if user code panics
    during it (the last one is the state of the completed call). *)
Definition crash_states {S A} (c : C S A) (s : S) : list S := s :: fst (c s).

(** Calls that complete, and calls interrupted at the [n]-th of these states
    (at the completed call's state if there are fewer). *)
Inductive xop (R V : Type) : Type :=
| XDone (o : op R V)
| XCrash (o : op R V) (n : nat).
Arguments XDone {R V} o.
Arguments XCrash {R V} o n.
Definition xexec {R V S} (exec : op R V -> C S unit) (s : S) (x : xop R V) : S :=
  match x with
  | XDone o => snd (snd (exec o s))
  | XCrash o n => nth n (crash_states (exec o) s) (snd (snd (exec o s)))
  end.
(** The call a history entry is about. *)
Definition xop_of {R V} (x : xop R V) : op R V :=
  match x with XDone o | XCrash o _ => o end.

(** How many modifications of the [BTreeMap] a history makes ([clear] counts
    as one, map.rs:129-131, inclusive_map.rs:222-224). *)
Fixpoint modifications {R V S} (exec : op R V -> C S unit) (ops : list (op R V)) (s : S) : nat :=
  match ops with
  | [] => 0
  | o :: ops' => length (fst (exec o s)) + modifications exec ops' (snd (snd (exec o s)))
  end.

Section Half.
  Context {K V : Type} (cmp : K -> K -> comparison) (veqb : V -> V -> bool).

  Notation ltb := (ltb cmp).
  Notation gtb := (gtb cmp).
  Notation eqb := (eqb cmp).
  Notation c_start := (cmp_start cmp).

  (** [adjust_touching_ranges_for_insert] map.rs:439-488.  The [&mut Range]
      argument becomes the returned range. *)
  Definition rmx_adjust_touching_ranges_for_insert
      (stored : range K) (stored_value : V) (new_range : range K) (new_value : V)
    : C (rmap K V) (range K) :=
    (if veqb stored_value new_value then
       let new_range' := mkR (kmin cmp (r_start new_range) (r_start stored))
                             (kmax cmp (r_end new_range) (r_end stored)) in
       cmodify (bt_remove c_start stored) ;;;
       cret new_range'
     else
       if r_overlaps cmp new_range stored then
         cmodify (bt_remove c_start stored) ;;;
         (if ltb (r_start stored) (r_start new_range)
          then cmodify (bt_insert c_start (mkR (r_start stored) (r_start new_range)) stored_value)
          else cret tt) ;;;
         (if gtb (r_end stored) (r_end new_range)
          then cmodify (bt_insert c_start (mkR (r_end new_range) (r_end stored)) stored_value)
          else cret tt) ;;;
         cret new_range
       else cret new_range)%C.

  (** the [while let] loop of [insert] map.rs:326-359 *)
  Fixpoint rmx_insert_loop (fuel : nat) (new_start_wrapper : range K) (new_value : V)
      (new_range_end_as_start : range K) : C (rmap K V) (range K) :=
    match fuel with
    | O => cnofuel
    | S fuel' =>
        (m <- cget ;;
         l <- clift (bt_range c_start (Included new_start_wrapper)
                                     (Included new_range_end_as_start) m) ;;
         match fst (it_next l) with
         | None => cret new_start_wrapper
         | Some (stored, stored_value) =>
             if eqb (r_start stored) (r_end new_start_wrapper)
                && negb (veqb stored_value new_value)
             then cret new_start_wrapper                              (* break *)
             else
               new' <- rmx_adjust_touching_ranges_for_insert
                         stored stored_value new_start_wrapper new_value ;;
               rmx_insert_loop fuel' new' new_value new_range_end_as_start
         end)%C
    end.

  (** [insert] map.rs:261-363.  The loop gets [length m + 2] fuel, where [m] is
      the map when the loop is entered; it is proved never to run out. *)
  Definition rmx_insert (r : range K) (new_value : V) : C (rmap K V) unit :=
    (cassert (ltb (r_start r) (r_end r)) ;;;
     m <- cget ;;
     before <- clift (bt_range c_start Unbounded (Included r) m) ;;
     new1 <- match filter (fun e => r_touches cmp (fst e) r) (firstn 2 (rev before)) with
             | [] => cret r
             | [(s, sv)] => rmx_adjust_touching_ranges_for_insert s sv r new_value
             | _ :: (s, sv) :: _ => rmx_adjust_touching_ranges_for_insert s sv r new_value
             end ;;
     m1 <- cget ;;
     new2 <- rmx_insert_loop (length m1 + 2) new1 new_value (mkR (r_end new1) (r_end new1)) ;;
     cmodify (bt_insert c_start new2 new_value))%C.

  (** [adjust_overlapping_ranges_for_remove] map.rs:490-514 *)
  Definition rmx_adjust_overlapping_ranges_for_remove
      (stored : range K) (stored_value : V) (range_to_remove : range K)
    : C (rmap K V) unit :=
    (cmodify (bt_remove c_start stored) ;;;
     (if ltb (r_start stored) (r_start range_to_remove)
      then cmodify (bt_insert c_start (mkR (r_start stored) (r_start range_to_remove)) stored_value)
      else cret tt) ;;;
     (if gtb (r_end stored) (r_end range_to_remove)
      then cmodify (bt_insert c_start (mkR (r_end range_to_remove) (r_end stored)) stored_value)
      else cret tt))%C.

  (** the [while let] loop of [remove] map.rs:420-436 *)
  Fixpoint rmx_remove_loop (fuel : nat) (r : range K) (new_range_end_as_start : range K)
    : C (rmap K V) unit :=
    match fuel with
    | O => cnofuel
    | S fuel' =>
        (m <- cget ;;
         l <- clift (bt_range c_start (Excluded r) (Excluded new_range_end_as_start) m) ;;
         match fst (it_next l) with
         | None => cret tt
         | Some (stored, stored_value) =>
             rmx_adjust_overlapping_ranges_for_remove stored stored_value r ;;;
             rmx_remove_loop fuel' r new_range_end_as_start
         end)%C
    end.

  (** [remove] map.rs:375-437 *)
  Definition rmx_remove (r : range K) : C (rmap K V) unit :=
    (cassert (ltb (r_start r) (r_end r)) ;;;
     m <- cget ;;
     before <- clift (bt_range c_start Unbounded (Included r) m) ;;
     match last_opt before with
     | Some (s, sv) =>
         if r_overlaps cmp s r
         then rmx_adjust_overlapping_ranges_for_remove s sv r
         else cret tt
     | None => cret tt
     end ;;;
     m1 <- cget ;;
     rmx_remove_loop (length m1 + 1) r (mkR (r_end r) (r_end r)))%C.

  (** [Extend::extend] map.rs:627-631 *)
  Definition rmx_extend (l : list (range K * V)) : C (rmap K V) unit :=
    cfor_each (fun e => rmx_insert (fst e) (snd e)) l.
  (** [clear] map.rs:129-131 *)
  Definition rmx_clear : C (rmap K V) unit := cmodify (fun _ => []).
  (** any mutating call (History.v) *)
  Definition rmx_exec (o : op (range K) V) : C (rmap K V) unit :=
    match o with
    | OInsert r v => rmx_insert r v
    | ORemove r => rmx_remove r
    | OClear => rmx_clear
    | OExtend l => rmx_extend l
    end.
  (** histories in which calls may be interrupted *)
  Definition rmx_run (xs : list (xop (range K) V)) : rmap K V := fold_left (xexec rmx_exec) xs [].
End Half.

Section Incl.
  Context {K V : Type} (cmp : K -> K -> comparison) (veqb : V -> V -> bool) (st : stepfns K).

  Notation ltb := (ltb cmp).
  Notation leb := (leb cmp).
  Notation gtb := (gtb cmp).
  Notation eqb := (eqb cmp).
  Notation c_start := (cmpi_start cmp).

  (** [adjust_touching_ranges_for_insert] inclusive_map.rs:462-514.  The
      [&mut RangeInclusive] argument becomes the returned range. *)
  Definition imx_adjust_touching_ranges_for_insert
      (stored : rangei K) (stored_value : V) (new_range : rangei K) (new_value : V)
    : C (imap K V) (rangei K) :=
    (if veqb stored_value new_value then
       let new_range' := incl (kmin cmp (ri_start new_range) (ri_start stored))
                              (kmax cmp (ri_end new_range) (ri_end stored)) in
       cmodify (bt_remove c_start stored) ;;;
       cret new_range'
     else
       if ri_overlaps cmp new_range stored then
         cmodify (bt_remove c_start stored) ;;;
         (if ltb (ri_start stored) (ri_start new_range)
          then p <- clift (step_o (sub_one st (ri_start new_range))) ;;
               cmodify (bt_insert c_start (incl (ri_start stored) p) stored_value)
          else cret tt) ;;;
         (if gtb (ri_end stored) (ri_end new_range)
          then s <- clift (step_o (add_one st (ri_end new_range))) ;;
               cmodify (bt_insert c_start (incl s (ri_end stored)) stored_value)
          else cret tt) ;;;
         cret new_range
       else cret new_range)%C.

  (** the [while let] loop of [insert] inclusive_map.rs:321-370.  The two
      [break]s are the two [ret]s under [brk]. *)
  Fixpoint imx_insert_loop (fuel : nat) (new_start_wrapper : rangei K) (new_value : V)
      (second_last_possible_start : rangei K) : C (imap K V) (rangei K) :=
    match fuel with
    | O => cnofuel
    | S fuel' =>
        (m <- cget ;;
         l <- clift (bt_range c_start (Included new_start_wrapper) Unbounded m) ;;
         match fst (it_next l) with
         | None => cret new_start_wrapper
         | Some (stored, stored_value) =>
             brk <- clift (if gtb (ri_start stored) (ri_start second_last_possible_start)
                          then omap (fun latest_possible_start =>
                                 gtb (ri_start stored) latest_possible_start
                                 || (eqb (ri_start stored) latest_possible_start
                                     && negb (veqb stored_value new_value)))
                               (step_o (add_one st (ri_start second_last_possible_start)))
                          else Ret false) ;;
             if brk then cret new_start_wrapper
             else
               new' <- imx_adjust_touching_ranges_for_insert
                         stored stored_value new_start_wrapper new_value ;;
               imx_insert_loop fuel' new' new_value second_last_possible_start
         end)%C
    end.

  (** [insert] inclusive_map.rs:249-374.  The loop gets [length m + 2] fuel,
      where [m] is the map when the loop is entered; it is proved never to run
      out.  [filter] is lazy in the code, but both candidates are always
      demanded when there are two ([candidates.next()] twice) unless the first
      call already reached the end. *)
  Definition imx_insert (r : rangei K) (new_value : V) : C (imap K V) unit :=
    (cassert (leb (ri_start r) (ri_end r)) ;;;
     m <- cget ;;
     before <- clift (bt_range c_start Unbounded (Included r) m) ;;
     cands <- clift (filter_o (fun e => ri_touches cmp st (fst e) r) (firstn 2 (rev before))) ;;
     new1 <- match cands with
             | [] => cret r
             | [(s, sv)] => imx_adjust_touching_ranges_for_insert s sv r new_value
             | _ :: (s, sv) :: _ => imx_adjust_touching_ranges_for_insert s sv r new_value
             end ;;
     m1 <- cget ;;
     new2 <- imx_insert_loop (length m1 + 2) new1 new_value (incl (ri_end new1) (ri_end new1)) ;;
     cmodify (bt_insert c_start new2 new_value))%C.

  (** [adjust_overlapping_ranges_for_remove] inclusive_map.rs:516-544 *)
  Definition imx_adjust_overlapping_ranges_for_remove
      (stored : rangei K) (stored_value : V) (range_to_remove : rangei K)
    : C (imap K V) unit :=
    (cmodify (bt_remove c_start stored) ;;;
     (if ltb (ri_start stored) (ri_start range_to_remove)
      then p <- clift (step_o (sub_one st (ri_start range_to_remove))) ;;
           cmodify (bt_insert c_start (incl (ri_start stored) p) stored_value)
      else cret tt) ;;;
     (if gtb (ri_end stored) (ri_end range_to_remove)
      then s <- clift (step_o (add_one st (ri_end range_to_remove))) ;;
           cmodify (bt_insert c_start (incl s (ri_end stored)) stored_value)
      else cret tt))%C.

  (** the [while let] loop of [remove] inclusive_map.rs:440-459 *)
  Fixpoint imx_remove_loop (fuel : nat) (r : rangei K) (new_range_end_as_start : rangei K)
    : C (imap K V) unit :=
    match fuel with
    | O => cnofuel
    | S fuel' =>
        (m <- cget ;;
         l <- clift (bt_range c_start (Excluded r) (Included new_range_end_as_start) m) ;;
         match fst (it_next l) with
         | None => cret tt
         | Some (stored, stored_value) =>
             imx_adjust_overlapping_ranges_for_remove stored stored_value r ;;;
             imx_remove_loop fuel' r new_range_end_as_start
         end)%C
    end.

  (** [remove] inclusive_map.rs:386-460 *)
  Definition imx_remove (r : rangei K) : C (imap K V) unit :=
    (cassert (leb (ri_start r) (ri_end r)) ;;;
     m <- cget ;;
     before <- clift (bt_range c_start Unbounded (Included r) m) ;;
     match last_opt before with
     | Some (s, sv) =>
         if ri_overlaps cmp s r
         then imx_adjust_overlapping_ranges_for_remove s sv r
         else cret tt
     | None => cret tt
     end ;;;
     m1 <- cget ;;
     imx_remove_loop (length m1 + 1) r (incl (ri_end r) (ri_end r)))%C.

  (** [Extend::extend] inclusive_map.rs:722-726 *)
  Definition imx_extend (l : list (rangei K * V)) : C (imap K V) unit :=
    cfor_each (fun e => imx_insert (fst e) (snd e)) l.
  (** [clear] inclusive_map.rs:222-224 *)
  Definition imx_clear : C (imap K V) unit := cmodify (fun _ => []).
  (** any mutating call (History.v) *)
  Definition imx_exec (o : op (rangei K) V) : C (imap K V) unit :=
    match o with
    | OInsert r v => imx_insert r v
    | ORemove r => imx_remove r
    | OClear => imx_clear
    | OExtend l => imx_extend l
    end.
  (** histories in which calls may be interrupted *)
  Definition imx_run (xs : list (xop (rangei K) V)) : imap K V := fold_left (xexec imx_exec) xs [].
End Incl.
