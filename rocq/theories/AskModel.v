(** Updates when [V]'s [==] and [!=] answer in any way at all: not as a function
    of the two values, [!=] not as the negation of [==], and the clone that is
    compared (map.rs:301, 351, inclusive_map.rs:297, 362) not [==] to its
    original.  A call is given the list of the answers that user code gives to
    its successive questions.  A call that asks for one more answer than there
    are in the list is [OutOfFuel]: it is still running, and the state is the one
    it has got to.  The functions are those of CrashModel.v with each [veqb]
    replaced by [ask]; they record the state after every modification in the
    same way. *)
From Coq Require Import List Bool.
From Verif Require Import Order Outcome BTree Ranges History MapModel IMapModel CrashModel.
Import ListNotations.

(** A computation that asks questions: it takes the answers, and returns those it has not used. *)
Definition Q (S A : Type) : Type := list bool -> C S (A * list bool).
Definition qret {S A} (a : A) : Q S A := fun bs => cret (a, bs).
Definition qbind {S A B} (c : Q S A) (f : A -> Q S B) : Q S B :=
  fun bs => cbind (c bs) (fun x => f (fst x) (snd x)).
Definition qlift {S A} (c : C S A) : Q S A := fun bs => cbind c (fun a => cret (a, bs)).
Definition ask {S} : Q S bool := fun bs => match bs with [] => cnofuel | b :: bs' => cret (b, bs') end.

Declare Scope q_scope.
Delimit Scope q_scope with Q.
Notation "x <- c ;; d" := (qbind c (fun x => d))
  (at level 61, c at next level, right associativity) : q_scope.
Notation "c ;;; d" := (qbind c (fun _ => d))
  (at level 61, right associativity) : q_scope.
Fixpoint qfor_each {S A} (f : A -> Q S unit) (l : list A) : Q S unit :=
  match l with
  | [] => qret tt
  | a :: l' => (f a ;;; qfor_each f l')%Q
  end.

(** A call: what is called, the answers it gets, and at which of the states that
    it goes through it is interrupted ([nth] of [crash_states]; past their end:
    at the last one, which is that of the completed call if it completes). *)
Record qcall (R V : Type) : Type := mkCall { q_op : op R V; q_answers : list bool; q_cut : nat }.
Arguments mkCall {R V} q_op q_answers q_cut.
Arguments q_op {R V} q.
Arguments q_answers {R V} q.
Arguments q_cut {R V} q.
Definition qstep {R V S} (exec : op R V -> Q S unit) (s : S) (q : qcall R V) : S :=
  let c := exec (q_op q) (q_answers q) in nth (q_cut q) (crash_states c s) (snd (snd (c s))).

Section Half.
  Context {K V : Type} (cmp : K -> K -> comparison).
  Notation ltb := (ltb cmp).
  Notation eqb := (eqb cmp).
  Notation c_start := (cmp_start cmp).

  (** [adjust_touching_ranges_for_insert] map.rs:439-488: its first step is the
      question [stored_value == *new_value] (map.rs:448), and it asks no other *)
  Definition rmq_adjust_touching_ranges_for_insert
      (stored : range K) (stored_value : V) (new_range : range K) (new_value : V)
    : Q (rmap K V) (range K) :=
    (equal <- ask ;;
     qlift (rmx_adjust_touching_ranges_for_insert cmp (fun _ _ => equal) stored stored_value new_range new_value))%Q.

  (** the [while let] loop of [insert] map.rs:326-359; [*stored_value != new_value]
      (map.rs:340) is asked only if the starts agree with the end.  A round asks at
      least one question or is the last one, so the answers bound the rounds. *)
  Fixpoint rmq_insert_loop (fuel : nat) (new_start_wrapper : range K) (new_value : V)
      (new_range_end_as_start : range K) : Q (rmap K V) (range K) :=
    match fuel with
    | O => fun _ => cnofuel
    | S fuel' =>
        (m <- qlift cget ;;
         l <- qlift (clift (bt_range c_start (Included new_start_wrapper)
                                            (Included new_range_end_as_start) m)) ;;
         match fst (it_next l) with
         | None => qret new_start_wrapper
         | Some (stored, stored_value) =>
             brk <- (if eqb (r_start stored) (r_end new_start_wrapper) then ask else qret false) ;;
             if brk : bool then qret new_start_wrapper                              (* break *)
             else
               new' <- rmq_adjust_touching_ranges_for_insert
                         stored stored_value new_start_wrapper new_value ;;
               rmq_insert_loop fuel' new' new_value new_range_end_as_start
         end)%Q
    end.

  (** [insert] map.rs:261-363 *)
  Definition rmq_insert (r : range K) (new_value : V) : Q (rmap K V) unit :=
    (qlift (cassert (ltb (r_start r) (r_end r))) ;;;
     m <- qlift cget ;;
     before <- qlift (clift (bt_range c_start Unbounded (Included r) m)) ;;
     new1 <- match filter (fun e => r_touches cmp (fst e) r) (firstn 2 (rev before)) with
             | [] => qret r
             | [(s, sv)] => rmq_adjust_touching_ranges_for_insert s sv r new_value
             | _ :: (s, sv) :: _ => rmq_adjust_touching_ranges_for_insert s sv r new_value
             end ;;
     new2 <- (fun bs => rmq_insert_loop (S (length bs)) new1 new_value (mkR (r_end new1) (r_end new1)) bs) ;;
     qlift (cmodify (bt_insert c_start new2 new_value)))%Q.

  (** [Extend::extend] map.rs:627-631 *)
  Definition rmq_extend (l : list (range K * V)) : Q (rmap K V) unit :=
    qfor_each (fun e => rmq_insert (fst e) (snd e)) l.
  (** any mutating call (History.v); [remove] map.rs:375-437 and [clear]
      map.rs:129-131 ask no questions *)
  Definition rmq_exec (o : op (range K) V) : Q (rmap K V) unit :=
    match o with
    | OInsert r v => rmq_insert r v
    | ORemove r => qlift (rmx_remove cmp r)
    | OClear => qlift rmx_clear
    | OExtend l => rmq_extend l
    end.
  Definition rmq_run (qs : list (qcall (range K) V)) : rmap K V := fold_left (qstep rmq_exec) qs [].
End Half.

Section Incl.
  Context {K V : Type} (cmp : K -> K -> comparison) (st : stepfns K).
  Notation leb := (leb cmp).
  Notation gtb := (gtb cmp).
  Notation eqb := (eqb cmp).
  Notation c_start := (cmpi_start cmp).

  (** [adjust_touching_ranges_for_insert] inclusive_map.rs:462-514: its first step
      is the question [stored_value == *new_value] (inclusive_map.rs:471) *)
  Definition imq_adjust_touching_ranges_for_insert
      (stored : rangei K) (stored_value : V) (new_range : rangei K) (new_value : V)
    : Q (imap K V) (rangei K) :=
    (equal <- ask ;;
     qlift (imx_adjust_touching_ranges_for_insert cmp (fun _ _ => equal) st stored stored_value new_range new_value))%Q.

  (** the [while let] loop of [insert] inclusive_map.rs:321-370;
      [*stored_value != new_value] (inclusive_map.rs:351) is asked only for a range
      that starts at [latest_possible_start] *)
  Fixpoint imq_insert_loop (fuel : nat) (new_start_wrapper : rangei K) (new_value : V)
      (second_last_possible_start : rangei K) : Q (imap K V) (rangei K) :=
    match fuel with
    | O => fun _ => cnofuel
    | S fuel' =>
        (m <- qlift cget ;;
         l <- qlift (clift (bt_range c_start (Included new_start_wrapper) Unbounded m)) ;;
         match fst (it_next l) with
         | None => qret new_start_wrapper
         | Some (stored, stored_value) =>
             brk <- (if gtb (ri_start stored) (ri_start second_last_possible_start)
                     then latest_possible_start <- qlift (clift (step_o (add_one st (ri_start second_last_possible_start)))) ;;
                          if gtb (ri_start stored) latest_possible_start then qret true
                          else if eqb (ri_start stored) latest_possible_start then ask
                          else qret false
                     else qret false) ;;
             if brk : bool then qret new_start_wrapper
             else
               new' <- imq_adjust_touching_ranges_for_insert
                         stored stored_value new_start_wrapper new_value ;;
               imq_insert_loop fuel' new' new_value second_last_possible_start
         end)%Q
    end.

  (** [insert] inclusive_map.rs:249-374 *)
  Definition imq_insert (r : rangei K) (new_value : V) : Q (imap K V) unit :=
    (qlift (cassert (leb (ri_start r) (ri_end r))) ;;;
     m <- qlift cget ;;
     before <- qlift (clift (bt_range c_start Unbounded (Included r) m)) ;;
     cands <- qlift (clift (filter_o (fun e => ri_touches cmp st (fst e) r) (firstn 2 (rev before)))) ;;
     new1 <- match cands with
             | [] => qret r
             | [(s, sv)] => imq_adjust_touching_ranges_for_insert s sv r new_value
             | _ :: (s, sv) :: _ => imq_adjust_touching_ranges_for_insert s sv r new_value
             end ;;
     new2 <- (fun bs => imq_insert_loop (S (length bs)) new1 new_value (incl (ri_end new1) (ri_end new1)) bs) ;;
     qlift (cmodify (bt_insert c_start new2 new_value)))%Q.

  (** [Extend::extend] inclusive_map.rs:722-726 *)
  Definition imq_extend (l : list (rangei K * V)) : Q (imap K V) unit :=
    qfor_each (fun e => imq_insert (fst e) (snd e)) l.
  (** any mutating call; [remove] inclusive_map.rs:386-460 and [clear]
      inclusive_map.rs:222-224 ask no questions *)
  Definition imq_exec (o : op (rangei K) V) : Q (imap K V) unit :=
    match o with
    | OInsert r v => imq_insert r v
    | ORemove r => qlift (imx_remove cmp st r)
    | OClear => qlift imx_clear
    | OExtend l => imq_extend l
    end.
  Definition imq_run (qs : list (qcall (rangei K) V)) : imap K V := fold_left (qstep imq_exec) qs [].
End Incl.
