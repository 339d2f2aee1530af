(** Model of the union and intersection iterators over sorted ranges
    (/repo/src/operations.rs), as state machines over two peekable iterators.

    They are generic over the range type [R] (through the crate's private
    traits [RangeOrder], [RangeMerge], [RangeIntersect], operations.rs:6-98) and
    over the underlying iterator [I], given here by its [next] function [inext].
    [ilen] is the number of items the underlying iterator still has; it only
    serves to choose the fuel of the loops. *)
From Coq Require Import List Bool.
From Verif Require Import Order Outcome Ranges.
Import ListNotations.

(** ** The traits' methods, per range type *)
Section Traits.
  Context {K : Type} (cmp : K -> K -> comparison).

  (** [RangeOrder for Range] operations.rs:14-22 *)
  Definition r_order_start (a b : range K) : comparison := cmp (r_start a) (r_start b).
  Definition r_order_end (a b : range K) : comparison := cmp (r_end a) (r_end b).
  (** [RangeMerge for Range] operations.rs:40-52: the returned boolean and the
      new value of [self] *)
  Definition r_merge (self other : range K) : bool * range K :=
    if negb (r_contains cmp self (r_start other)) then (false, self)
    else (true, if gtb cmp (r_end other) (r_end self)
                then mkR (r_start self) (r_end other) else self).
  (** [RangeIntersect for Range] operations.rs:74-85 *)
  Definition r_intersect (self other : range K) : option (range K) :=
    let start := kmax cmp (r_start self) (r_start other) in
    let end_ := kmin cmp (r_end self) (r_end other) in
    if geb cmp start end_ then None else Some (mkR start end_).

  (** [RangeOrder for RangeInclusive] operations.rs:24-32 *)
  Definition ri_order_start (a b : rangei K) : comparison := cmp (ri_start a) (ri_start b).
  Definition ri_order_end (a b : rangei K) : comparison := cmp (ri_end a) (ri_end b).
  (** [RangeMerge for RangeInclusive] operations.rs:54-66 *)
  Definition ri_merge (self other : rangei K) : bool * rangei K :=
    if negb (ri_contains cmp self (ri_start other)) then (false, self)
    else (true, if gtb cmp (ri_end other) (ri_end self)
                then mkRI (ri_start self) (ri_end other) false else self).
  (** [RangeIntersect for RangeInclusive] operations.rs:87-98 *)
  Definition ri_intersect (self other : rangei K) : option (rangei K) :=
    let start := kmax cmp (ri_start self) (ri_start other) in
    let end_ := kmin cmp (ri_end self) (ri_end other) in
    if gtb cmp start end_ then None else Some (mkRI start end_ false).
End Traits.

(** ** [core::iter::Peekable], operations.rs:114-115, 197-198 *)
Record peekable (I R : Type) : Type := mkPeek {
  pk_iter : I;
  pk_peeked : option (option R)
}.
Arguments mkPeek {I R} _ _.
Arguments pk_iter {I R} _.
Arguments pk_peeked {I R} _.

Section Ops.
  Context {R I : Type} (inext : I -> option R * I) (ilen : I -> nat).

  (** [Iterator::peekable] (core), operations.rs:129-130, 212-213 *)
  Definition pk_new (i : I) : peekable I R := mkPeek i None.
  (** [Peekable::peek] (core), operations.rs:144, 163, 228: [peeked.get_or_insert_with(|| iter.next())] *)
  Definition pk_peek (p : peekable I R) : option R * peekable I R :=
    match pk_peeked p with
    | Some o => (o, p)
    | None => let (o, i) := inext (pk_iter p) in (o, mkPeek i (Some o))
    end.
  (** [Peekable::next] (core), operations.rs:146-153, 165: [peeked.take()] or [iter.next()] *)
  Definition pk_next (p : peekable I R) : option R * peekable I R :=
    match pk_peeked p with
    | Some o => (o, mkPeek (pk_iter p) None)
    | None => let (o, i) := inext (pk_iter p) in (o, mkPeek i None)
    end.
  Definition pk_len (p : peekable I R) : nat :=
    match pk_peeked p with Some (Some _) => 1 | _ => 0 end + ilen (pk_iter p).

  (** [Union] operations.rs:108-116 and [Intersection] 191-199: the same two fields *)
  Record pair_iter : Type := mkPair {
    op_left : peekable I R;
    op_right : peekable I R
  }.
  (** [Union::new] operations.rs:127-132, [Intersection::new] 210-215 *)
  Definition op_new (left right : I) : pair_iter := mkPair (pk_new left) (pk_new right).

  Definition peek_left : M pair_iter (option R) := fun u =>
    let (o, p) := pk_peek (op_left u) in (Ret o, mkPair p (op_right u)).
  Definition peek_right : M pair_iter (option R) := fun u =>
    let (o, p) := pk_peek (op_right u) in (Ret o, mkPair (op_left u) p).
  Definition next_left : M pair_iter (option R) := fun u =>
    let (o, p) := pk_next (op_left u) in (Ret o, mkPair p (op_right u)).
  Definition next_right : M pair_iter (option R) := fun u =>
    let (o, p) := pk_next (op_right u) in (Ret o, mkPair (op_left u) p).

  Context (order_start order_end : R -> R -> comparison).
  Context (merge : R -> R -> bool * R) (intersect : R -> R -> option R).

  (** the closure [join] operations.rs:162-170, for the given side; returns the
      boolean and the captured [range] *)
  Definition un_join (peek next : M pair_iter (option R)) (range : R) : M pair_iter (bool * R) :=
    (o <- peek ;;
     match o with
     | Some nxt =>
         let (b, range') := merge range nxt in
         if b then (next ;;; ret (true, range')) else ret (false, range')
     | None => ret (false, range)
     end)%M.
  (** the [loop] operations.rs:173-177: [join(left) || join(right)] evaluates the
      second only if the first is [false] *)
  Fixpoint un_loop (fuel : nat) (range : R) : M pair_iter R :=
    match fuel with
    | O => nofuel
    | S fuel' =>
        (x <- un_join peek_left next_left range ;;
         if fst x then un_loop fuel' (snd x)
         else
           y <- un_join peek_right next_right (snd x) ;;
           if fst y then un_loop fuel' (snd y) else ret (snd y))%M
    end.
  (** [unwrap] of a value that has just been peeked; the [None] case is a panic
      which the theorems exclude *)
  Definition unwrap {S} (o : option R) : M S R :=
    match o with Some r => ret r | None => throw PAssert end.
  (** [Union::next] operations.rs:142-180.  The loop gets fuel for all remaining
      items. *)
  Definition un_next : M pair_iter (option R) :=
    (l <- peek_left ;;
     r <- peek_right ;;
     first <- match l, r with
              | Some _, None => o <- next_left ;; r <- unwrap o ;; ret (Some r)
              | None, Some _ => o <- next_right ;; r <- unwrap o ;; ret (Some r)
              | Some lt_, Some rt_ =>
                  match order_start lt_ rt_ with
                  | Lt => o <- next_left ;; r <- unwrap o ;; ret (Some r)
                  | _ => o <- next_right ;; r <- unwrap o ;; ret (Some r)
                  end
              | None, None => ret None
              end ;;
     match first with
     | None => ret None
     | Some range =>
         u <- get ;;
         range' <- un_loop (pk_len (op_left u) + pk_len (op_right u) + 1) range ;;
         ret (Some range')
     end)%M.

  (** the [loop] of [Intersection::next] operations.rs:226-244 *)
  Fixpoint in_loop (fuel : nat) : M pair_iter (option R) :=
    match fuel with
    | O => nofuel
    | S fuel' =>
        (l <- peek_left ;;
         r <- peek_right ;;
         match l, r with
         | Some lt_, Some rt_ =>
             let intersection := intersect lt_ rt_ in
             match order_end lt_ rt_ with
             | Lt => next_left
             | _ => next_right
             end ;;;
             match intersection with
             | Some i => ret (Some i)
             | None => in_loop fuel'
             end
         | _, _ => ret None
         end)%M
    end.
  (** [Intersection::next] operations.rs:225-245 *)
  Definition in_next : M pair_iter (option R) :=
    (u <- get ;;
     in_loop (pk_len (op_left u) + pk_len (op_right u) + 1))%M.
End Ops.
Arguments pair_iter : clear implicits.
Arguments mkPair {R I} _ _.
Arguments op_left {R I} _.
Arguments op_right {R I} _.

(** Draining an iterator whose [next] may panic ([Iterator::for_each] as used by
    [extend], hence by [collect]): the items up to the first [None]. *)
Fixpoint drain {S A} (next : M S (option A)) (fuel : nat) : M S (list A) :=
  match fuel with
  | O => nofuel
  | Datatypes.S fuel' =>
      (o <- next ;;
       match o with
       | None => ret []
       | Some a => l <- drain next fuel' ;; ret (a :: l)
       end)%M
  end.
