(** Model of the union and intersection iterators (operations.rs) with the
    calls of the keys' comparison methods ([cmp], [<], [<=], [>], [>=], [max],
    [min]) made explicit, and left to an arbitrary implementation: the [n]-th
    comparison made, of [a] with [b], answers [kc n a b].  Nothing is assumed of
    [kc]: it may be inconsistent, or answer differently each time.  The state
    carries the number of comparisons made so far.
    Everything else follows OpsModel.v line by line; clones give back the value
    they were made of, as there. *)
From Coq Require Import List Bool.
From Verif Require Import Order Outcome BTree Ranges History OpsModel SetModel ISetModel CloneModel CloneSetModel.
Import ListNotations.

(** ** The keys' methods *)
Section Keys.
  Context {K : Type} (kc : nat -> K -> K -> comparison).
  (** [Ord::cmp] *)
  Definition qcmp {S} (a b : K) : M (counted S) comparison :=
    fun s => (Ret (kc (fst s) a b), (Datatypes.S (fst s), snd s)).
  (** [PartialOrd::lt], [le], [gt], [ge]: one call each *)
  Definition qlt {S} (a b : K) : M (counted S) bool :=
    (c <- qcmp a b ;; ret (match c with Lt => true | _ => false end))%M.
  Definition qle {S} (a b : K) : M (counted S) bool :=
    (c <- qcmp a b ;; ret (match c with Gt => false | _ => true end))%M.
  Definition qgt {S} (a b : K) : M (counted S) bool :=
    (c <- qcmp a b ;; ret (match c with Gt => true | _ => false end))%M.
  Definition qge {S} (a b : K) : M (counted S) bool :=
    (c <- qcmp a b ;; ret (match c with Lt => false | _ => true end))%M.
  (** [Ord::max], [Ord::min]: one call each, as [kmax] and [kmin] *)
  Definition qmax {S} (a b : K) : M (counted S) K :=
    (c <- qcmp a b ;; ret (match c with Gt => a | _ => b end))%M.
  Definition qmin {S} (a b : K) : M (counted S) K :=
    (c <- qcmp a b ;; ret (match c with Gt => b | _ => a end))%M.
End Keys.

(** ** The traits' methods *)
Section Traits.
  Context {K : Type} (kc : nat -> K -> K -> comparison).
  (** [Range::contains] (core): [start <= item && item < end] *)
  Definition r_containsq {S} (r : range K) (k : K) : M (counted S) bool :=
    (b <- qle kc (r_start r) k ;; if b : bool then qlt kc k (r_end r) else ret false)%M.
  (** [RangeOrder for Range] operations.rs:14-22 *)
  Definition r_order_startq {S} (a b : range K) : M (counted S) comparison := qcmp kc (r_start a) (r_start b).
  Definition r_order_endq {S} (a b : range K) : M (counted S) comparison := qcmp kc (r_end a) (r_end b).
  (** [RangeMerge for Range] operations.rs:40-52 *)
  Definition r_mergeq {S} (self other : range K) : M (counted S) (bool * range K) :=
    (c <- r_containsq self (r_start other) ;;
     if negb c then ret (false, self)
     else
       g <- qgt kc (r_end other) (r_end self) ;;
       ret (true, if g : bool then mkR (r_start self) (r_end other) else self))%M.
  (** [RangeIntersect for Range] operations.rs:74-85 *)
  Definition r_intersectq {S} (self other : range K) : M (counted S) (option (range K)) :=
    (start <- qmax kc (r_start self) (r_start other) ;;
     end_ <- qmin kc (r_end self) (r_end other) ;;
     g <- qge kc start end_ ;;
     ret (if g : bool then None else Some (mkR start end_)))%M.
  (** [RangeInclusive::contains] (core): [start <= item], and [item < end] for an
      exhausted range, [item <= end] for any other *)
  Definition ri_containsq {S} (r : rangei K) (k : K) : M (counted S) bool :=
    (b <- qle kc (ri_start r) k ;;
     if b : bool then (if ri_exhausted r then qlt kc k (ri_end r) else qle kc k (ri_end r)) else ret false)%M.
  (** [RangeOrder for RangeInclusive] operations.rs:24-32 *)
  Definition ri_order_startq {S} (a b : rangei K) : M (counted S) comparison := qcmp kc (ri_start a) (ri_start b).
  Definition ri_order_endq {S} (a b : rangei K) : M (counted S) comparison := qcmp kc (ri_end a) (ri_end b).
  (** [RangeMerge for RangeInclusive] operations.rs:54-66 *)
  Definition ri_mergeq {S} (self other : rangei K) : M (counted S) (bool * rangei K) :=
    (c <- ri_containsq self (ri_start other) ;;
     if negb c then ret (false, self)
     else
       g <- qgt kc (ri_end other) (ri_end self) ;;
       ret (true, if g : bool then mkRI (ri_start self) (ri_end other) false else self))%M.
  (** [RangeIntersect for RangeInclusive] operations.rs:87-98 *)
  Definition ri_intersectq {S} (self other : rangei K) : M (counted S) (option (rangei K)) :=
    (start <- qmax kc (ri_start self) (ri_start other) ;;
     end_ <- qmin kc (ri_end self) (ri_end other) ;;
     g <- qgt kc start end_ ;;
     ret (if g : bool then None else Some (mkRI start end_ false)))%M.
End Traits.

(** ** The iterators *)
Section Ops.
  Context {R I : Type} (inext : I -> option R * I) (ilen : I -> nat).
  Notation CP := (M (counted (pair_iter R I))).
  Context (order_start order_end : R -> R -> CP comparison).
  Context (merge : R -> R -> CP (bool * R)) (intersect : R -> R -> CP (option R)).
  Notation peek_left := (nocl (peek_left inext)).
  Notation peek_right := (nocl (peek_right inext)).
  Notation next_left := (nocl (next_left inext)).
  Notation next_right := (nocl (next_right inext)).

  (** the closure [join] operations.rs:162-170 *)
  Definition unq_join (peek next : CP (option R)) (range : R) : CP (bool * R) :=
    (o <- peek ;;
     match o with
     | Some nxt =>
         x <- merge range nxt ;;
         if fst x then (next ;;; ret (true, snd x)) else ret (false, snd x)
     | None => ret (false, range)
     end)%M.
  (** the [loop] operations.rs:173-177 *)
  Fixpoint unq_loop (fuel : nat) (range : R) : CP R :=
    match fuel with
    | O => nofuel
    | S fuel' =>
        (x <- unq_join peek_left next_left range ;;
         if fst x then unq_loop fuel' (snd x)
         else
           y <- unq_join peek_right next_right (snd x) ;;
           if fst y then unq_loop fuel' (snd y) else ret (snd y))%M
    end.
  (** [Union::next] operations.rs:142-180 *)
  Definition unq_next : CP (option R) :=
    (l <- peek_left ;;
     r <- peek_right ;;
     first <- match l, r with
              | Some _, None => o <- next_left ;; r <- unwrap o ;; ret (Some r)
              | None, Some _ => o <- next_right ;; r <- unwrap o ;; ret (Some r)
              | Some lt_, Some rt_ =>
                  c <- order_start lt_ rt_ ;;
                  match c with
                  | Lt => o <- next_left ;; r <- unwrap o ;; ret (Some r)
                  | _ => o <- next_right ;; r <- unwrap o ;; ret (Some r)
                  end
              | None, None => ret None
              end ;;
     match first with
     | None => ret None
     | Some range =>
         u <- cget ;;
         range' <- unq_loop (pk_len ilen (op_left u) + pk_len ilen (op_right u) + 1) range ;;
         ret (Some range')
     end)%M.
  (** the [loop] of [Intersection::next] operations.rs:226-244 *)
  Fixpoint inq_loop (fuel : nat) : CP (option R) :=
    match fuel with
    | O => nofuel
    | S fuel' =>
        (l <- peek_left ;;
         r <- peek_right ;;
         match l, r with
         | Some lt_, Some rt_ =>
             intersection <- intersect lt_ rt_ ;;
             c <- order_end lt_ rt_ ;;
             match c with
             | Lt => next_left
             | _ => next_right
             end ;;;
             match intersection with
             | Some i => ret (Some i)
             | None => inq_loop fuel'
             end
         | _, _ => ret None
         end)%M
    end.
  (** [Intersection::next] operations.rs:225-245 *)
  Definition inq_next : CP (option R) :=
    (u <- cget ;;
     inq_loop (pk_len ilen (op_left u) + pk_len ilen (op_right u) + 1))%M.
End Ops.

(** ** The iterators of the sets *)
Section Sets.
  Context {K : Type} (kc : nat -> K -> K -> comparison).
  (** [Union], [Intersection] of [RangeSet] set.rs:17-21 *)
  Definition rsq_union_next : M (counted (pair_iter (range K) (list (range K * unit)))) (option (range K)) :=
    unq_next rs_iter_next (@length _) (r_order_startq kc) (r_mergeq kc).
  Definition rsq_intersection_next : M (counted (pair_iter (range K) (list (range K * unit)))) (option (range K)) :=
    inq_next rs_iter_next (@length _) (r_order_endq kc) (r_intersectq kc).
  (** [Union], [Intersection] of [RangeInclusiveSet] inclusive_set.rs:18-22 *)
  Definition isq_union_next : M (counted (pair_iter (rangei K) (list (rangei K * unit)))) (option (rangei K)) :=
    unq_next is_iter_next (@length _) (ri_order_startq kc) (ri_mergeq kc).
  Definition isq_intersection_next : M (counted (pair_iter (rangei K) (list (rangei K * unit)))) (option (rangei K)) :=
    inq_next is_iter_next (@length _) (ri_order_endq kc) (ri_intersectq kc).
End Sets.
