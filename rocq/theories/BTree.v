(** Model of the part of [alloc::collections::BTreeMap] that the crate uses.

    A [BTreeMap<Q, V>] is modelled as the association list of its entries in
    iteration order.  [c : Q -> Q -> comparison] is [Ord::cmp] of the key type.
    This file models std, not the crate; it is part of the trusted base and
    follows std's documented behaviour:
    - [insert] on an existing (Equal) key replaces the VALUE AND KEEPS THE OLD
      KEY OBJECT.  This matters here because the crate's keys compare equal
      while carrying different range ends (range_wrapper.rs:48-66).
    - [range] panics if start > end, or start == end with both Excluded.  (std
      skips this check for a map that never allocated; the model always makes
      it, which can only produce more panics.)
    - [range] may be asked in terms of another ordering through [Borrow]; the
      search then locates the boundaries by that ordering. *)
From Coq Require Import List Bool.
From Verif Require Import Outcome.
Import ListNotations.

Inductive bound (Q : Type) : Type :=
| Unbounded
| Included (q : Q)
| Excluded (q : Q).
Arguments Unbounded {Q}.
Arguments Included {Q} q.
Arguments Excluded {Q} q.

Section BTree.
  Context {Q V : Type}.

  (** [BTreeMap::insert]; called at map.rs:362, 467, 476, 502, 509,
      inclusive_map.rs:373, 491, 501, 528, 537 *)
  Fixpoint bt_insert (c : Q -> Q -> comparison) (k : Q) (v : V) (m : list (Q * V))
    : list (Q * V) :=
    match m with
    | [] => [(k, v)]
    | (k', v') :: m' =>
        match c k k' with
        | Lt => (k, v) :: m
        | Eq => (k', v) :: m'
        | Gt => (k', v') :: bt_insert c k v m'
        end
    end.

  (** [BTreeMap::remove] (the returned old value is ignored by the crate);
      called at map.rs:457, 464, 498, inclusive_map.rs:481, 488, 524 *)
  Fixpoint bt_remove (c : Q -> Q -> comparison) (k : Q) (m : list (Q * V))
    : list (Q * V) :=
    match m with
    | [] => []
    | (k', v') :: m' =>
        match c k k' with
        | Lt => m
        | Eq => m'
        | Gt => (k', v') :: bt_remove c k m'
        end
    end.

  (** Is key [k] to the left of the lower bound / right of the upper bound?
      The bounds are given at map.rs:168, 210, 280, 328, 390, 422 and
      inclusive_map.rs:206, 277, 323, 409, 442, 578. *)
  Definition below (c : Q -> Q -> comparison) (lo : bound Q) (k : Q) : bool :=
    match lo with
    | Unbounded => false
    | Included q => match c k q with Lt => true | _ => false end
    | Excluded q => match c k q with Gt => false | _ => true end
    end.
  Definition above (c : Q -> Q -> comparison) (hi : bound Q) (k : Q) : bool :=
    match hi with
    | Unbounded => false
    | Included q => match c k q with Gt => true | _ => false end
    | Excluded q => match c k q with Lt => false | _ => true end
    end.

  (** The documented panics of [BTreeMap::range]. *)
  Definition bad_bounds (c : Q -> Q -> comparison) (lo hi : bound Q) : bool :=
    match lo, hi with
    | Excluded s, Excluded e => match c s e with Lt => false | _ => true end
    | Included s, Included e | Included s, Excluded e | Excluded s, Included e =>
        match c s e with Gt => true | _ => false end
    | _, _ => false
    end.

  Fixpoint drop_while {A} (p : A -> bool) (l : list A) : list A :=
    match l with
    | [] => []
    | a :: l' => if p a then drop_while p l' else l
    end.
  Fixpoint take_while {A} (p : A -> bool) (l : list A) : list A :=
    match l with
    | [] => []
    | a :: l' => if p a then a :: take_while p l' else []
    end.

  (** [BTreeMap::range], yielding the entries in ascending order; called at
      map.rs:168, 210, 280, 328, 390, 422,
      inclusive_map.rs:206, 277, 323, 409, 442, 578. *)
  Definition bt_range (c : Q -> Q -> comparison) (lo hi : bound Q) (m : list (Q * V))
    : outcome (list (Q * V)) :=
    if bad_bounds c lo hi then Panicked PBTreeRange
    else Ret (take_while (fun e => negb (above c hi (fst e)))
               (drop_while (fun e => below c lo (fst e)) m)).
End BTree.

(** std's double-ended iterators over a map ([Iter], [IntoIter], [Range]) are
    modelled as the list of entries not yet yielded. *)
Definition it_next {A} (l : list A) : option A * list A :=
  match l with [] => (None, []) | a :: l' => (Some a, l') end.
Definition it_next_back {A} (l : list A) : option A * list A :=
  match rev l with [] => (None, []) | a :: l' => (Some a, rev l') end.
Definition it_size_hint {A} (l : list A) : nat * option nat :=
  (length l, Some (length l)).

(** [first_key_value] / [last_key_value]; called at map.rs:230, 238,
      inclusive_map.rs:597, 605 *)
Definition first_opt {A} (l : list A) : option A := fst (it_next l).
Definition last_opt {A} (l : list A) : option A := fst (it_next_back l).
