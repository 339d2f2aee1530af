(** Control effects of the modelled code: panics and non-termination.

    A Rust method taking [&mut self] becomes a computation [M S A]: from the
    current state it yields an outcome AND the state left behind.  When the
    code panics the state left behind is the one at the moment of the panic,
    i.e. what a caller sees after [catch_unwind].  A [while]/[loop] gets
    explicit fuel; running out of it is the separate outcome [OutOfFuel],
    which theorems exclude. *)
From Coq Require Import List Bool.
Import ListNotations.

Inductive panic : Type :=
| PAssert      (* an [assert!] in the crate: map.rs:264,378; inclusive_map.rs:256,393 *)
| PBTreeRange  (* [BTreeMap::range] called with ill-formed bounds (std docs)          *)
| PStep.       (* user/std [add_one]/[sub_one] panicked, or integer [+]/[-] overflowed     *)

Inductive outcome (A : Type) : Type :=
| Ret (a : A)
| Panicked (p : panic)
| OutOfFuel.
Arguments Ret {A} a.
Arguments Panicked {A} p.
Arguments OutOfFuel {A}.

Definition obind {A B} (o : outcome A) (f : A -> outcome B) : outcome B :=
  match o with Ret a => f a | Panicked p => Panicked p | OutOfFuel => OutOfFuel end.
Definition omap {A B} (f : A -> B) (o : outcome A) : outcome B :=
  obind o (fun a => Ret (f a)).

Definition M (S A : Type) : Type := S -> outcome A * S.

Definition ret {S A} (a : A) : M S A := fun s => (Ret a, s).
Definition bind {S A B} (c : M S A) (f : A -> M S B) : M S B :=
  fun s => match c s with
           | (Ret a, s') => f a s'
           | (Panicked p, s') => (Panicked p, s')
           | (OutOfFuel, s') => (OutOfFuel, s')
           end.
Definition get {S} : M S S := fun s => (Ret s, s).
Definition modify {S} (f : S -> S) : M S unit := fun s => (Ret tt, f s).
Definition throw {S A} (p : panic) : M S A := fun s => (Panicked p, s).
Definition nofuel {S A} : M S A := fun s => (OutOfFuel, s).
(** Run a computation that does not touch the state. *)
Definition lift {S A} (o : outcome A) : M S A := fun s => (o, s).
Definition assert_ {S} (b : bool) : M S unit :=
  if b then ret tt else throw PAssert.

Declare Scope m_scope.
Delimit Scope m_scope with M.
Notation "x <- c ;; d" := (bind c (fun x => d))
  (at level 61, c at next level, right associativity) : m_scope.
Notation "c ;;; d" := (bind c (fun _ => d))
  (at level 61, right associativity) : m_scope.

(** [for_each] with a body that may panic (map.rs:628, inclusive_map.rs:723,
    set.rs:282, inclusive_set.rs:308): runs left to right, stops at the
    first panic (core::iter::Iterator::for_each). *)
Fixpoint for_each {S A} (f : A -> M S unit) (l : list A) : M S unit :=
  match l with
  | [] => ret tt
  | a :: l' => (f a ;;; for_each f l')%M
  end.

(** Lazy [filter] drained to the end with a predicate that may panic
    (inclusive_map.rs:283). *)
Fixpoint filter_o {A} (p : A -> outcome bool) (l : list A) : outcome (list A) :=
  match l with
  | [] => Ret []
  | a :: l' => obind (p a) (fun b => obind (filter_o p l') (fun r =>
                 Ret (if b then a :: r else r)))
  end.
