(** Specifications for interrupted queries.  Nothing here refers to the model but
    the results of calls ([outcome]) and the ends of an iterator ([side]). *)
From Coq Require Import List.
From Verif Require Import Outcome History.
Import ListNotations.

(** [drops n l l']: [l'] is [l] with [n] of its elements left out. *)
Inductive drops {A} : nat -> list A -> list A -> Prop :=
| drops_nil : drops 0 [] []
| drops_keep n a l l' : drops n l l' -> drops n (a :: l) (a :: l')
| drops_skip n a l l' : drops n l l' -> drops (S n) (a :: l) l'.

(** [deals l kept lost]: every element of [l] is put into either [kept] or
    [lost], in order. *)
Inductive deals {A} : list A -> list A -> list A -> Prop :=
| deals_nil : deals [] [] []
| deals_keep a l kept lost : deals l kept lost -> deals (a :: l) (a :: kept) lost
| deals_lose a l kept lost : deals l kept lost -> deals (a :: l) kept (a :: lost).

(** What the calls on one end of an iterator gave. *)
Fixpoint given {A} (d : side) (l : list (side * outcome (option A))) : list A :=
  match l with
  | [] => []
  | (d', Ret (Some a)) :: l' =>
      match d, d' with
      | Front, Front | Back, Back => a :: given d l'
      | _, _ => given d l'
      end
  | _ :: l' => given d l'
  end.
