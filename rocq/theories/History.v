(** Histories of calls on a map, for either kind of map ([R] is the range type).

    These are the public methods that mutate a map (map.rs:129, 261, 375, 627;
    inclusive_map.rs:222, 249, 386, 722).  A call that panics is assumed to be
    caught: the history continues from the state it left behind. *)
From Coq Require Import List.
From Verif Require Import Outcome.
Import ListNotations.

Inductive op (R V : Type) : Type :=
| OInsert (r : R) (v : V)
| ORemove (r : R)
| OClear
| OExtend (l : list (R * V)).
Arguments OInsert {R V} r v.
Arguments ORemove {R V} r.
Arguments OClear {R V}.
Arguments OExtend {R V} l.

(** The state after running all calls in order. *)
Definition run_ops {O S} (exec : O -> M S unit) (ops : list O) (s : S) : S :=
  fold_left (fun s o => snd (exec o s)) ops s.

(** Schedules of [next] ([Front]) and [next_back] ([Back]) calls on a
    double-ended iterator with step function [step]; after each call an
    observation [obs] (e.g. [size_hint]) is taken. *)
Inductive side : Type := Front | Back.
Fixpoint sched_trace {S A B} (step : side -> S -> option A * S) (obs : S -> B)
    (sched : list side) (s : S) : list (option A * B) :=
  match sched with
  | [] => []
  | d :: sched' => let (o, s') := step d s in (o, obs s') :: sched_trace step obs sched' s'
  end.
Definition both {S A} (next next_back : S -> option A * S) (d : side) (s : S) : option A * S :=
  match d with Front => next s | Back => next_back s end.
(** The iterator a schedule of calls leaves behind. *)
Fixpoint sched_end {S A} (step : side -> S -> option A * S) (sched : list side) (s : S) : S :=
  match sched with
  | [] => s
  | d :: sched' => sched_end step sched' (snd (step d s))
  end.
(** The results of [n] successive calls of [next]. *)
Fixpoint nexts {S A} (next : S -> option A * S) (n : nat) (s : S) : list (option A) :=
  match n with
  | O => []
  | Datatypes.S n' => let (o, s') := next s in o :: nexts next n' s'
  end.
(** The same when [next] itself may panic. *)
Fixpoint nexts_m {S A} (next : M S (option A)) (n : nat) (s : S) : list (outcome (option A)) :=
  match n with
  | O => []
  | Datatypes.S n' => let (o, s') := next s in o :: nexts_m next n' s'
  end.

(** Histories of calls on a set (set.rs:93, 126, 139, 281; inclusive_set.rs:123,
    146, 159, 307). *)
Inductive sop (R : Type) : Type :=
| SInsert (r : R)
| SRemove (r : R)
| SClear
| SExtend (l : list R).
Arguments SInsert {R} r.
Arguments SRemove {R} r.
Arguments SClear {R}.
Arguments SExtend {R} l.

(** Programs combining sets: an empty set, a call on a set, and the two binary
    operators (set.rs:417-431; inclusive_set.rs:435-449). *)
Inductive sexp (R : Type) : Type :=
| XNew
| XOp (x : sexp R) (o : sop R)
| XOr (x y : sexp R)
| XAnd (x y : sexp R).
Arguments XNew {R}.
Arguments XOp {R} x o.
Arguments XOr {R} x y.
Arguments XAnd {R} x y.
