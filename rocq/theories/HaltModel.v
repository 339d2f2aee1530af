(** Interrupted queries: what an iterator does that is used again after user code
    panicked inside one of its calls.

    The iterators change their fields between the calls of user code ([Ord],
    [Clone], [StepFns], [Borrow]).  A computation is recorded with, for every call
    of user code, the kind of the call and the fields of the iterator at that
    moment: those are the fields left behind if that call panics and the panic is
    caught.  Otherwise the functions below follow MapModel.v, IMapModel.v and
    OpsModel.v; HaltFacts.v proves that forgetting the record gives back the
    functions there.  The iterator over the [BTreeMap] calls no user code once it
    has been made (std's [btree_map::Range] only walks the tree, trusted). *)
From Coq Require Import List Bool.
From Verif Require Import Order Outcome BTree Ranges History MapModel IMapModel OpsModel.
Import ListNotations.

(** What user code is called: a comparison of keys, [Clone::clone] of a key,
    [StepFns::add_one]/[sub_one], [Borrow::borrow] of a query. *)
Inductive ucall : Type := UCmp | UClone | UStep | UBorrow.

(** A computation with the user calls it makes, and the state at each of them. *)
Definition H (S A : Type) : Type := S -> list (ucall * S) * (outcome A * S).
Definition hret {S A} (a : A) : H S A := fun s => ([], (Ret a, s)).
Definition hbind {S A B} (c : H S A) (f : A -> H S B) : H S B :=
  fun s => match c s with
           | (t, (Ret a, s')) => let (t', x) := f a s' in (t ++ t', x)
           | (t, (Panicked p, s')) => (t, (Panicked p, s'))
           | (t, (OutOfFuel, s')) => (t, (OutOfFuel, s'))
           end.
Definition hget {S} : H S S := fun s => ([], (Ret s, s)).
Definition hmodify {S} (f : S -> S) : H S unit := fun s => ([], (Ret tt, f s)).
Definition hlift {S A} (o : outcome A) : H S A := fun s => ([], (o, s)).
Definition hnofuel {S A} : H S A := fun s => ([], (OutOfFuel, s)).
Definition user {S} (u : ucall) : H S unit := fun s => ([(u, s)], (Ret tt, s)).

Declare Scope h_scope.
Delimit Scope h_scope with H.
Notation "x <- c ;; d" := (hbind c (fun x => d))
  (at level 61, c at next level, right associativity) : h_scope.
Notation "c ;;; d" := (hbind c (fun _ => d))
  (at level 61, right associativity) : h_scope.

(** What comes of a call: its result, or a panic of the given user call. *)
Inductive event (A : Type) : Type := Got (o : outcome A) | Halt (u : ucall).
Arguments Got {A} o.
Arguments Halt {A} u.
(** A call in which the [n]-th user call (counted from 0) panics, if [cut] is
    [Some n] and the call makes that many. *)
Definition halting {S A} (c : H S A) (cut : option nat) (s : S) : event A * S :=
  match cut with
  | Some n => match nth_error (fst (c s)) n with
              | Some (u, s') => (Halt u, s')
              | None => (Got (fst (snd (c s))), snd (snd (c s)))
              end
  | None => (Got (fst (snd (c s))), snd (snd (c s)))
  end.
(** Successive calls on an iterator. *)
Fixpoint halt_run {D S A} (next : D -> H S A) (sched : list (D * option nat)) (s : S) : list (D * event A) :=
  match sched with
  | [] => []
  | (d, cut) :: sched' => let (e, s') := halting (next d) cut s in (d, e) :: halt_run next sched' s'
  end.
(** the calls that were not interrupted, with their results *)
Fixpoint completed {D A} (l : list (D * event A)) : list (D * outcome A) :=
  match l with
  | [] => []
  | (d, Got o) :: l' => (d, o) :: completed l'
  | (_, Halt _) :: l' => completed l'
  end.
(** the user calls that panicked *)
Fixpoint panics {D A} (l : list (D * event A)) : list ucall :=
  match l with
  | [] => []
  | (_, Got _) :: l' => panics l'
  | (_, Halt u) :: l' => u :: panics l'
  end.
Definition is_cmp (u : ucall) : bool := match u with UCmp => true | _ => false end.

Section Half.
  Context {K V : Type} (cmp : K -> K -> comparison).
  Notation ltb := (ltb cmp).
  Notation leb := (leb cmp).

  (** [Overlapping::next] map.rs:790-804: the item is taken before the comparison
      [k.start < self.query_range.borrow().end] *)
  Definition ovh_next : H (overlapping K V) (option (range K * V)) :=
    (o <- hget ;;
     match ov_iter o with
     | [] => hret None
     | e :: l =>
         hmodify (fun o => mkOverlapping (ov_query o) l) ;;;
         user UBorrow ;;; user UCmp ;;;
         hret (if ltb (r_start (fst e)) (r_end (ov_query o)) then Some e else None)
     end)%H.
  (** [Overlapping::next_back] map.rs:811-819; [rl] are the items left, the last one first *)
  Fixpoint ovh_back_loop (rl : list (range K * V)) : H (overlapping K V) (option (range K * V)) :=
    match rl with
    | [] => hret None
    | e :: rl' =>
        (hmodify (fun o => mkOverlapping (ov_query o) (rev rl')) ;;;
         o <- hget ;;
         user UBorrow ;;; user UCmp ;;;
         if ltb (r_start (fst e)) (r_end (ov_query o)) then hret (Some e) else ovh_back_loop rl')%H
    end.
  Definition ovh_next_back : H (overlapping K V) (option (range K * V)) :=
    (o <- hget ;; ovh_back_loop (rev (ov_iter o)))%H.
  Definition ovh_step (d : side) : H (overlapping K V) (option (range K * V)) :=
    match d with Front => ovh_next | Back => ovh_next_back end.

  (** the [for overlap in self.btm_range_iter.by_ref()] loop of [Gaps::next]
      map.rs:730-750; [l] are the items left: the item is taken, then compared
      with the end of the query, and only then is [candidate_start] moved *)
  Fixpoint gph_loop (l : list (range K * V)) : H (gaps K V) (option (range K)) :=
    match l with
    | [] => hret None
    | (overlap, _) :: l' =>
        (hmodify (fun g => mkGaps (gp_candidate_start g) (gp_query_end g) l') ;;;
         g <- hget ;;
         user UCmp ;;;
         if leb (gp_query_end g) (r_start overlap) then hret None                  (* break *)
         else
           hmodify (fun g => mkGaps (r_end overlap) (gp_query_end g) (gp_iter g)) ;;;
           user UCmp ;;;
           if ltb (gp_candidate_start g) (r_start overlap)
           then user UClone ;;; user UClone ;;;
                hret (Some (mkR (gp_candidate_start g) (r_start overlap)))
           else gph_loop l')%H
    end.
  (** [Gaps::next] map.rs:728-761 *)
  Definition gph_next : H (gaps K V) (option (range K)) :=
    (g <- hget ;;
     r <- gph_loop (gp_iter g) ;;
     match r with
     | Some gap => hret (Some gap)
     | None =>
         g <- hget ;;
         user UCmp ;;;
         if ltb (gp_candidate_start g) (gp_query_end g)
         then user UClone ;;; user UClone ;;;
              hmodify (fun g => mkGaps (gp_query_end g) (gp_query_end g) (gp_iter g)) ;;;
              hret (Some (mkR (gp_candidate_start g) (gp_query_end g)))
         else hret None
     end)%H.
End Half.

Section Incl.
  Context {K V : Type} (cmp : K -> K -> comparison) (st : stepfns K).
  Notation ltb := (ltb cmp).
  Notation leb := (leb cmp).

  (** [Overlapping::next] inclusive_map.rs:901-922 *)
  Definition ovhi_next : H (overlappingi K V) (option (rangei K * V)) :=
    (o <- hget ;;
     match ovi_iter o with
     | [] => hret None
     | e :: l =>
         hmodify (fun o => mkOverlappingI (ovi_query o) l) ;;;
         user UBorrow ;;; user UCmp ;;;
         hret (if leb (ri_start (fst e)) (ri_end (ovi_query o)) then Some e else None)
     end)%H.
  (** [Overlapping::next_back] inclusive_map.rs:924-936 *)
  Fixpoint ovhi_back_loop (rl : list (rangei K * V)) : H (overlappingi K V) (option (rangei K * V)) :=
    match rl with
    | [] => hret None
    | e :: rl' =>
        (hmodify (fun o => mkOverlappingI (ovi_query o) (rev rl')) ;;;
         o <- hget ;;
         user UBorrow ;;; user UCmp ;;;
         if leb (ri_start (fst e)) (ri_end (ovi_query o)) then hret (Some e) else ovhi_back_loop rl')%H
    end.
  Definition ovhi_next_back : H (overlappingi K V) (option (rangei K * V)) :=
    (o <- hget ;; ovhi_back_loop (rev (ovi_iter o)))%H.
  Definition ovhi_step (d : side) : H (overlappingi K V) (option (rangei K * V)) :=
    match d with Front => ovhi_next | Back => ovhi_next_back end.

  (** the [for] loop of [Gaps::next] inclusive_map.rs:836-861 *)
  Fixpoint gphi_loop (l : list (rangei K * V)) : H (gapsi K V) (option (rangei K)) :=
    match l with
    | [] => hret None
    | (overlap, _) :: l' =>
        (hmodify (fun g => mkGapsI (gpi_needs_plus_one g) (gpi_candidate_start g) (gpi_query_end g) l') ;;;
         g <- hget ;;
         user UCmp ;;;
         if ltb (gpi_query_end g) (ri_start overlap) then hret None               (* break *)
         else
           hmodify (fun g => mkGapsI true (ri_end overlap) (gpi_query_end g) (gpi_iter g)) ;;;
           cur <- (if gpi_needs_plus_one g
                   then user UStep ;;; hlift (step_o (add_one st (gpi_candidate_start g)))
                   else user UClone ;;; hret (gpi_candidate_start g)) ;;
           user UCmp ;;;
           if ltb cur (ri_start overlap)
           then user UStep ;;; p <- hlift (step_o (sub_one st (ri_start overlap))) ;;
                hret (Some (incl cur p))
           else gphi_loop l')%H
    end.
  (** [Gaps::next] inclusive_map.rs:835-878 *)
  Definition gphi_next : H (gapsi K V) (option (rangei K)) :=
    (g <- hget ;;
     r <- gphi_loop (gpi_iter g) ;;
     match r with
     | Some gap => hret (Some gap)
     | None =>
         g <- hget ;;
         hmodify (fun g => mkGapsI true (gpi_query_end g) (gpi_query_end g) (gpi_iter g)) ;;;
         user UCmp ;;;
         if gpi_needs_plus_one g then
           if ltb (gpi_candidate_start g) (gpi_query_end g)
           then user UStep ;;; s <- hlift (step_o (add_one st (gpi_candidate_start g))) ;;
                user UClone ;;; hret (Some (incl s (gpi_query_end g)))
           else hret None
         else if leb (gpi_candidate_start g) (gpi_query_end g)
         then user UClone ;;; user UClone ;;; hret (Some (incl (gpi_candidate_start g) (gpi_query_end g)))
         else hret None
     end)%H.
End Incl.

(** ** The iterators of operations.rs *)
(** What calls of user code the methods make. *)
Section Calls.
  Context {K : Type} (cmp : K -> K -> comparison).

  (** [Clone for Range] and [for RangeInclusive] (core, derived): both bounds *)
  Definition clone_calls {R : Type} (_ : R) : list ucall := [UClone; UClone].
  (** [order_start], [order_end] operations.rs:14-32: one comparison *)
  Definition order_calls {R : Type} (_ _ : R) : list ucall := [UCmp].
  (** [RangeBounds::contains] (core): the start first, then the end *)
  Definition contains_calls (start item : K) : list ucall :=
    if leb cmp start item then [UCmp; UCmp] else [UCmp].
  (** [RangeMerge for Range] operations.rs:40-52 *)
  Definition r_merge_calls (self other : range K) : list ucall :=
    contains_calls (r_start self) (r_start other) ++
    if negb (r_contains cmp self (r_start other)) then []
    else UCmp :: (if gtb cmp (r_end other) (r_end self) then [UClone] else []).
  (** [RangeIntersect for Range] operations.rs:74-85: [max], [min], [>=], the clones *)
  Definition r_intersect_calls (self other : range K) : list ucall :=
    [UCmp; UCmp; UCmp] ++ match r_intersect cmp self other with Some _ => [UClone; UClone] | None => [] end.
  (** [RangeMerge for RangeInclusive] operations.rs:54-66 *)
  Definition ri_merge_calls (self other : rangei K) : list ucall :=
    contains_calls (ri_start self) (ri_start other) ++
    if negb (ri_contains cmp self (ri_start other)) then []
    else UCmp :: (if gtb cmp (ri_end other) (ri_end self) then [UClone; UClone] else []).
  (** [RangeIntersect for RangeInclusive] operations.rs:87-98 *)
  Definition ri_intersect_calls (self other : rangei K) : list ucall :=
    [UCmp; UCmp; UCmp] ++ match ri_intersect cmp self other with Some _ => [UClone; UClone] | None => [] end.
End Calls.

(** a computation that makes no call of user code *)
Definition hcalm {S A} (c : M S A) : H S A := fun s => ([], c s).
Definition users {S} (us : list ucall) : H S unit := fun s => (map (fun u => (u, s)) us, (Ret tt, s)).

(** The iterators of OpsModel.v, over underlying iterators that call no user code
    (those of the sets do not).  The range that [Union::next] is building is a
    local variable: it is not part of the state. *)
Section Ops.
  Context {R I : Type} (inext : I -> option R * I) (ilen : I -> nat).
  Context (order_start order_end : R -> R -> comparison).
  Context (merge : R -> R -> bool * R) (intersect : R -> R -> option R).
  Context (ccalls : R -> list ucall) (scalls ecalls mcalls icalls : R -> R -> list ucall).
  Notation pairs := (pair_iter R I).

  (** the closure [join] operations.rs:162-170 *)
  Definition unh_join (peek next : M pairs (option R)) (range : R) : H pairs (bool * R) :=
    (o <- hcalm peek ;;
     match o with
     | Some nxt =>
         users (mcalls range nxt) ;;;
         let (b, range') := merge range nxt in
         if b then (hcalm next ;;; hret (true, range')) else hret (false, range')
     | None => hret (false, range)
     end)%H.
  (** the [loop] operations.rs:173-177 *)
  Fixpoint unh_loop (fuel : nat) (range : R) : H pairs R :=
    match fuel with
    | O => hnofuel
    | S fuel' =>
        (x <- unh_join (peek_left inext) (next_left inext) range ;;
         if fst x then unh_loop fuel' (snd x)
         else
           y <- unh_join (peek_right inext) (next_right inext) (snd x) ;;
           if fst y then unh_loop fuel' (snd y) else hret (snd y))%H
    end.
  (** [Union::next] operations.rs:142-180: the first range is taken, then cloned *)
  Definition unh_next : H pairs (option R) :=
    (l <- hcalm (peek_left inext) ;;
     r <- hcalm (peek_right inext) ;;
     first <- match l, r with
              | Some _, None => o <- hcalm (next_left inext) ;; r <- hcalm (unwrap o) ;; hret (Some r)
              | None, Some _ => o <- hcalm (next_right inext) ;; r <- hcalm (unwrap o) ;; hret (Some r)
              | Some lt_, Some rt_ =>
                  users (scalls lt_ rt_) ;;;
                  match order_start lt_ rt_ with
                  | Lt => o <- hcalm (next_left inext) ;; r <- hcalm (unwrap o) ;; hret (Some r)
                  | _ => o <- hcalm (next_right inext) ;; r <- hcalm (unwrap o) ;; hret (Some r)
                  end
              | None, None => hret None
              end ;;
     match first with
     | None => hret None
     | Some range =>
         users (ccalls range) ;;;
         u <- hget ;;
         range' <- unh_loop (pk_len ilen (op_left u) + pk_len ilen (op_right u) + 1) range ;;
         hret (Some range')
     end)%H.

  (** the [loop] of [Intersection::next] operations.rs:226-244: all calls of user
      code of a round come before the range is popped *)
  Fixpoint inh_loop (fuel : nat) : H pairs (option R) :=
    match fuel with
    | O => hnofuel
    | S fuel' =>
        (l <- hcalm (peek_left inext) ;;
         r <- hcalm (peek_right inext) ;;
         match l, r with
         | Some lt_, Some rt_ =>
             users (icalls lt_ rt_) ;;;
             users (ecalls lt_ rt_) ;;;
             match order_end lt_ rt_ with
             | Lt => hcalm (next_left inext)
             | _ => hcalm (next_right inext)
             end ;;;
             match intersect lt_ rt_ with
             | Some i => hret (Some i)
             | None => inh_loop fuel'
             end
         | _, _ => hret None
         end)%H
    end.
  (** [Intersection::next] operations.rs:225-245 *)
  Definition inh_next : H pairs (option R) :=
    (u <- hget ;;
     inh_loop (pk_len ilen (op_left u) + pk_len ilen (op_right u) + 1))%H.
End Ops.
