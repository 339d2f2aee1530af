(** Model of the iterators [Overlapping] and [Gaps] (map.rs, inclusive_map.rs) with
    the calls of the keys' comparison methods made explicit, and left to an
    arbitrary implementation, as in OpsCostModel.v: the [n]-th comparison made, of
    [a] with [b], answers [kc n a b].  The query of [Overlapping] is a value of a
    type of the user's, and is asked for the range by [Borrow::borrow] before every
    comparison: asked after [n] comparisons it answers [bw n].  Nothing is assumed
    of [kc] or [bw]: they may be inconsistent, or answer differently each time.
    The state carries the number of comparisons made so far.
    Everything else follows MapModel.v and IMapModel.v line by line; clones give
    back the key they were made of, as there.  The iterator over the [BTreeMap] is
    the list of the entries it has still to give.  Its making ([BTreeMap::range]) is
    modelled for lawful comparisons only, so theorems about unlawful ones are about
    iterators over any list. *)
From Coq Require Import List Bool.
From Verif Require Import Order Outcome BTree Ranges History MapModel IMapModel CloneModel OpsCostModel.
Import ListNotations.

(** Successive calls on an iterator, with what each gave. *)
Fixpoint ask_run {D S A} (next : D -> M S A) (sched : list D) (s : S) : list (D * outcome A) :=
  match sched with
  | [] => []
  | d :: sched' => let (o, s') := next d s in (d, o) :: ask_run next sched' s'
  end.
(** the state they leave behind *)
Fixpoint ask_state {D S A} (next : D -> M S A) (sched : list D) (s : S) : S :=
  match sched with
  | [] => s
  | d :: sched' => ask_state next sched' (snd (next d s))
  end.

(** [overlapping] map.rs:202-218: the query is borrowed twice, for the start and for
    the end of the range that is looked up.  What is made is the iterator over the
    [BTreeMap]. *)
Definition rmq_overlapping {K V} (cmp : K -> K -> comparison) (m : rmap K V) (q1 q2 : range K)
  : outcome (list (range K * V)) :=
  bt_range (cmp_end cmp) (Excluded (mkR (r_start q1) (r_start q2))) Unbounded m.
(** [overlapping] inclusive_map.rs:566-585 *)
Definition imq_overlapping {K V} (cmp : K -> K -> comparison) (m : imap K V) (q1 q2 : rangei K)
  : outcome (list (rangei K * V)) :=
  bt_range (cmpi_end cmp) (Included (incl (ri_start q1) (ri_start q2))) Unbounded m.

Section Half.
  Context {K V : Type} (kc : nat -> K -> K -> comparison) (bw : nat -> range K).
  Notation items := (list (range K * V)).
  (** [Borrow::borrow] of the query, map.rs:792, 813 *)
  Definition qborrow {S} : M (counted S) (range K) := fun s => (Ret (bw (fst s)), s).

  (** [Overlapping::next] map.rs:790-804.  The state is what the underlying
      iterator has still to give. *)
  Definition ovq_next : M (counted items) (option (range K * V)) :=
    (l <- cget ;;
     match l with
     | [] => ret None
     | e :: l' =>
         cmodify (fun _ => l') ;;;
         q <- qborrow ;;
         b <- qlt kc (r_start (fst e)) (r_end q) ;;
         ret (if b : bool then Some e else None)
     end)%M.
  (** [Overlapping::next_back] map.rs:811-819; [rl] are the items left, the last one first *)
  Fixpoint ovq_back_loop (rl : items) : M (counted items) (option (range K * V)) :=
    match rl with
    | [] => ret None
    | e :: rl' =>
        (cmodify (fun _ => rev rl') ;;;
         q <- qborrow ;;
         b <- qlt kc (r_start (fst e)) (r_end q) ;;
         if b : bool then ret (Some e) else ovq_back_loop rl')%M
    end.
  Definition ovq_next_back : M (counted items) (option (range K * V)) :=
    (l <- cget ;; ovq_back_loop (rev l))%M.
  Definition ovq_step (d : side) : M (counted items) (option (range K * V)) :=
    match d with Front => ovq_next | Back => ovq_next_back end.

  (** the [for] loop of [Gaps::next] map.rs:730-750; [l] are the items left *)
  Fixpoint gpq_loop (l : items) : M (counted (gaps K V)) (option (range K)) :=
    match l with
    | [] => ret None
    | (overlap, _) :: l' =>
        (cmodify (fun g => mkGaps (gp_candidate_start g) (gp_query_end g) l') ;;;
         g <- cget ;;
         b <- qle kc (gp_query_end g) (r_start overlap) ;;
         if b : bool then ret None                                              (* break *)
         else
           cmodify (fun g => mkGaps (r_end overlap) (gp_query_end g) (gp_iter g)) ;;;
           c <- qlt kc (gp_candidate_start g) (r_start overlap) ;;
           if c : bool then ret (Some (mkR (gp_candidate_start g) (r_start overlap)))
           else gpq_loop l')%M
    end.
  (** [Gaps::next] map.rs:728-761 *)
  Definition gpq_next : M (counted (gaps K V)) (option (range K)) :=
    (g <- cget ;;
     r <- gpq_loop (gp_iter g) ;;
     match r with
     | Some gap => ret (Some gap)
     | None =>
         g <- cget ;;
         b <- qlt kc (gp_candidate_start g) (gp_query_end g) ;;
         if b : bool
         then cmodify (fun g => mkGaps (gp_query_end g) (gp_query_end g) (gp_iter g)) ;;;
              ret (Some (mkR (gp_candidate_start g) (gp_query_end g)))
         else ret None
     end)%M.
End Half.

Section Incl.
  Context {K V : Type} (kc : nat -> K -> K -> comparison) (bw : nat -> rangei K) (st : stepfns K).
  Notation items := (list (rangei K * V)).
  (** [Borrow::borrow] of the query, inclusive_map.rs:908, 929 *)
  Definition qborrowi {S} : M (counted S) (rangei K) := fun s => (Ret (bw (fst s)), s).

  (** [Overlapping::next] inclusive_map.rs:901-922 *)
  Definition oviq_next : M (counted items) (option (rangei K * V)) :=
    (l <- cget ;;
     match l with
     | [] => ret None
     | e :: l' =>
         cmodify (fun _ => l') ;;;
         q <- qborrowi ;;
         b <- qle kc (ri_start (fst e)) (ri_end q) ;;
         ret (if b : bool then Some e else None)
     end)%M.
  (** [Overlapping::next_back] inclusive_map.rs:924-936 *)
  Fixpoint oviq_back_loop (rl : items) : M (counted items) (option (rangei K * V)) :=
    match rl with
    | [] => ret None
    | e :: rl' =>
        (cmodify (fun _ => rev rl') ;;;
         q <- qborrowi ;;
         b <- qle kc (ri_start (fst e)) (ri_end q) ;;
         if b : bool then ret (Some e) else oviq_back_loop rl')%M
    end.
  Definition oviq_next_back : M (counted items) (option (rangei K * V)) :=
    (l <- cget ;; oviq_back_loop (rev l))%M.
  Definition oviq_step (d : side) : M (counted items) (option (rangei K * V)) :=
    match d with Front => oviq_next | Back => oviq_next_back end.

  (** the [for] loop of [Gaps::next] inclusive_map.rs:836-861 *)
  Fixpoint gpiq_loop (l : items) : M (counted (gapsi K V)) (option (rangei K)) :=
    match l with
    | [] => ret None
    | (overlap, _) :: l' =>
        (cmodify (fun g => mkGapsI (gpi_needs_plus_one g) (gpi_candidate_start g) (gpi_query_end g) l') ;;;
         g <- cget ;;
         b <- qlt kc (gpi_query_end g) (ri_start overlap) ;;
         if b : bool then ret None                                              (* break *)
         else
           cmodify (fun g => mkGapsI true (ri_end overlap) (gpi_query_end g) (gpi_iter g)) ;;;
           cur <- (if gpi_needs_plus_one g then lift (step_o (add_one st (gpi_candidate_start g)))
                   else ret (gpi_candidate_start g)) ;;
           c <- qlt kc cur (ri_start overlap) ;;
           if c : bool
           then p <- lift (step_o (sub_one st (ri_start overlap))) ;; ret (Some (incl cur p))
           else gpiq_loop l')%M
    end.
  (** [Gaps::next] inclusive_map.rs:835-878 *)
  Definition gpiq_next : M (counted (gapsi K V)) (option (rangei K)) :=
    (g <- cget ;;
     r <- gpiq_loop (gpi_iter g) ;;
     match r with
     | Some gap => ret (Some gap)
     | None =>
         g <- cget ;;
         cmodify (fun g => mkGapsI true (gpi_query_end g) (gpi_query_end g) (gpi_iter g)) ;;;
         if gpi_needs_plus_one g then
           b <- qlt kc (gpi_candidate_start g) (gpi_query_end g) ;;
           if b : bool
           then s <- lift (step_o (add_one st (gpi_candidate_start g))) ;;
                ret (Some (incl s (gpi_query_end g)))
           else ret None
         else
           b <- qle kc (gpi_candidate_start g) (gpi_query_end g) ;;
           if b : bool then ret (Some (incl (gpi_candidate_start g) (gpi_query_end g))) else ret None
     end)%M.
End Incl.
