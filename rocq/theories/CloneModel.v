(** Model of the maps with the calls of [Clone::clone] made explicit
    (map.rs, inclusive_map.rs, std_ext.rs).

    MapModel.v and IMapModel.v take a clone of a key or value to be the key or
    value itself.  Here every [.clone()] of the code is a call of a user-supplied
    function: the [n]-th call made since the start of the history, on argument
    [k], returns [kcl n k] (keys) or [vcl n v] (values).  As the number of the
    call is an argument, the clones may differ from call to call, e.g. depend on
    a counter, on the time, or on an allocator.  The state of a computation is
    the number of clones made so far and the map.  Everything else follows
    MapModel.v and IMapModel.v line by line.

    Ranges clone field by field ([#[derive(Clone)]] on [core::ops::Range],
    [RangeInclusive] and on the wrappers, range_wrapper.rs:35, 97, 151, 211):
    the start, then the end. *)
From Coq Require Import List Bool.
From Verif Require Import Order Outcome BTree Ranges History MapModel IMapModel.
Import ListNotations.

Section Clone.
  Context {K V : Type} (kcl : nat -> K -> K) (vcl : nat -> V -> V).

  (** A state together with the number of clones made so far. *)
  Definition counted (S : Type) : Type := (nat * S)%type.

  (** [k.clone()] for a key, [v.clone()] for a value: user code *)
  Definition kclone {S} (k : K) : M (counted S) K :=
    fun s => (Ret (kcl (fst s) k), (Datatypes.S (fst s), snd s)).
  Definition vclone {S} (v : V) : M (counted S) V :=
    fun s => (Ret (vcl (fst s) v), (Datatypes.S (fst s), snd s)).
  (** the map itself: read and modify *)
  Definition cget {S} : M (counted S) S := fun s => (Ret (snd s), s).
  Definition cmodify {S} (f : S -> S) : M (counted S) unit :=
    fun s => (Ret tt, (fst s, f (snd s))).
  (** [Range::clone] (core, derived), through range_wrapper.rs:35, 97 *)
  Definition r_clone {S} (r : range K) : M (counted S) (range K) :=
    (s <- kclone (r_start r) ;; e <- kclone (r_end r) ;; ret (mkR s e))%M.
  (** [RangeInclusive::clone] (core, derived), through range_wrapper.rs:151, 211 *)
  Definition ri_clone {S} (r : rangei K) : M (counted S) (rangei K) :=
    (s <- kclone (ri_start r) ;; e <- kclone (ri_end r) ;; ret (mkRI s e (ri_exhausted r)))%M.
  (** cloning all entries of a [BTreeMap] (std), in order, and so
      [#[derive(Clone)]] of the maps: map.rs:26, inclusive_map.rs:37 *)
  Fixpoint clone_entries {S R} (rclone : R -> M (counted S) R) (l : list (R * V))
    : M (counted S) (list (R * V)) :=
    match l with
    | [] => ret []
    | (r, v) :: l' =>
        (r' <- rclone r ;; v' <- vclone v ;; l'' <- clone_entries rclone l' ;;
         ret ((r', v') :: l''))%M
    end.
  Definition rmc_clone : M (counted (rmap K V)) (rmap K V) :=
    (m <- cget ;; clone_entries r_clone m)%M.
  Definition imc_clone : M (counted (imap K V)) (imap K V) :=
    (m <- cget ;; clone_entries ri_clone m)%M.

  Context (cmp : K -> K -> comparison) (veqb : V -> V -> bool).
  Notation ltb := (ltb cmp).
  Notation leb := (leb cmp).
  Notation gtb := (gtb cmp).
  Notation eqb := (eqb cmp).

  (** ** [RangeMap] *)
  Notation c_start := (cmp_start cmp).
  Notation c_end := (cmp_end cmp).
  Notation CM := (M (counted (rmap K V))).

  (** [get_key_value] map.rs:163-176 (clones: 166) *)
  Definition rmc_get_key_value (key : K) : CM (option (range K * V)) :=
    (k1 <- kclone key ;;
     k2 <- kclone key ;;
     m <- cget ;;
     l <- lift (bt_range c_start Unbounded (Included (mkR k1 k2)) m) ;;
     ret (match last_opt l with
          | Some e => if r_contains cmp (fst e) key then Some e else None
          | None => None
          end))%M.
  (** [get] map.rs:157-159 *)
  Definition rmc_get (key : K) : CM (option V) :=
    (o <- rmc_get_key_value key ;; ret (option_map snd o))%M.
  (** [overlapping] map.rs:203-218 (clones: 207); its [next] and [next_back]
      clone nothing *)
  Definition rmc_overlapping (q : range K) : CM (overlapping K V) :=
    (k1 <- kclone (r_start q) ;;
     k2 <- kclone (r_start q) ;;
     m <- cget ;;
     l <- lift (bt_range c_end (Excluded (mkR k1 k2)) Unbounded m) ;;
     ret (mkOverlapping q l))%M.
  (** [gaps] map.rs:192-199 *)
  Definition rmc_gaps (outer : range K) : CM (gaps K V) :=
    (o <- rmc_overlapping outer ;; ret (mkGaps (r_start outer) (r_end outer) (ov_iter o)))%M.
  (** the [for] loop of [Gaps::next] map.rs:730-750 (clones: 743) *)
  Fixpoint gpc_loop {S} (cand qend : K) (l : list (range K * V))
    : M (counted S) (option (range K) * K * list (range K * V)) :=
    match l with
    | [] => ret (None, cand, [])
    | (o, _) :: l' =>
        if leb qend (r_start o) then ret (None, cand, l')            (* break *)
        else
          if ltb cand (r_start o)
          then (k1 <- kclone cand ;; k2 <- kclone (r_start o) ;;
                ret (Some (mkR k1 k2), r_end o, l'))%M               (* return *)
          else gpc_loop (r_end o) qend l'
    end.
  (** [Gaps::next] map.rs:728-761 (clones: 755).  The state is the iterator. *)
  Definition gpc_next : M (counted (gaps K V)) (option (range K)) :=
    (g <- cget ;;
     x <- gpc_loop (gp_candidate_start g) (gp_query_end g) (gp_iter g) ;;
     match x with
     | (Some gap, cand, l) =>
         cmodify (fun _ => mkGaps cand (gp_query_end g) l) ;;; ret (Some gap)
     | (None, cand, l) =>
         if ltb cand (gp_query_end g)
         then k1 <- kclone cand ;; k2 <- kclone (gp_query_end g) ;;
              cmodify (fun _ => mkGaps (gp_query_end g) (gp_query_end g) l) ;;;
              ret (Some (mkR k1 k2))
         else cmodify (fun _ => mkGaps cand (gp_query_end g) l) ;;; ret None
     end)%M.

  (** [adjust_touching_ranges_for_insert] map.rs:439-488 (clones: 455, 456, 469,
      471, 478) *)
  Definition rmc_adjust_touching_ranges_for_insert
      (stored : range K) (stored_value : V) (new_range : range K) (new_value : V)
    : CM (range K) :=
    (if veqb stored_value new_value then
       s <- kclone (kmin cmp (r_start new_range) (r_start stored)) ;;
       e <- kclone (kmax cmp (r_end new_range) (r_end stored)) ;;
       cmodify (bt_remove c_start stored) ;;;
       ret (mkR s e)
     else
       if r_overlaps cmp new_range stored then
         cmodify (bt_remove c_start stored) ;;;
         (if ltb (r_start stored) (r_start new_range)
          then k <- kclone (r_start new_range) ;;
               v <- vclone stored_value ;;
               cmodify (bt_insert c_start (mkR (r_start stored) k) v)
          else ret tt) ;;;
         (if gtb (r_end stored) (r_end new_range)
          then k <- kclone (r_end new_range) ;;
               cmodify (bt_insert c_start (mkR k (r_end stored)) stored_value)
          else ret tt) ;;;
         ret new_range
       else ret new_range)%M.
  (** the [while let] loop of [insert] map.rs:326-359 (clones: 350, 351) *)
  Fixpoint rmc_insert_loop (fuel : nat) (new_start_wrapper : range K) (new_value : V)
      (new_range_end_as_start : range K) : CM (range K) :=
    match fuel with
    | O => nofuel
    | S fuel' =>
        (m <- cget ;;
         l <- lift (bt_range c_start (Included new_start_wrapper)
                                     (Included new_range_end_as_start) m) ;;
         match fst (it_next l) with
         | None => ret new_start_wrapper
         | Some (stored, stored_value) =>
             if eqb (r_start stored) (r_end new_start_wrapper)
                && negb (veqb stored_value new_value)
             then ret new_start_wrapper                              (* break *)
             else
               stored' <- r_clone stored ;;
               stored_value' <- vclone stored_value ;;
               new' <- rmc_adjust_touching_ranges_for_insert
                         stored' stored_value' new_start_wrapper new_value ;;
               rmc_insert_loop fuel' new' new_value new_range_end_as_start
         end)%M
    end.
  (** [insert] map.rs:261-363 (clones: 301, 323, 324) *)
  Definition rmc_insert (r : range K) (new_value : V) : CM unit :=
    (assert_ (ltb (r_start r) (r_end r)) ;;;
     m <- cget ;;
     before <- lift (bt_range c_start Unbounded (Included r) m) ;;
     new1 <- match filter (fun e => r_touches cmp (fst e) r) (firstn 2 (rev before)) with
             | [] => ret r
             | [(s, sv)] | _ :: (s, sv) :: _ =>
                 s' <- r_clone s ;;
                 sv' <- vclone sv ;;
                 rmc_adjust_touching_ranges_for_insert s' sv' r new_value
             end ;;
     k1 <- kclone (r_end new1) ;;
     k2 <- kclone (r_end new1) ;;
     m1 <- cget ;;
     new2 <- rmc_insert_loop (length m1 + 2) new1 new_value (mkR k1 k2) ;;
     cmodify (bt_insert c_start new2 new_value))%M.

  (** [adjust_overlapping_ranges_for_remove] map.rs:490-514 (clones: 503, 504, 510) *)
  Definition rmc_adjust_overlapping_ranges_for_remove
      (stored : range K) (stored_value : V) (range_to_remove : range K) : CM unit :=
    (cmodify (bt_remove c_start stored) ;;;
     (if ltb (r_start stored) (r_start range_to_remove)
      then k <- kclone (r_start range_to_remove) ;;
           v <- vclone stored_value ;;
           cmodify (bt_insert c_start (mkR (r_start stored) k) v)
      else ret tt) ;;;
     (if gtb (r_end stored) (r_end range_to_remove)
      then k <- kclone (r_end range_to_remove) ;;
           cmodify (bt_insert c_start (mkR k (r_end stored)) stored_value)
      else ret tt))%M.
  (** the [while let] loop of [remove] map.rs:420-436 (clones: 428) *)
  Fixpoint rmc_remove_loop (fuel : nat) (r : range K) (new_range_end_as_start : range K)
    : CM unit :=
    match fuel with
    | O => nofuel
    | S fuel' =>
        (m <- cget ;;
         l <- lift (bt_range c_start (Excluded r) (Excluded new_range_end_as_start) m) ;;
         match fst (it_next l) with
         | None => ret tt
         | Some (stored, stored_value) =>
             stored' <- r_clone stored ;;
             stored_value' <- vclone stored_value ;;
             rmc_adjust_overlapping_ranges_for_remove stored' stored_value' r ;;;
             rmc_remove_loop fuel' r new_range_end_as_start
         end)%M
    end.
  (** [remove] map.rs:375-437 (clones: 401, 419) *)
  Definition rmc_remove (r : range K) : CM unit :=
    (assert_ (ltb (r_start r) (r_end r)) ;;;
     m <- cget ;;
     before <- lift (bt_range c_start Unbounded (Included r) m) ;;
     match last_opt before with
     | Some (s, sv) =>
         if r_overlaps cmp s r
         then s' <- r_clone s ;;
              sv' <- vclone sv ;;
              rmc_adjust_overlapping_ranges_for_remove s' sv' r
         else ret tt
     | None => ret tt
     end ;;;
     k1 <- kclone (r_end r) ;;
     k2 <- kclone (r_end r) ;;
     m1 <- cget ;;
     rmc_remove_loop (length m1 + 1) r (mkR k1 k2))%M.

  (** Executing a history: [clear] map.rs:129-131, [extend] 627-631 *)
  Definition rmc_exec (o : op (range K) V) : CM unit :=
    match o with
    | OInsert r v => rmc_insert r v
    | ORemove r => rmc_remove r
    | OClear => cmodify (fun _ => [])
    | OExtend l => for_each (fun e => rmc_insert (fst e) (snd e)) l
    end.
  Definition rmc_run (ops : list (op (range K) V)) : counted (rmap K V) :=
    run_ops rmc_exec ops (0, []).

  (** ** [RangeInclusiveMap] *)
  Context (st : stepfns K).
  Notation ci_start := (cmpi_start cmp).
  Notation ci_end := (cmpi_end cmp).
  Notation CIM := (M (counted (imap K V))).

  (** [get_key_value] inclusive_map.rs:199-214 (clones: 204) *)
  Definition imc_get_key_value (key : K) : CIM (option (rangei K * V)) :=
    (k1 <- kclone key ;;
     k2 <- kclone key ;;
     m <- cget ;;
     l <- lift (bt_range ci_start Unbounded (Included (incl k1 k2)) m) ;;
     ret (match last_opt l with
          | Some e => if ri_contains cmp (fst e) key then Some e else None
          | None => None
          end))%M.
  (** [get] inclusive_map.rs:193-195 *)
  Definition imc_get (key : K) : CIM (option V) :=
    (o <- imc_get_key_value key ;; ret (option_map snd o))%M.
  (** [overlapping] inclusive_map.rs:567-585 (clones: 574) *)
  Definition imc_overlapping (q : rangei K) : CIM (overlappingi K V) :=
    (k1 <- kclone (ri_start q) ;;
     k2 <- kclone (ri_start q) ;;
     m <- cget ;;
     l <- lift (bt_range ci_end (Included (incl k1 k2)) Unbounded m) ;;
     ret (mkOverlappingI q l))%M.
  (** [gaps] inclusive_map.rs:551-563 *)
  Definition imc_gaps (outer : rangei K) : CIM (gapsi K V) :=
    (o <- imc_overlapping outer ;;
     ret (mkGapsI false (ri_start outer) (ri_end outer) (ovi_iter o)))%M.
  (** the [for] loop of [Gaps::next] inclusive_map.rs:836-861 (clones: 853).
      [Some] when it returned from [next]; the state is the iterator, so that a
      panic leaves the fields as they are at that moment. *)
  Fixpoint gpic_loop (l : list (rangei K * V))
    : M (counted (gapsi K V)) (option (rangei K)) :=
    match l with
    | [] =>
        (cmodify (fun g => mkGapsI (gpi_needs_plus_one g) (gpi_candidate_start g)
                             (gpi_query_end g) []) ;;;
         ret None)%M
    | (o, _) :: l' =>
        (g <- cget ;;
         let qend := gpi_query_end g in
         let needs := gpi_needs_plus_one g in
         let cand := gpi_candidate_start g in
         if ltb qend (ri_start o)
         then cmodify (fun _ => mkGapsI needs cand qend l') ;;; ret None      (* break *)
         else
           cmodify (fun _ => mkGapsI true (ri_end o) qend l') ;;;
           cur <- (if needs then lift (step_o (add_one st cand)) else kclone cand) ;;
           if ltb cur (ri_start o)
           then p <- lift (step_o (sub_one st (ri_start o))) ;;
                ret (Some (incl cur p))                                      (* return *)
           else gpic_loop l')%M
    end.
  (** [Gaps::next] inclusive_map.rs:835-878 (clones: 869, 873) *)
  Definition gpic_next : M (counted (gapsi K V)) (option (rangei K)) :=
    (g0 <- cget ;;
     x <- gpic_loop (gpi_iter g0) ;;
     match x with
     | Some gap => ret (Some gap)
     | None =>
         g <- cget ;;
         let qend := gpi_query_end g in
         let cand := gpi_candidate_start g in
         cmodify (fun _ => mkGapsI true qend qend (gpi_iter g)) ;;;
         if gpi_needs_plus_one g then
           if ltb cand qend
           then s <- lift (step_o (add_one st cand)) ;;
                e <- kclone qend ;;
                ret (Some (incl s e))
           else ret None
         else if leb cand qend
         then s <- kclone cand ;; e <- kclone qend ;; ret (Some (incl s e))
         else ret None
     end)%M.

  (** [touches] std_ext.rs:44-67 (clones: 64) *)
  Definition ric_touches {S} (a b : rangei K) : M (counted S) bool :=
    (let max_start := kmax cmp (ri_start a) (ri_start b) in
     let min_range_end := kmin cmp (ri_end a) (ri_end b) in
     min_range_end_extended <-
       (if ltb min_range_end max_start then lift (step_o (add_one st min_range_end))
        else kclone min_range_end) ;;
     ret (leb max_start min_range_end_extended))%M.
  (** lazy [filter] drained to the end, with a predicate that clones *)
  Fixpoint filter_m {S A} (p : A -> M S bool) (l : list A) : M S (list A) :=
    match l with
    | [] => ret []
    | a :: l' => (b <- p a ;; r <- filter_m p l' ;; ret (if b then a :: r else r))%M
    end.

  (** [adjust_touching_ranges_for_insert] inclusive_map.rs:462-514 (clones: 478,
      479, 493, 496, 504) *)
  Definition imc_adjust_touching_ranges_for_insert
      (stored : rangei K) (stored_value : V) (new_range : rangei K) (new_value : V)
    : CIM (rangei K) :=
    (if veqb stored_value new_value then
       s <- kclone (kmin cmp (ri_start new_range) (ri_start stored)) ;;
       e <- kclone (kmax cmp (ri_end new_range) (ri_end stored)) ;;
       cmodify (bt_remove ci_start stored) ;;;
       ret (incl s e)
     else
       if ri_overlaps cmp new_range stored then
         cmodify (bt_remove ci_start stored) ;;;
         (if ltb (ri_start stored) (ri_start new_range)
          then s <- kclone (ri_start stored) ;;
               p <- lift (step_o (sub_one st (ri_start new_range))) ;;
               v <- vclone stored_value ;;
               cmodify (bt_insert ci_start (incl s p) v)
          else ret tt) ;;;
         (if gtb (ri_end stored) (ri_end new_range)
          then s <- lift (step_o (add_one st (ri_end new_range))) ;;
               e <- kclone (ri_end stored) ;;
               cmodify (bt_insert ci_start (incl s e) stored_value)
          else ret tt) ;;;
         ret new_range
       else ret new_range)%M.
  (** the [while let] loop of [insert] inclusive_map.rs:321-370 (clones: 361, 362) *)
  Fixpoint imc_insert_loop (fuel : nat) (new_start_wrapper : rangei K) (new_value : V)
      (second_last_possible_start : rangei K) : CIM (rangei K) :=
    match fuel with
    | O => nofuel
    | S fuel' =>
        (m <- cget ;;
         l <- lift (bt_range ci_start (Included new_start_wrapper) Unbounded m) ;;
         match fst (it_next l) with
         | None => ret new_start_wrapper
         | Some (stored, stored_value) =>
             brk <- lift (if gtb (ri_start stored) (ri_start second_last_possible_start)
                          then omap (fun latest_possible_start =>
                                 gtb (ri_start stored) latest_possible_start
                                 || (eqb (ri_start stored) latest_possible_start
                                     && negb (veqb stored_value new_value)))
                               (step_o (add_one st (ri_start second_last_possible_start)))
                          else Ret false) ;;
             if brk then ret new_start_wrapper
             else
               stored' <- ri_clone stored ;;
               stored_value' <- vclone stored_value ;;
               new' <- imc_adjust_touching_ranges_for_insert
                         stored' stored_value' new_start_wrapper new_value ;;
               imc_insert_loop fuel' new' new_value second_last_possible_start
         end)%M
    end.
  (** [insert] inclusive_map.rs:249-374 (clones: 297, 317, 319) *)
  Definition imc_insert (r : rangei K) (new_value : V) : CIM unit :=
    (assert_ (leb (ri_start r) (ri_end r)) ;;;
     m <- cget ;;
     before <- lift (bt_range ci_start Unbounded (Included r) m) ;;
     cands <- filter_m (fun e => ric_touches (fst e) r) (firstn 2 (rev before)) ;;
     new1 <- match cands with
             | [] => ret r
             | [(s, sv)] | _ :: (s, sv) :: _ =>
                 s' <- ri_clone s ;;
                 sv' <- vclone sv ;;
                 imc_adjust_touching_ranges_for_insert s' sv' r new_value
             end ;;
     k1 <- kclone (ri_end new1) ;;
     k2 <- kclone k1 ;;
     m1 <- cget ;;
     new2 <- imc_insert_loop (length m1 + 2) new1 new_value (incl k2 k1) ;;
     cmodify (bt_insert ci_start new2 new_value))%M.

  (** [adjust_overlapping_ranges_for_remove] inclusive_map.rs:516-544 (clones:
      530, 532, 539) *)
  Definition imc_adjust_overlapping_ranges_for_remove
      (stored : rangei K) (stored_value : V) (range_to_remove : rangei K) : CIM unit :=
    (cmodify (bt_remove ci_start stored) ;;;
     (if ltb (ri_start stored) (ri_start range_to_remove)
      then s <- kclone (ri_start stored) ;;
           p <- lift (step_o (sub_one st (ri_start range_to_remove))) ;;
           v <- vclone stored_value ;;
           cmodify (bt_insert ci_start (incl s p) v)
      else ret tt) ;;;
     (if gtb (ri_end stored) (ri_end range_to_remove)
      then s <- lift (step_o (add_one st (ri_end range_to_remove))) ;;
           e <- kclone (ri_end stored) ;;
           cmodify (bt_insert ci_start (incl s e) stored_value)
      else ret tt))%M.
  (** the [while let] loop of [remove] inclusive_map.rs:440-459 (clones: 451) *)
  Fixpoint imc_remove_loop (fuel : nat) (r : rangei K) (new_range_end_as_start : rangei K)
    : CIM unit :=
    match fuel with
    | O => nofuel
    | S fuel' =>
        (m <- cget ;;
         l <- lift (bt_range ci_start (Excluded r) (Included new_range_end_as_start) m) ;;
         match fst (it_next l) with
         | None => ret tt
         | Some (stored, stored_value) =>
             stored' <- ri_clone stored ;;
             stored_value' <- vclone stored_value ;;
             imc_adjust_overlapping_ranges_for_remove stored' stored_value' r ;;;
             imc_remove_loop fuel' r new_range_end_as_start
         end)%M
    end.
  (** [remove] inclusive_map.rs:386-460 (clones: 420, 439) *)
  Definition imc_remove (r : rangei K) : CIM unit :=
    (assert_ (leb (ri_start r) (ri_end r)) ;;;
     m <- cget ;;
     before <- lift (bt_range ci_start Unbounded (Included r) m) ;;
     match last_opt before with
     | Some (s, sv) =>
         if ri_overlaps cmp s r
         then s' <- ri_clone s ;;
              sv' <- vclone sv ;;
              imc_adjust_overlapping_ranges_for_remove s' sv' r
         else ret tt
     | None => ret tt
     end ;;;
     k1 <- kclone (ri_end r) ;;
     k2 <- kclone (ri_end r) ;;
     m1 <- cget ;;
     imc_remove_loop (length m1 + 1) r (incl k1 k2))%M.

  (** Executing a history: [clear] inclusive_map.rs:222-224, [extend] 722-726 *)
  Definition imc_exec (o : op (rangei K) V) : CIM unit :=
    match o with
    | OInsert r v => imc_insert r v
    | ORemove r => imc_remove r
    | OClear => cmodify (fun _ => [])
    | OExtend l => for_each (fun e => imc_insert (fst e) (snd e)) l
    end.
  Definition imc_run (ops : list (op (rangei K) V)) : counted (imap K V) :=
    run_ops imc_exec ops (0, []).
End Clone.
