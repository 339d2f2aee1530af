(** Model of the sets with the calls of [Clone::clone] made explicit (set.rs,
    inclusive_set.rs, operations.rs).  As CloneModel.v: the [n]-th clone made,
    on key [k], is [kcl n k]; cloning [()] gives [()] but is counted.
    Everything else follows OpsModel.v, SetModel.v and ISetModel.v line by line. *)
From Coq Require Import List Bool.
From Verif Require Import Order Outcome BTree Ranges History MapModel IMapModel OpsModel SetModel
  ISetModel CloneModel.
Import ListNotations.

(** a computation that clones nothing *)
Definition nocl {S A} (c : M S A) : M (counted S) A :=
  fun s => let (o, x) := c (snd s) in (o, (fst s, x)).
(** a computation on one half of the state *)
Definition on_fst {S T A} (c : M (counted S) A) : M (counted (S * T)) A :=
  fun s => let '(o, (n, x)) := c (fst s, fst (snd s)) in (o, (n, (x, snd (snd s)))).
Definition on_snd {S T A} (c : M (counted T) A) : M (counted (S * T)) A :=
  fun s => let '(o, (n, x)) := c (fst s, snd (snd s)) in (o, (n, (fst (snd s), x))).

(** ** The traits' methods *)
Section Traits.
  Context {K : Type} (kcl : nat -> K -> K) (cmp : K -> K -> comparison).
  (** [RangeMerge for Range] operations.rs:40-52 (clone: 47) *)
  Definition r_mergec {S} (self other : range K) : M (counted S) (bool * range K) :=
    (if negb (r_contains cmp self (r_start other)) then ret (false, self)
     else if gtb cmp (r_end other) (r_end self)
     then e <- kclone kcl (r_end other) ;; ret (true, mkR (r_start self) e)
     else ret (true, self))%M.
  (** [RangeIntersect for Range] operations.rs:74-85 (clones: 83) *)
  Definition r_intersectc {S} (self other : range K) : M (counted S) (option (range K)) :=
    let start := kmax cmp (r_start self) (r_start other) in
    let end_ := kmin cmp (r_end self) (r_end other) in
    (if geb cmp start end_ then ret None
     else s <- kclone kcl start ;; e <- kclone kcl end_ ;; ret (Some (mkR s e)))%M.
  (** [RangeMerge for RangeInclusive] operations.rs:54-66 (clones: 61) *)
  Definition ri_mergec {S} (self other : rangei K) : M (counted S) (bool * rangei K) :=
    (if negb (ri_contains cmp self (ri_start other)) then ret (false, self)
     else if gtb cmp (ri_end other) (ri_end self)
     then s <- kclone kcl (ri_start self) ;; e <- kclone kcl (ri_end other) ;; ret (true, mkRI s e false)
     else ret (true, self))%M.
  (** [RangeIntersect for RangeInclusive] operations.rs:87-98 (clones: 96) *)
  Definition ri_intersectc {S} (self other : rangei K) : M (counted S) (option (rangei K)) :=
    let start := kmax cmp (ri_start self) (ri_start other) in
    let end_ := kmin cmp (ri_end self) (ri_end other) in
    (if gtb cmp start end_ then ret None
     else s <- kclone kcl start ;; e <- kclone kcl end_ ;; ret (Some (mkRI s e false)))%M.
End Traits.

(** ** The iterators *)
Section Ops.
  Context {R I : Type} (inext : I -> option R * I) (ilen : I -> nat).
  Context (order_start order_end : R -> R -> comparison).
  Notation CP := (M (counted (pair_iter R I))).
  Context (rclone : R -> CP R) (merge : R -> R -> CP (bool * R)) (intersect : R -> R -> CP (option R)).
  Notation peek_left := (nocl (peek_left inext)).
  Notation peek_right := (nocl (peek_right inext)).
  Notation next_left := (nocl (next_left inext)).
  Notation next_right := (nocl (next_right inext)).

  (** the closure [join] operations.rs:162-170 *)
  Definition unc_join (peek next : CP (option R)) (range : R) : CP (bool * R) :=
    (o <- peek ;;
     match o with
     | Some nxt =>
         x <- merge range nxt ;;
         if fst x then (next ;;; ret (true, snd x)) else ret (false, snd x)
     | None => ret (false, range)
     end)%M.
  (** the [loop] operations.rs:173-177 *)
  Fixpoint unc_loop (fuel : nat) (range : R) : CP R :=
    match fuel with
    | O => nofuel
    | S fuel' =>
        (x <- unc_join peek_left next_left range ;;
         if fst x then unc_loop fuel' (snd x)
         else
           y <- unc_join peek_right next_right (snd x) ;;
           if fst y then unc_loop fuel' (snd y) else ret (snd y))%M
    end.
  (** [Union::next] operations.rs:142-180 (clone: 159) *)
  Definition unc_next : CP (option R) :=
    (l <- peek_left ;;
     r <- peek_right ;;
     first <- match l, r with
              | Some _, None => o <- next_left ;; r <- unwrap o ;; ret (Some r)
              | None, Some _ => o <- next_right ;; r <- unwrap o ;; ret (Some r)
              | Some lt_, Some rt_ =>
                  match order_start lt_ rt_ with
                  | Lt => o <- next_left ;; r <- unwrap o ;; ret (Some r)
                  | _ => o <- next_right ;; r <- unwrap o ;; ret (Some r)
                  end
              | None, None => ret None
              end ;;
     match first with
     | None => ret None
     | Some range0 =>
         range <- rclone range0 ;;
         u <- cget ;;
         range' <- unc_loop (pk_len ilen (op_left u) + pk_len ilen (op_right u) + 1) range ;;
         ret (Some range')
     end)%M.
  (** the [loop] of [Intersection::next] operations.rs:226-244 *)
  Fixpoint inc_loop (fuel : nat) : CP (option R) :=
    match fuel with
    | O => nofuel
    | S fuel' =>
        (l <- peek_left ;;
         r <- peek_right ;;
         match l, r with
         | Some lt_, Some rt_ =>
             intersection <- intersect lt_ rt_ ;;
             match order_end lt_ rt_ with
             | Lt => next_left
             | _ => next_right
             end ;;;
             match intersection with
             | Some i => ret (Some i)
             | None => inc_loop fuel'
             end
         | _, _ => ret None
         end)%M
    end.
  (** [Intersection::next] operations.rs:225-245 *)
  Definition inc_next : CP (option R) :=
    (u <- cget ;;
     inc_loop (pk_len ilen (op_left u) + pk_len ilen (op_right u) + 1))%M.

  (** [collect]: [from_iter] (set.rs:270-274, inclusive_set.rs:296-300) extends
      an empty set, [extend] (281-285, 307-311) inserts each item that [next]
      yields *)
  Fixpoint collectc {T} (next : CP (option R)) (insert : R -> M (counted T) unit) (fuel : nat)
    : M (counted (pair_iter R I * T)) unit :=
    match fuel with
    | O => nofuel
    | S fuel' =>
        (o <- on_fst next ;;
         match o with
         | None => ret tt
         | Some r => on_snd (insert r) ;;; collectc next insert fuel'
         end)%M
    end.
End Ops.

(** ** Half-open *)
Section Half.
  Context {K : Type} (kcl : nat -> K -> K) (cmp : K -> K -> comparison).
  Notation ucl := (fun (_ : nat) (u : unit) => u).
  Notation pair := (pair_iter (range K) (list (range K * unit))).

  (** [contains] set.rs:80-82 *)
  Definition rsc_contains (k : K) : M (counted (rset K)) bool :=
    (o <- rmc_get kcl cmp k ;; ret (match o with Some _ => true | None => false end))%M.
  (** [insert] set.rs:126-128, [remove] 139-141 *)
  Definition rsc_insert (r : range K) : M (counted (rset K)) unit := rmc_insert kcl ucl cmp unit_eqb r tt.
  Definition rsc_remove (r : range K) : M (counted (rset K)) unit := rmc_remove kcl ucl cmp r.
  (** Executing a history of calls: [clear] set.rs:93-95, [extend] 281-285 *)
  Definition rsc_exec (o : sop (range K)) : M (counted (rset K)) unit :=
    match o with
    | SInsert r => rsc_insert r
    | SRemove r => rsc_remove r
    | SClear => cmodify (fun _ => [])
    | SExtend l => for_each rsc_insert l
    end.
  Definition rsc_run (ops : list (sop (range K))) : counted (rset K) := run_ops rsc_exec ops (0, []).
  (** [Union::next], [Intersection::next] (set.rs:17-21) *)
  Definition rsc_union_next : M (counted pair) (option (range K)) :=
    unc_next rs_iter_next (@length _) (r_order_start cmp) (r_clone kcl) (r_mergec kcl cmp).
  Definition rsc_intersection_next : M (counted pair) (option (range K)) :=
    inc_next rs_iter_next (@length _) (r_order_end cmp) (r_intersectc kcl cmp).
  (** [BitOr] set.rs:425-431, [BitAnd] 417-423: the state is the number of clones made *)
  Definition rsc_collect (next : M (counted pair) (option (range K))) (a b : rset K) : M nat (rset K) :=
    fun n => let '(o, (n', (_, s))) := collectc next rsc_insert (rs_len a + rs_len b + 1)
                                         (n, (op_new (rs_iter a) (rs_iter b), [])) in
             (omap (fun _ => s) o, n').
  Definition rsc_bitor : rset K -> rset K -> M nat (rset K) := rsc_collect rsc_union_next.
  Definition rsc_bitand : rset K -> rset K -> M nat (rset K) := rsc_collect rsc_intersection_next.
  (** Evaluating a program that combines sets; a call that panics is caught. *)
  Fixpoint rsc_eval (x : sexp (range K)) : M nat (rset K) :=
    match x with
    | XNew => ret []
    | XOp y o => (s <- rsc_eval y ;; fun n => let '(_, (n', s')) := rsc_exec o (n, s) in (Ret s', n'))%M
    | XOr y z => (a <- rsc_eval y ;; b <- rsc_eval z ;; rsc_bitor a b)%M
    | XAnd y z => (a <- rsc_eval y ;; b <- rsc_eval z ;; rsc_bitand a b)%M
    end.
End Half.

(** ** Inclusive *)
Section Incl.
  Context {K : Type} (kcl : nat -> K -> K) (cmp : K -> K -> comparison) (st : stepfns K).
  Notation ucl := (fun (_ : nat) (u : unit) => u).
  Notation pair := (pair_iter (rangei K) (list (rangei K * unit))).

  (** [contains] inclusive_set.rs:110-112 *)
  Definition isc_contains (k : K) : M (counted (iset K)) bool :=
    (o <- imc_get kcl cmp k ;; ret (match o with Some _ => true | None => false end))%M.
  (** [insert] inclusive_set.rs:146-148, [remove] 159-161 *)
  Definition isc_insert (r : rangei K) : M (counted (iset K)) unit := imc_insert kcl ucl cmp unit_eqb st r tt.
  Definition isc_remove (r : rangei K) : M (counted (iset K)) unit := imc_remove kcl ucl cmp st r.
  (** Executing a history of calls: [clear] inclusive_set.rs:123-125, [extend] 307-311 *)
  Definition isc_exec (o : sop (rangei K)) : M (counted (iset K)) unit :=
    match o with
    | SInsert r => isc_insert r
    | SRemove r => isc_remove r
    | SClear => cmodify (fun _ => [])
    | SExtend l => for_each isc_insert l
    end.
  Definition isc_run (ops : list (sop (rangei K))) : counted (iset K) := run_ops isc_exec ops (0, []).
  (** [Union::next], [Intersection::next] (inclusive_set.rs:18-22) *)
  Definition isc_union_next : M (counted pair) (option (rangei K)) :=
    unc_next is_iter_next (@length _) (ri_order_start cmp) (ri_clone kcl) (ri_mergec kcl cmp).
  Definition isc_intersection_next : M (counted pair) (option (rangei K)) :=
    inc_next is_iter_next (@length _) (ri_order_end cmp) (ri_intersectc kcl cmp).
  (** [BitOr] inclusive_set.rs:484-490, [BitAnd] 476-482: the state is the number of clones made *)
  Definition isc_collect (next : M (counted pair) (option (rangei K))) (a b : iset K) : M nat (iset K) :=
    fun n => let '(o, (n', (_, s))) := collectc next isc_insert (is_len a + is_len b + 1)
                                         (n, (op_new (is_iter a) (is_iter b), [])) in
             (omap (fun _ => s) o, n').
  Definition isc_bitor : iset K -> iset K -> M nat (iset K) := isc_collect isc_union_next.
  Definition isc_bitand : iset K -> iset K -> M nat (iset K) := isc_collect isc_intersection_next.
  (** Evaluating a program that combines sets; a call that panics is caught. *)
  Fixpoint isc_eval (x : sexp (rangei K)) : M nat (iset K) :=
    match x with
    | XNew => ret []
    | XOp y o => (s <- isc_eval y ;; fun n => let '(_, (n', s')) := isc_exec o (n, s) in (Ret s', n'))%M
    | XOr y z => (a <- isc_eval y ;; b <- isc_eval z ;; isc_bitor a b)%M
    | XAnd y z => (a <- isc_eval y ;; b <- isc_eval z ;; isc_bitand a b)%M
    end.
End Incl.
