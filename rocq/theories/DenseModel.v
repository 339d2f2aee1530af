(** Model of the crate's test oracle [DenseU32RangeMap] (/repo/src/dense.rs): a
    [BTreeMap<u32, V>] with one entry per key.

    A [u32] is represented by its value in [Z]; arithmetic on it is checked
    (overflow panics, as in the debug builds tests run in). *)
From Coq Require Import List Bool ZArith.
From Verif Require Import Order Outcome BTree Ranges MapModel IMapModel StepModel.
Import ListNotations.
Local Open Scope Z_scope.

Definition u32 : ity := mkIty false 32.
(** checked arithmetic on [u32] *)
Definition u32_of (z : Z) : outcome Z := if in_ity u32 z then Ret z else Panicked PStep.

Section Dense.
  Context {V : Type} (veqb : V -> V -> bool).
  Notation dmap := (list (Z * V)).
  Notation item := (rangei Z * V)%type.

  (** [new] dense.rs:27-31 *)
  Definition d_new : dmap := [].
  (** The keys [for k in range] visits (core's [Iterator for RangeInclusive<u32>]):
      nothing if the range [is_empty], else [start], [start + 1], ..., [end]. *)
  Definition d_keys (r : rangei Z) : list Z :=
    if ri_is_empty Z.compare r then []
    else map (fun i => ri_start r + Z.of_nat i)
             (seq 0 (Z.to_nat (ri_end r - ri_start r) + 1)).
  (** [insert] dense.rs:33-37 *)
  Definition d_insert (r : rangei Z) (v : V) (d : dmap) : dmap :=
    fold_left (fun d k => bt_insert Z.compare k v d) (d_keys r) d.
  (** the [for] loop in which the tests fill a dense map: map.rs:1209-1216,
      inclusive_map.rs:1331-1335 *)
  Definition d_insert_all (l : list item) (d : dmap) : dmap :=
    fold_left (fun d e => d_insert (fst e) (snd e) d) l d.

  (** [Iter] dense.rs:98-104 *)
  Record diter : Type := mkDiter { di_inner : list (Z * V); di_current : option item }.
  (** [iter] dense.rs:39-44 *)
  Definition d_iter (d : dmap) : diter := mkDiter d None.
  (** [Iterator::next for Iter] dense.rs:113-140.  The recursion consumes one
      inner item per call. *)
  Fixpoint d_next_loop (inner : list (Z * V)) (current : option item)
    : outcome (option item) * diter :=
    match inner with
    | [] => (Ret current, mkDiter [] None)
    | (k, v) :: inner' =>
        match current with
        | Some (r, rv) =>
            match u32_of (ri_end r + 1) with
            | Ret e1 =>
                if (e1 =? k) && veqb rv v
                then d_next_loop inner' (Some (incl (ri_start r) k, rv))
                else (Ret (Some (r, rv)), mkDiter inner' (Some (incl k k, v)))
            | Panicked p => (Panicked p, mkDiter inner' current)
            | OutOfFuel => (OutOfFuel, mkDiter inner' current)
            end
        | None => d_next_loop inner' (Some (incl k k, v))
        end
    end.
  Definition d_next (it : diter) : outcome (option item) * diter :=
    d_next_loop (di_inner it) (di_current it).
  (** [end_exclusive_iter] dense.rs:46-48 and [Iterator::next for
      EndExclusiveIter] 153-157 *)
  Definition d_ee_next (it : diter) : outcome (option (range Z * V)) * diter :=
    let (o, it') := d_next it in
    (obind o (fun x => match x with
                       | None => Ret None
                       | Some (r, v) => omap (fun e => Some (mkR (ri_start r) e, v)) (u32_of (ri_end r + 1))
                       end), it').

  (** [collect]: [next] until [None].  [OutOfFuel] is not reachable below:
      C65_to_vec, C65_to_end_exclusive_vec *)
  Fixpoint d_collect {A} (next : diter -> outcome (option A) * diter) (fuel : nat) (it : diter)
    : outcome (list A) :=
    match fuel with
    | O => OutOfFuel
    | S fuel' =>
        let (o, it') := next it in
        obind o (fun x => match x with
                          | None => Ret []
                          | Some a => omap (cons a) (d_collect next fuel' it')
                          end)
    end.
  (** [to_vec] dense.rs:52-56; [clone] is the identity.  Each item but the last
      consumes a key. *)
  Definition d_to_vec (d : dmap) : outcome (list item) :=
    d_collect d_next (length d + 1) (d_iter d).
  (** [to_end_exclusive_vec] dense.rs:58-62 *)
  Definition d_to_end_exclusive_vec (d : dmap) : outcome (list (range Z * V)) :=
    d_collect d_ee_next (length d + 1) (d_iter d).

  (** [From<RangeMap<u32, V>>] dense.rs:65-83 *)
  Fixpoint d_from_loop (l : rmap (ival u32) V) (d : dmap) : outcome dmap :=
    match l with
    | [] => Ret d
    | (r, v) :: l' =>
        obind (u32_of (proj1_sig (r_end r) - 1)) (fun e =>
          d_from_loop l' (d_insert (incl (proj1_sig (r_start r)) e) v d))
    end.
  Definition d_from_map (m : rmap (ival u32) V) : outcome dmap := d_from_loop (rm_iter m) d_new.
  (** a [RangeInclusive<u32>] as the model of this file has it *)
  Definition d_range (r : rangei (ival u32)) : rangei Z :=
    mkRI (proj1_sig (ri_start r)) (proj1_sig (ri_end r)) (ri_exhausted r).
  (** [From<RangeInclusiveMap<u32, V>>] dense.rs:85-96 *)
  Definition d_from_imap (m : imap (ival u32) V) : dmap :=
    d_insert_all (map (fun e => (d_range (fst e), snd e)) (im_iter m)) d_new.
  (** derived [PartialEq] dense.rs:16: that of the [BTreeMap], element-wise *)
  Definition d_eqb (a b : dmap) : bool :=
    list_eqb (fun x y => (fst x =? fst y) && veqb (snd x) (snd y)) a b.
End Dense.
