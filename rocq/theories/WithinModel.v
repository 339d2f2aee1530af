(** The updates of [RangeInclusiveMap] with the number of rounds the [while let]
    loops may take as a parameter: the same text as in IMapModel.v, where the
    loops are given a number of rounds that is enough under [StepLaws].
    [OutOfFuel]: still running after [n] rounds of the loop of one call. *)
From Coq Require Import List Bool.
From Verif Require Import Order Outcome BTree Ranges History IMapModel.
Import ListNotations.

Section Within.
  Context {K V : Type} (cmp : K -> K -> comparison) (veqb : V -> V -> bool) (st : stepfns K).
  Notation c_start := (cmpi_start cmp).

  (** [insert] inclusive_map.rs:249-374 *)
  Definition im_insert_within (n : nat) (r : rangei K) (new_value : V) : M (imap K V) unit :=
    (assert_ (leb cmp (ri_start r) (ri_end r)) ;;;
     m <- get ;;
     before <- lift (bt_range c_start Unbounded (Included r) m) ;;
     cands <- lift (filter_o (fun e => ri_touches cmp st (fst e) r) (firstn 2 (rev before))) ;;
     new1 <- match cands with
             | [] => ret r
             | [(s, sv)] => im_adjust_touching_ranges_for_insert cmp veqb st s sv r new_value
             | _ :: (s, sv) :: _ => im_adjust_touching_ranges_for_insert cmp veqb st s sv r new_value
             end ;;
     new2 <- im_insert_loop cmp veqb st n new1 new_value (incl (ri_end new1) (ri_end new1)) ;;
     modify (bt_insert c_start new2 new_value))%M.

  (** [remove] inclusive_map.rs:386-460 *)
  Definition im_remove_within (n : nat) (r : rangei K) : M (imap K V) unit :=
    (assert_ (leb cmp (ri_start r) (ri_end r)) ;;;
     m <- get ;;
     before <- lift (bt_range c_start Unbounded (Included r) m) ;;
     match last_opt before with
     | Some (s, sv) =>
         if ri_overlaps cmp s r
         then im_adjust_overlapping_ranges_for_remove cmp st s sv r
         else ret tt
     | None => ret tt
     end ;;;
     im_remove_loop cmp st n r (incl (ri_end r) (ri_end r)))%M.

  (** any mutating call (History.v); [extend] inclusive_map.rs:722-726,
      [clear] 222-224 *)
  Definition im_exec_within (n : nat) (o : op (rangei K) V) : M (imap K V) unit :=
    match o with
    | OInsert r v => im_insert_within n r v
    | ORemove r => im_remove_within n r
    | OClear => im_clear
    | OExtend l => for_each (fun e => im_insert_within n (fst e) (snd e)) l
    end.
End Within.
