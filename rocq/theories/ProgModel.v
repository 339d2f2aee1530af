(** Running the programs of SpecProg.v on the models of the four collections.

    The programs are client code, not code of the crate; they only call the
    modelled methods.  A [for]/[collect]/[extend] over an iterator drains it
    first and then makes the calls; in the crate the two are interleaved but
    share no state (the source is consumed, cloned or a different collection).
    A panic inside an update call [PCall]/[QCall] is caught and the program goes
    on (as in histories); any other panic ends the program. *)
From Coq Require Import List Bool.
From Verif Require Import Order Outcome BTree Ranges History MapModel IMapModel OpsModel SetModel ISetModel
  FuzzModel SpecProg.
Import ListNotations.

(** The state a computation leaves if it returns. *)
Definition state_after {S} (c : M S unit) (s : S) : outcome S :=
  match c s with
  | (Ret _, s') => Ret s'
  | (Panicked p, _) => Panicked p
  | (OutOfFuel, _) => OutOfFuel
  end.

Section Half.
  Context {K V : Type} (cmp : K -> K -> comparison) (veqb : V -> V -> bool).

  (** [m.gaps(&outer).collect::<Vec<_>>()]: map.rs:192-199 (gaps), 722-762 (next).
      There is at most one gap more than there are entries. *)
  Definition rm_all_gaps (m : rmap K V) (outer : range K) : outcome (list (range K)) :=
    obind (rm_gaps cmp m outer) (fun g => fst (drain (pnext (gp_next cmp)) (length m + 2) g)).
  (** the same for sets: set.rs:152-156, 375-377 *)
  Definition rs_all_gaps (s : rset K) (outer : range K) : outcome (list (range K)) :=
    obind (rs_gaps cmp s outer) (fun g => fst (drain (pnext (rs_gaps_next cmp)) (length s + 2) g)).

  Fixpoint mrun (x : mprog (range K) V) : outcome (rmap K V) :=
    match x with
    | PNew => Ret rm_new
    | PCall m o => omap (fun s => snd (rm_exec cmp veqb o s)) (mrun m)
    | PExtend m m' => obind (mrun m) (fun a => obind (mrun m') (fun b =>
        state_after (rm_extend cmp veqb (rm_into_iter b)) a))
    | PMinus m s => obind (mrun m) (fun a => obind (srun s) (fun b =>
        state_after (for_each (rm_remove cmp) (map fst (rs_into_iter b))) a))
    | PFill m outer v => obind (mrun m) (fun a => obind (rm_all_gaps a outer) (fun gs =>
        state_after (rm_extend cmp veqb (map (fun r => (r, v)) gs)) a))
    | PPaint s v => obind (srun s) (fun b =>
        rm_from_iter cmp veqb (map (fun r => (r, v)) (map fst (rs_into_iter b))))
    | PApply g m => obind (mrun m) (fun a =>
        rm_from_iter cmp veqb (map (fun e => (fst e, g (snd e))) (rm_into_iter a)))
    end
  with srun (x : sprog (range K) V) : outcome (rset K) :=
    match x with
    | QNew => Ret rs_new
    | QCall s o => omap (fun a => snd (rs_exec cmp o a)) (srun s)
    | QOr s s' => obind (srun s) (fun a => obind (srun s') (fun b => rs_bitor cmp a b))
    | QAnd s s' => obind (srun s) (fun a => obind (srun s') (fun b => rs_bitand cmp a b))
    | QExtend s s' => obind (srun s) (fun a => obind (srun s') (fun b =>
        state_after (rs_extend cmp (map fst (rs_into_iter b))) a))
    | QMinus s s' => obind (srun s) (fun a => obind (srun s') (fun b =>
        state_after (for_each (rs_remove cmp) (map fst (rs_into_iter b))) a))
    | QGaps s outer => obind (srun s) (fun a => obind (rs_all_gaps a outer) (rs_from_iter cmp))
    | QWhere p m => obind (mrun m) (fun a =>
        rs_from_iter cmp (map fst (filter (fun e => p (snd e)) (rm_into_iter a))))
    | QFree m outer => obind (mrun m) (fun a => obind (rm_all_gaps a outer) (rs_from_iter cmp))
    end.
End Half.

Section Inclusive.
  Context {K V : Type} (cmp : K -> K -> comparison) (veqb : V -> V -> bool) (st : stepfns K).

  (** inclusive_map.rs:551-563 (gaps), 828-878 (next) *)
  Definition im_all_gaps (m : imap K V) (outer : rangei K) : outcome (list (rangei K)) :=
    obind (im_gaps cmp m outer) (fun g => fst (drain (gpi_next cmp st) (length m + 2) g)).
  (** inclusive_set.rs:168-172, 400-409 *)
  Definition is_all_gaps (s : iset K) (outer : rangei K) : outcome (list (rangei K)) :=
    obind (is_gaps cmp s outer) (fun g => fst (drain (is_gaps_next cmp st) (length s + 2) g)).

  Fixpoint imrun (x : mprog (rangei K) V) : outcome (imap K V) :=
    match x with
    | PNew => Ret im_new
    | PCall m o => omap (fun s => snd (im_exec cmp veqb st o s)) (imrun m)
    | PExtend m m' => obind (imrun m) (fun a => obind (imrun m') (fun b =>
        state_after (im_extend cmp veqb st (im_into_iter b)) a))
    | PMinus m s => obind (imrun m) (fun a => obind (isrun s) (fun b =>
        state_after (for_each (im_remove cmp st) (map fst (is_into_iter b))) a))
    | PFill m outer v => obind (imrun m) (fun a => obind (im_all_gaps a outer) (fun gs =>
        state_after (im_extend cmp veqb st (map (fun r => (r, v)) gs)) a))
    | PPaint s v => obind (isrun s) (fun b =>
        im_from_iter cmp veqb st (map (fun r => (r, v)) (map fst (is_into_iter b))))
    | PApply g m => obind (imrun m) (fun a =>
        im_from_iter cmp veqb st (map (fun e => (fst e, g (snd e))) (im_into_iter a)))
    end
  with isrun (x : sprog (rangei K) V) : outcome (iset K) :=
    match x with
    | QNew => Ret is_new
    | QCall s o => omap (fun a => snd (is_exec cmp st o a)) (isrun s)
    | QOr s s' => obind (isrun s) (fun a => obind (isrun s') (fun b => is_bitor cmp st a b))
    | QAnd s s' => obind (isrun s) (fun a => obind (isrun s') (fun b => is_bitand cmp st a b))
    | QExtend s s' => obind (isrun s) (fun a => obind (isrun s') (fun b =>
        state_after (is_extend cmp st (map fst (is_into_iter b))) a))
    | QMinus s s' => obind (isrun s) (fun a => obind (isrun s') (fun b =>
        state_after (for_each (is_remove cmp st) (map fst (is_into_iter b))) a))
    | QGaps s outer => obind (isrun s) (fun a => obind (is_all_gaps a outer) (is_from_iter cmp st))
    | QWhere p m => obind (imrun m) (fun a =>
        is_from_iter cmp st (map fst (filter (fun e => p (snd e)) (im_into_iter a))))
    | QFree m outer => obind (imrun m) (fun a => obind (im_all_gaps a outer) (is_from_iter cmp st))
    end.
End Inclusive.
