(** Interrupted updates of sets: CrashModel.v for [RangeSet] and
    [RangeInclusiveSet], which pass every update on to the map they wrap. *)
From Coq Require Import List Bool.
From Verif Require Import Order Outcome BTree Ranges History MapModel IMapModel SetModel ISetModel CrashModel.
Import ListNotations.

(** Calls that complete, and calls interrupted at the [n]-th of the states they
    go through (at the last one if there are fewer). *)
Inductive xsop (R : Type) : Type :=
| XSDone (o : sop R)
| XSCrash (o : sop R) (n : nat).
Arguments XSDone {R} o.
Arguments XSCrash {R} o n.
Definition xsexec {R S} (exec : sop R -> C S unit) (s : S) (x : xsop R) : S :=
  match x with
  | XSDone o => snd (snd (exec o s))
  | XSCrash o n => nth n (crash_states (exec o) s) (snd (snd (exec o s)))
  end.

Section Half.
  Context {K : Type} (cmp : K -> K -> comparison).
  (** [insert] set.rs:126-128 *)
  Definition rsx_insert (r : range K) : C (rset K) unit := rmx_insert cmp unit_eqb r tt.
  (** [remove] set.rs:139-141 *)
  Definition rsx_remove (r : range K) : C (rset K) unit := rmx_remove cmp r.
  (** any mutating call: [clear] set.rs:93-95, [extend] 281-285 *)
  Definition rsx_exec (o : sop (range K)) : C (rset K) unit :=
    match o with
    | SInsert r => rsx_insert r
    | SRemove r => rsx_remove r
    | SClear => rmx_clear
    | SExtend l => cfor_each rsx_insert l
    end.
  (** histories in which calls may be interrupted *)
  Definition rsx_run (xs : list (xsop (range K))) : rset K := fold_left (xsexec rsx_exec) xs [].
End Half.

Section Incl.
  Context {K : Type} (cmp : K -> K -> comparison) (st : stepfns K).
  (** [insert] inclusive_set.rs:146-148 *)
  Definition isx_insert (r : rangei K) : C (iset K) unit := imx_insert cmp unit_eqb st r tt.
  (** [remove] inclusive_set.rs:159-161 *)
  Definition isx_remove (r : rangei K) : C (iset K) unit := imx_remove cmp st r.
  (** any mutating call: [clear] inclusive_set.rs:123-125, [extend] 307-311 *)
  Definition isx_exec (o : sop (rangei K)) : C (iset K) unit :=
    match o with
    | SInsert r => isx_insert r
    | SRemove r => isx_remove r
    | SClear => imx_clear
    | SExtend l => cfor_each isx_insert l
    end.
  (** histories in which calls may be interrupted *)
  Definition isx_run (xs : list (xsop (rangei K))) : iset K := fold_left (xsexec isx_exec) xs [].
End Incl.
