(** Properties of the built-in step functions (C58, C59). *)
From Coq Require Import ZArith List Bool SpecFloat Lia.
From Verif Require Import Order Outcome Ranges StepModel StepFacts.
Import ListNotations.
Local Open Scope Z_scope.

(** The integer types of std_ext.rs:122; [usize] is 16, 32 or 64 bits wide. *)
Definition uN (bits : Z) : ity := mkIty false bits.
Definition iN (bits : Z) : ity := mkIty true bits.
Definition int_types : list ity :=
  [uN 16; uN 32; uN 64] ++ [uN 8; uN 16; uN 32; uN 64; uN 128] ++ [iN 8; iN 16; iN 32; iN 64; iN 128].

(** ** C58 *)
(** The successor exists for every value but the greatest, and is the next integer. *)
Theorem C58_add_one : forall t, 0 < i_bits t -> forall m (x : ival t), proj1_sig x <> i_max t ->
  exists y, add_one (int_steps m t) x = Some y /\ proj1_sig y = proj1_sig x + 1.
Proof. exact int_add_one. Qed.
Theorem C58_sub_one : forall t, 0 < i_bits t -> forall m (x : ival t), proj1_sig x <> i_min t ->
  exists y, sub_one (int_steps m t) x = Some y /\ proj1_sig y = proj1_sig x - 1.
Proof. exact int_sub_one. Qed.
(** At the extremes: a panic with overflow checks, wrapping without. *)
Theorem C58_extremes : forall t, 0 < i_bits t -> forall x : ival t,
  (proj1_sig x = i_max t -> add_one (int_steps Checked t) x = None /\
     exists y, add_one (int_steps Wrapping t) x = Some y /\ proj1_sig y = i_min t) /\
  (proj1_sig x = i_min t -> sub_one (int_steps Checked t) x = None /\
     exists y, sub_one (int_steps Wrapping t) x = Some y /\ proj1_sig y = i_max t).
Proof. exact (fun t H x => conj (int_add_max t H x) (int_sub_min t H x)). Qed.
(** The contract the inclusive maps and sets rely on holds for every impl, in
    both build modes. *)
Theorem C58_contract : forall t m, In t int_types ->
  TotalOrd (icmp t) /\ StepLaws (icmp t) (int_steps m t).
Proof.
  intros t m H. split; [apply int_order|]. apply int_steplaws.
  cbn in H. repeat (destruct H as [<- |H]; [reflexivity|]). destruct H.
Qed.

Example C58_example :
  i_min (iN 8) = -128 /\ i_max (iN 8) = 127 /\ i_max (uN 128) = 2 ^ 128 - 1 /\
  (exists y, option_map (@proj1_sig _ _) (add_one (int_steps Checked (iN 8)) (exist _ (-1) eq_refl)) = Some y /\ y = 0) /\
  add_one (int_steps Checked (uN 8)) (exist _ 255 eq_refl) = None /\
  option_map (@proj1_sig _ _) (add_one (int_steps Wrapping (uN 8)) (exist _ 255 eq_refl)) = Some 0 /\
  option_map (@proj1_sig _ _) (sub_one (int_steps Wrapping (iN 8)) (exist _ (-128) eq_refl)) = Some 127.
Proof. repeat split. exists 0. split; reflexivity. Qed.

(** ** C59: [f32] is [E = 8, M = 23], [f64] is [E = 11, M = 52] *)

(** The order used is the IEEE comparison and is the order of the real values;
    it is total on non-NaN floats. *)
Theorem C59_order_is_value_order : forall E M, 2 <= E -> 1 <= M -> forall a b : fkey E M,
  SFcompare (f_decode E M (proj1_sig a)) (f_decode E M (proj1_sig b)) = Some (fcmp E M a b) /\
  fcmp E M a b = fval_cmp (f_value E M (proj1_sig a)) (f_value E M (proj1_sig b)).
Proof. exact fcmp_value. Qed.
(** what a pattern means: [f_value] is in units of the least positive number,
    2^(1 - bias - M) *)
Theorem C59_decode : forall E M, 2 <= E -> 1 <= M -> forall b, not_nan E M b = true ->
  match f_decode E M b with
  | S754_zero _ => f_value E M b = Finite 0
  | S754_infinity s => f_value E M b = if s then NegInf else PosInf
  | S754_nan => False
  | S754_finite s m e =>
      let u := 1 - (2 ^ (E - 1) - 1) - M in
      u <= e /\ f_value E M b = Finite ((if s then - 1 else 1) * (Zpos m * 2 ^ (e - u)))
  end.
Proof. exact decode_value. Qed.
(** [add_one] never panics; it gives the least greater float, or the same
    float at infinity. *)
Theorem C59_add_one : forall E M, 2 <= E -> 1 <= M -> forall x : fkey E M,
  exists y, add_one (float_steps E M) x = Some y /\
  match f_value E M (proj1_sig x) with
  | PosInf => y = x
  | _ => fcmp E M x y = Lt /\ forall z, fcmp E M x z = Lt -> fcmp E M y z <> Gt
  end.
Proof. exact float_add_one. Qed.
Theorem C59_sub_one : forall E M, 2 <= E -> 1 <= M -> forall x : fkey E M,
  exists y, sub_one (float_steps E M) x = Some y /\
  match f_value E M (proj1_sig x) with
  | NegInf => y = x
  | _ => fcmp E M y x = Lt /\ forall z, fcmp E M z x = Lt -> fcmp E M z y <> Gt
  end.
Proof. exact float_sub_one. Qed.
(** a step and the step back give an equal float (from -0.0 maybe 0.0) *)
Theorem C59_reversible : forall E M, 2 <= E -> 1 <= M -> forall (x : fkey E M) v,
  f_value E M (proj1_sig x) = Finite v ->
  (exists y z, add_one (float_steps E M) x = Some y /\ sub_one (float_steps E M) y = Some z /\ fcmp E M z x = Eq) /\
  (exists y z, sub_one (float_steps E M) x = Some y /\ add_one (float_steps E M) y = Some z /\ fcmp E M z x = Eq).
Proof. exact float_reversible. Qed.
(** hence the contract of the inclusive maps holds *)
Theorem C59_contract_f32 : TotalOrd (fcmp 8 23) /\ StepLaws (fcmp 8 23) (float_steps 8 23).
Proof. apply float_laws; lia. Qed.
Theorem C59_contract_f64 : TotalOrd (fcmp 11 52) /\ StepLaws (fcmp 11 52) (float_steps 11 52).
Proof. apply float_laws; lia. Qed.
(** the two zeros have the same neighbours *)
Theorem C59_zeros : forall b, b = 0 \/ b = 2 ^ 63 ->
  f_value 11 52 b = Finite 0 /\
  f_next_bits 11 52 b = 1 /\ f_value 11 52 1 = Finite 1 /\
  f_prev_bits 11 52 b = 2 ^ 63 + 1 /\ f_value 11 52 (2 ^ 63 + 1) = Finite (-1).
Proof. intros b [-> | ->]; vm_compute; repeat split. Qed.

(** f32: 1.0, its successor, and the largest finite value stepping to infinity *)
Example C59_example :
  f_value 8 23 0x3F800000 = Finite (2 ^ 23 * 2 ^ 126) /\
  f_decode 8 23 0x3F800000 = S754_finite false (2 ^ 23)%positive (-23) /\
  f_next_bits 8 23 0x3F800000 = 0x3F800001 /\
  f_next_bits 8 23 0x7F7FFFFF = 0x7F800000 /\ f_value 8 23 0x7F800000 = PosInf /\
  f_next_bits 8 23 0x80000001 = 0x80000000 /\ f_value 8 23 0x80000000 = Finite 0 /\
  not_nan 8 23 0x7F800001 = false.
Proof. vm_compute. repeat split. Qed.

Print Assumptions C58_add_one.
Print Assumptions C58_sub_one.
Print Assumptions C58_extremes.
Print Assumptions C58_contract.
Print Assumptions C59_decode.
Print Assumptions C59_order_is_value_order.
Print Assumptions C59_add_one.
Print Assumptions C59_sub_one.
Print Assumptions C59_reversible.
Print Assumptions C59_contract_f32.
Print Assumptions C59_contract_f64.
Print Assumptions C59_zeros.
