(** Model of the [StepLite] impls (/repo/src/std_ext.rs:87-198) on concrete key
    types: the integers of the [impl_step_lite!] macro and the [NotNan] floats. *)
From Coq Require Import ZArith Bool SpecFloat.
From Verif Require Import Order Outcome Ranges.
Local Open Scope Z_scope.

(** ** Integers *)

(** A primitive integer type: [impl_step_lite!(usize u8 u16 u32 u64 u128 i8 i16
    i32 i64 i128)] std_ext.rs:122.  Signedness and width in bits. *)
Record ity : Type := mkIty { i_signed : bool; i_bits : Z }.
Definition i_min (t : ity) : Z := if i_signed t then - 2 ^ (i_bits t - 1) else 0.
Definition i_max (t : ity) : Z := if i_signed t then 2 ^ (i_bits t - 1) - 1 else 2 ^ i_bits t - 1.
Definition in_ity (t : ity) (z : Z) : bool := (i_min t <=? z) && (z <=? i_max t).
(** The values of the type; [Ord] on them is the order of the integers. *)
Definition ival (t : ity) : Type := { z : Z | in_ity t z = true }.
Definition icmp (t : ity) (a b : ival t) : comparison := proj1_sig a ?= proj1_sig b.

(** The value of the type congruent to [z] modulo [2^bits]. *)
Definition i_wrap (t : ity) (z : Z) : Z := (z - i_min t) mod 2 ^ i_bits t + i_min t.

(** [z] as a value of the type, if it is one. *)
Definition to_ival (t : ity) (z : Z) : option (ival t) :=
  (if in_ity t z as b return (in_ity t z = b -> option (ival t))
   then fun H => Some (exist _ z H) else fun _ => None) eq_refl.

(** How an overflowing [+]/[-] behaves: a panic with overflow checks (debug
    builds), wrapping without (release builds). *)
Inductive overflow : Type := Checked | Wrapping.
Definition i_arith (m : overflow) (t : ity) (z : Z) : option (ival t) :=
  match m with Checked => to_ival t z | Wrapping => to_ival t (i_wrap t z) end.

(** [add_one]: [Add::add( *self, 1)] std_ext.rs:109-112; [sub_one]:
    [Sub::sub( *self, 1)] 114-117 *)
Definition int_steps (m : overflow) (t : ity) : stepfns (ival t) :=
  mkStep (fun x => i_arith m t (proj1_sig x + 1))
         (fun x => i_arith m t (proj1_sig x - 1)).

(** ** Floats: [impl_step_lite_not_nan!] std_ext.rs:140-198 *)
Section Float.
  (** exponent and mantissa widths: 8 and 23 for [f32], 11 and 52 for [f64] *)
  Context (E M : Z).

  (** [<$bits>::BITS] std_ext.rs:146 *)
  Definition f_bits : Z := 1 + E + M.
  (** [const SIGN_MASK: $bits = 1 << (BITS - 1)] std_ext.rs:146, 171 *)
  Definition SIGN_MASK : Z := Z.shiftl 1 (f_bits - 1).
  (** [const TINY_BITS: $bits = 1] std_ext.rs:148 *)
  Definition TINY_BITS : Z := 1.
  (** [const NEG_TINY_BITS: $bits = (1 << (BITS - 1)) | 1] std_ext.rs:173 *)
  Definition NEG_TINY_BITS : Z := Z.lor (Z.shiftl 1 (f_bits - 1)) 1.
  (** [<$t>::INFINITY.to_bits()] std_ext.rs:151: IEEE 754, all exponent bits set *)
  Definition INF_BITS : Z := (2 ^ E - 1) * 2 ^ M.
  (** [<$t>::NEG_INFINITY.to_bits()] std_ext.rs:176 *)
  Definition NEG_INF_BITS : Z := Z.lor SIGN_MASK INF_BITS.
  (** [!mask] on [$bits] std_ext.rs:154, 179 *)
  Definition b_not (b : Z) : Z := Z.lxor b (Z.ones f_bits).

  (** IEEE 754 interchange format, as the standard library's [spec_float]:
      sign, exponent field and fraction field. *)
  Definition f_neg (b : Z) : bool := Z.testbit b (f_bits - 1).
  Definition f_exp (b : Z) : Z := (b / 2 ^ M) mod 2 ^ E.
  Definition f_frac (b : Z) : Z := b mod 2 ^ M.
  Definition f_bias : Z := 2 ^ (E - 1) - 1.
  Definition f_decode (b : Z) : spec_float :=
    if f_exp b =? 2 ^ E - 1 then
      if f_frac b =? 0 then S754_infinity (f_neg b) else S754_nan
    else if f_exp b =? 0 then
      match f_frac b with
      | Z0 => S754_zero (f_neg b)
      | Zpos m => S754_finite (f_neg b) m (1 - f_bias - M)
      | Zneg _ => S754_nan
      end
    else
      match 2 ^ M + f_frac b with
      | Zpos m => S754_finite (f_neg b) m (f_exp b - f_bias - M)
      | _ => S754_nan
      end.

  (** a [$bits] value that is not the pattern of a NaN: [NotNan] *)
  Definition in_bits (b : Z) : bool := (0 <=? b) && (b <? 2 ^ f_bits).
  Definition not_nan (b : Z) : bool :=
    in_bits b && match f_decode b with S754_nan => false | _ => true end.
  Definition fkey : Type := { b : Z | not_nan b = true }.
  (** [Ord for NotNan]: [partial_cmp] of the floats, which is never [None] on
      non-NaN floats *)
  Definition fcmp (a b : fkey) : comparison :=
    match SFcompare (f_decode (proj1_sig a)) (f_decode (proj1_sig b)) with
    | Some c => c
    | None => Eq
    end.

  (** [NotNan::new(<$t>::from_bits(b)).expect(..)]; [None] is a panic, also used
      for an arithmetic overflow in computing [b] *)
  Definition to_fkey (b : Z) : option fkey :=
    (if not_nan b as x return (not_nan b = x -> option fkey)
     then fun H => Some (exist _ b H) else fun _ => None) eq_refl.

  (** [add_one]'s [next_bits] std_ext.rs:150-162 *)
  Definition f_next_bits (bits : Z) : Z :=
    if bits =? INF_BITS then bits
    else let abs := Z.land bits (b_not SIGN_MASK) in
      if abs =? 0 then TINY_BITS
      else if bits =? abs then bits + 1
      else bits - 1.
  (** [sub_one]'s [next_bits] std_ext.rs:175-187 *)
  Definition f_prev_bits (bits : Z) : Z :=
    if bits =? NEG_INF_BITS then bits
    else let abs := Z.land bits (b_not SIGN_MASK) in
      if abs =? 0 then NEG_TINY_BITS
      else if bits =? abs then bits - 1
      else bits + 1.
  Definition float_steps : stepfns fkey :=
    mkStep (fun x => to_fkey (f_next_bits (proj1_sig x)))
           (fun x => to_fkey (f_prev_bits (proj1_sig x))).

  (** ** The real number a pattern stands for, in units of the smallest positive
      subnormal (specification only).  Infinities are separate. *)
  Inductive fval : Type := NegInf | Finite (z : Z) | PosInf.
  Definition f_value (b : Z) : fval :=
    let sgn z := if f_neg b then - z else z in
    if f_exp b =? 2 ^ E - 1 then (if f_neg b then NegInf else PosInf)
    else if f_exp b =? 0 then Finite (sgn (f_frac b))
    else Finite (sgn ((2 ^ M + f_frac b) * 2 ^ (f_exp b - 1))).
  Definition fval_cmp (a b : fval) : comparison :=
    match a, b with
    | NegInf, NegInf | PosInf, PosInf => Eq
    | NegInf, _ | _, PosInf => Lt
    | _, NegInf | PosInf, _ => Gt
    | Finite x, Finite y => x ?= y
    end.
End Float.
