(** Proofs about the step functions of StepModel.v. *)
From Coq Require Import ZArith Bool Lia SpecFloat Eqdep_dec.
From Verif Require Import Order Outcome Ranges StepModel ISim Cuts.
Local Open Scope Z_scope.

Lemma ival_eq t (a b : ival t) : proj1_sig a = proj1_sig b -> a = b.
Proof.
  destruct a as [a Ha], b as [b Hb]. cbn. intros ->. f_equal. apply UIP_dec. apply bool_dec.
Qed.
Lemma to_ival_Some t z : in_ity t z = true -> exists y, to_ival t z = Some y /\ proj1_sig y = z.
Proof.
  intros H. unfold to_ival.
  generalize (@eq_refl bool (in_ity t z)). revert H. generalize (in_ity t z) at 1 3 4.
  intros b ->. intros e. eexists. split; reflexivity.
Qed.
Lemma to_ival_None t z : in_ity t z = false -> to_ival t z = None.
Proof.
  intros H. unfold to_ival.
  generalize (@eq_refl bool (in_ity t z)). revert H. generalize (in_ity t z) at 1 3 4.
  intros b ->. reflexivity.
Qed.
Lemma in_ity_iff t z : in_ity t z = true <-> i_min t <= z <= i_max t.
Proof. unfold in_ity. rewrite andb_true_iff, !Z.leb_le. reflexivity. Qed.

Section Int.
  Context (t : ity) (Hb : 0 < i_bits t).
  Lemma i_span : i_max t - i_min t = 2 ^ i_bits t - 1 /\ 0 < 2 ^ i_bits t.
  Proof.
    assert (E : 2 ^ i_bits t = 2 * 2 ^ (i_bits t - 1)).
    { rewrite <- Z.pow_succ_r by lia. f_equal. lia. }
    assert (0 < 2 ^ (i_bits t - 1)) by (apply Z.pow_pos_nonneg; lia).
    unfold i_max, i_min. destruct (i_signed t); lia.
  Qed.
  Lemma i_wrap_id z : i_min t <= z <= i_max t -> i_wrap t z = z.
  Proof. destruct i_span. intros H'. unfold i_wrap. rewrite Z.mod_small; lia. Qed.
  Lemma i_wrap_over : i_wrap t (i_max t + 1) = i_min t.
  Proof.
    destruct i_span. unfold i_wrap. replace (i_max t + 1 - i_min t) with (2 ^ i_bits t) by lia.
    rewrite Z.mod_same by lia. lia.
  Qed.
  Lemma i_wrap_under : i_wrap t (i_min t - 1) = i_max t.
  Proof.
    destruct i_span. unfold i_wrap. replace (i_min t - 1 - i_min t) with (-(1)) by lia.
    destruct (Z.eq_dec (2 ^ i_bits t) 1) as [E|E].
    - rewrite E. cbn. lia.
    - rewrite Z.mod_opp_l_nz by (rewrite ?Z.mod_small; lia). rewrite Z.mod_small; lia.
  Qed.
  Lemma i_arith_ok m z : in_ity t z = true -> exists y, i_arith m t z = Some y /\ proj1_sig y = z.
  Proof.
    intros H. destruct m; cbn [i_arith]; [|rewrite i_wrap_id by (apply in_ity_iff; exact H)]; apply to_ival_Some; exact H.
  Qed.
  Lemma int_add_one m x : proj1_sig x <> i_max t ->
    exists y, add_one (int_steps m t) x = Some y /\ proj1_sig y = proj1_sig x + 1.
  Proof.
    destruct x as [x Hx]. cbn. intros H. apply i_arith_ok. apply in_ity_iff in Hx. apply in_ity_iff. lia.
  Qed.
  Lemma int_sub_one m x : proj1_sig x <> i_min t ->
    exists y, sub_one (int_steps m t) x = Some y /\ proj1_sig y = proj1_sig x - 1.
  Proof.
    destruct x as [x Hx]. cbn. intros H. apply i_arith_ok. apply in_ity_iff in Hx. apply in_ity_iff. lia.
  Qed.
  Lemma int_add_max x : proj1_sig x = i_max t ->
    add_one (int_steps Checked t) x = None /\
    exists y, add_one (int_steps Wrapping t) x = Some y /\ proj1_sig y = i_min t.
  Proof.
    destruct x as [x Hx]. cbn. intros ->. destruct i_span. split.
    - apply to_ival_None. unfold in_ity. apply andb_false_iff. right. apply Z.leb_gt. lia.
    - rewrite i_wrap_over. apply to_ival_Some, in_ity_iff. lia.
  Qed.
  Lemma int_sub_min x : proj1_sig x = i_min t ->
    sub_one (int_steps Checked t) x = None /\
    exists y, sub_one (int_steps Wrapping t) x = Some y /\ proj1_sig y = i_max t.
  Proof.
    destruct x as [x Hx]. cbn. intros ->. destruct i_span. split.
    - apply to_ival_None. unfold in_ity. apply andb_false_iff. left. apply Z.leb_gt. lia.
    - rewrite i_wrap_under. apply to_ival_Some, in_ity_iff. lia.
  Qed.
  Lemma ival_bounds (x : ival t) : i_min t <= proj1_sig x <= i_max t.
  Proof. apply in_ity_iff. apply (proj2_sig x). Qed.
  Lemma int_cuts_ival m : Cuts (icmp t) Z.compare (int_steps m t)
    (fun k => proj1_sig k) (fun k => proj1_sig k + 1).
  Proof.
    apply (int_cuts (icmp t) (int_steps m t) (fun k => proj1_sig k)).
    - reflexivity.
    - intros a b H. apply int_add_one. pose proof (ival_bounds b). lia.
    - intros a b H. apply int_sub_one. pose proof (ival_bounds b). lia.
  Qed.
End Int.

(** A key type stepped by one along an integer-valued monotone [f]. *)
Lemma steps_of_index {K} (cmp : K -> K -> comparison) (st : stepfns K) (f : K -> Z) :
  (forall a b, cmp a b = (f a ?= f b)) ->
  (forall a b, f a < f b -> exists s, add_one st a = Some s /\ f s = f a + 1) ->
  (forall a b, f b < f a -> exists p, sub_one st a = Some p /\ f p = f a - 1) ->
  TotalOrd cmp /\ StepLaws cmp st.
Proof.
  intros Hc Hs Hp. split; split; unfold ltb, leb.
  - intros x. rewrite Hc. apply Z.compare_refl.
  - intros x y. rewrite !Hc. apply Z.compare_antisym.
  - intros c x y z. rewrite !Hc. destruct c; rewrite ?Z.compare_eq_iff, ?Z.compare_lt_iff, ?Z.compare_gt_iff; lia.
  - intros x y. rewrite Hc. destruct (Z.compare_spec (f x) (f y)); try discriminate. intros _.
    destruct (Hs x y H) as (s & H1 & H2). exists s. split; [exact H1|]. rewrite !Hc, H2.
    destruct (Z.compare_spec (f x) (f x + 1)), (Z.compare_spec (f x + 1) (f y)); split; try reflexivity; lia.
  - intros x y. rewrite Hc. destruct (Z.compare_spec (f y) (f x)); try discriminate. intros _.
    destruct (Hp x y H) as (s & H1 & H2). exists s. split; [exact H1|]. rewrite !Hc, H2.
    destruct (Z.compare_spec (f x - 1) (f x)), (Z.compare_spec (f y) (f x - 1)); split; try reflexivity; lia.
Qed.
Lemma int_order t : TotalOrd (icmp t).
Proof.
  split; unfold icmp.
  - intros x. apply Z.compare_refl.
  - intros x y. apply Z.compare_antisym.
  - intros c x y z. destruct c; rewrite ?Z.compare_eq_iff, ?Z.compare_lt_iff, ?Z.compare_gt_iff; lia.
Qed.
Lemma int_steplaws t m : 0 < i_bits t -> StepLaws (icmp t) (int_steps m t).
Proof.
  intros Hb. apply (steps_of_index (icmp t) (int_steps m t) (fun k => proj1_sig k)).
  - reflexivity.
  - intros a b H. apply int_add_one; [exact Hb|]. pose proof (ival_bounds t b). lia.
  - intros a b H. apply int_sub_one; [exact Hb|]. pose proof (ival_bounds t b). lia.
Qed.

(** ** Floats *)
Section Float.
  Context (E M : Z) (HE : 2 <= E) (HM : 1 <= M).
  Notation n := (f_bits E M).
  Notation key0 := (2 ^ (E + M)).
  Notation INF := (INF_BITS E M).
  Notation neg := (f_neg E M).
  Notation exp_ := (f_exp E M).
  Notation frac := (f_frac M).
  Notation decode := (f_decode E M).
  Notation fkey := (fkey E M).

  (** sign bit removed *)
  Definition f_abs (b : Z) : Z := b mod key0.
  (** position of a pattern in the order of the floats *)
  Definition f_index (b : Z) : Z := if neg b then - f_abs b else f_abs b.

  Lemma pM : 1 < 2 ^ M. Proof. apply Z.pow_gt_1; lia. Qed.
  Lemma pE : 4 <= 2 ^ E. Proof. change 4 with (2 ^ 2). apply Z.pow_le_mono_r; lia. Qed.
  Lemma pEM : key0 = 2 ^ E * 2 ^ M. Proof. apply Z.pow_add_r; lia. Qed.
  Lemma pn : 2 ^ n = 2 * key0.
  Proof. unfold f_bits. replace (1 + E + M) with (Z.succ (E + M)) by lia. rewrite Z.pow_succ_r by lia. reflexivity. Qed.
  Lemma n1 : n - 1 = E + M. Proof. unfold f_bits. lia. Qed.
  Lemma sign_pow : SIGN_MASK E M = key0.
  Proof. unfold SIGN_MASK. rewrite n1, Z.shiftl_1_l. reflexivity. Qed.

  Lemma in_bits_iff b : in_bits E M b = true <-> 0 <= b < 2 * key0.
  Proof. unfold in_bits. rewrite pn, andb_true_iff, Z.leb_le, Z.ltb_lt. reflexivity. Qed.
  Lemma neg_iff b : 0 <= b < 2 * key0 -> neg b = (key0 <=? b).
  Proof.
    intros H. unfold f_neg. rewrite n1.
    assert (0 < key0) by (apply Z.pow_pos_nonneg; lia).
    destruct (key0 <=? b) eqn:L.
    - apply Z.leb_le in L. apply Z.testbit_true; [lia|].
      replace (b / key0) with 1; [reflexivity|]. apply (Z.div_unique b key0 1 (b - key0)); lia.
    - apply Z.leb_gt in L. apply Z.testbit_false; [lia|]. rewrite Z.div_small by lia. reflexivity.
  Qed.
  Lemma abs_cases b : 0 <= b < 2 * key0 ->
    (neg b = false /\ f_abs b = b /\ b < key0) \/ (neg b = true /\ f_abs b = b - key0 /\ key0 <= b).
  Proof.
    intros H. rewrite (neg_iff b H). assert (0 < key0) by (apply Z.pow_pos_nonneg; lia).
    unfold f_abs. destruct (key0 <=? b) eqn:L.
    - right. apply Z.leb_le in L. split; [reflexivity|]. split; [|exact L].
      symmetry. apply (Z.mod_unique b key0 1); lia.
    - left. apply Z.leb_gt in L. split; [reflexivity|]. split; [|exact L]. apply Z.mod_small. lia.
  Qed.
  Lemma land_abs b : Z.land b (b_not E M (SIGN_MASK E M)) = f_abs b.
  Proof.
    unfold f_abs. rewrite <- Z.land_ones by lia. f_equal.
    unfold b_not. rewrite sign_pow. apply Z.bits_inj'. intros i Hi.
    rewrite Z.lxor_spec, Z.pow2_bits_eqb by lia.
    destruct (Z.ltb_spec i (E + M)).
    - rewrite !Z.ones_spec_low by (unfold f_bits; lia). destruct (Z.eqb_spec (E + M) i); [lia|reflexivity].
    - destruct (Z.eqb_spec (E + M) i).
      + rewrite Z.ones_spec_low by (unfold f_bits; lia). rewrite Z.ones_spec_high by lia. reflexivity.
      + rewrite !Z.ones_spec_high by (unfold f_bits; lia). reflexivity.
  Qed.
  Lemma abs_fields b : 0 <= b < 2 * key0 ->
    f_abs b = exp_ b * 2 ^ M + frac b /\ 0 <= frac b < 2 ^ M /\ 0 <= exp_ b < 2 ^ E.
  Proof.
    intros H. unfold f_abs, f_exp, f_frac. pose proof pM. pose proof pE. rewrite pEM.
    rewrite (Z.mul_comm (2 ^ E)), Z.rem_mul_r by lia.
    pose proof (Z.mod_pos_bound b (2 ^ M)). pose proof (Z.mod_pos_bound (b / 2 ^ M) (2 ^ E)). lia.
  Qed.
  Lemma INF_eq : INF = (2 ^ E - 1) * 2 ^ M. Proof. reflexivity. Qed.
  Lemma INF_lt : 0 < INF < key0.
  Proof. rewrite pEM, INF_eq. pose proof pM. pose proof pE. nia. Qed.

  Lemma exp_cases b : 0 <= b < 2 * key0 ->
    (exp_ b = 2 ^ E - 1 /\ INF <= f_abs b) \/ (exp_ b < 2 ^ E - 1 /\ f_abs b < INF).
  Proof.
    intros H. destruct (abs_fields b H) as (H1 & H2 & H3). rewrite INF_eq.
    destruct (Z.eq_dec (exp_ b) (2 ^ E - 1)) as [Eq|Ne]; [left|right].
    - rewrite Eq in H1. lia.
    - pose proof pM. split; [lia|]. rewrite H1. nia.
  Qed.
  (** NaN iff above infinity *)
  Lemma not_nan_iff b : not_nan E M b = true <-> 0 <= b < 2 * key0 /\ f_abs b <= INF.
  Proof.
    unfold not_nan. rewrite andb_true_iff, in_bits_iff.
    assert (Hd : 0 <= b < 2 * key0 -> (match decode b with S754_nan => false | _ => true end = true <-> f_abs b <= INF)).
    { intros H. destruct (abs_fields b H) as (H1 & H2 & H3). unfold f_decode.
      destruct (exp_cases b H) as [[Eq Le]|[Ne Lt]].
      - rewrite Eq, Z.eqb_refl. rewrite Eq in H1. rewrite INF_eq in *.
        destruct (Z.eqb_spec (frac b) 0); split; intros; try reflexivity; try discriminate; lia.
      - destruct (Z.eqb_spec (exp_ b) (2 ^ E - 1)); [lia|]. split; [intros; lia|intros _].
        pose proof pM. destruct (exp_ b =? 0).
        + destruct (frac b); try reflexivity. lia.
        + destruct (2 ^ M + frac b) eqn:Ez; try reflexivity; lia. }
    split; intros [A B]; split; auto; apply Hd; auto.
  Qed.

  (** magnitude of a finite pattern in units of the least subnormal *)
  Definition mag (e f : Z) : Z := if e =? 0 then f else (2 ^ M + f) * 2 ^ (e - 1).
  Lemma mag_lt e f e' f' : 0 <= e -> 0 <= f < 2 ^ M -> 0 <= e' -> 0 <= f' < 2 ^ M ->
    e * 2 ^ M + f < e' * 2 ^ M + f' -> mag e f < mag e' f'.
  Proof.
    intros He Hf He' Hf' H. pose proof pM.
    assert (Hee : e <= e') by nia.
    destruct (Z.eq_dec e e') as [<- |Ne].
    - unfold mag. assert (f < f') by lia. destruct (Z.eqb_spec e 0); [lia|].
      assert (0 < 2 ^ (e - 1)) by (apply Z.pow_pos_nonneg; lia). nia.
    - assert (U : mag e f < 2 ^ M * 2 ^ e).
      { unfold mag. destruct (Z.eqb_spec e 0) as [-> |Hn]; [cbn; lia|].
        replace (2 ^ e) with (2 * 2 ^ (e - 1)) by (rewrite <- Z.pow_succ_r by lia; f_equal; lia).
        assert (0 < 2 ^ (e - 1)) by (apply Z.pow_pos_nonneg; lia). nia. }
      assert (L : 2 ^ M * 2 ^ e <= mag e' f').
      { unfold mag. destruct (Z.eqb_spec e' 0); [lia|].
        assert (2 ^ e <= 2 ^ (e' - 1)) by (apply Z.pow_le_mono_r; lia).
        assert (0 < 2 ^ e) by (apply Z.pow_pos_nonneg; lia). nia. }
      lia.
  Qed.
  Lemma mag_nonneg e f : 0 <= e -> 0 <= f < 2 ^ M -> 0 <= mag e f.
  Proof.
    intros. unfold mag. destruct (Z.eqb_spec e 0); [lia|].
    assert (0 < 2 ^ (e - 1)) by (apply Z.pow_pos_nonneg; lia). pose proof pM. nia.
  Qed.
  Lemma mag_zero e f : 0 <= e -> 0 <= f < 2 ^ M -> mag e f = 0 -> e = 0 /\ f = 0.
  Proof.
    unfold mag. intros. destruct (Z.eqb_spec e 0); [lia|].
    assert (0 < 2 ^ (e - 1)) by (apply Z.pow_pos_nonneg; lia). pose proof pM. nia.
  Qed.
  Lemma f_value_eq b : f_value E M b =
    if exp_ b =? 2 ^ E - 1 then (if neg b then NegInf else PosInf)
    else Finite (if neg b then - mag (exp_ b) (frac b) else mag (exp_ b) (frac b)).
  Proof.
    unfold f_value, mag. destruct (exp_ b =? 2 ^ E - 1); [reflexivity|].
    destruct (exp_ b =? 0); reflexivity.
  Qed.

  (** the order of the values is the order of the indices *)
  Lemma value_index a b : not_nan E M a = true -> not_nan E M b = true ->
    fval_cmp (f_value E M a) (f_value E M b) = (f_index a ?= f_index b).
  Proof.
    rewrite !not_nan_iff. intros [Ha Na] [Hb Nb]. rewrite !f_value_eq. unfold f_index.
    destruct (abs_fields a Ha) as (A1 & A2 & A3), (abs_fields b Hb) as (B1 & B2 & B3).
    pose proof INF_lt as HI.
    assert (Pa : 0 <= f_abs a) by nia. assert (Pb : 0 <= f_abs b) by nia.
    symmetry.
    destruct (exp_cases a Ha) as [[Ea La]|[Ea La]], (exp_cases b Hb) as [[Eb Lb]|[Eb Lb]].
    1: rewrite Ea, Eb, Z.eqb_refl; destruct (neg a), (neg b); cbn;
       rewrite ?Z.compare_eq_iff, ?Z.compare_lt_iff, ?Z.compare_gt_iff; lia.
    1: rewrite Ea, Z.eqb_refl; destruct (Z.eqb_spec (exp_ b) (2 ^ E - 1)); [lia|];
       destruct (neg a), (neg b); cbn; rewrite ?Z.compare_eq_iff, ?Z.compare_lt_iff, ?Z.compare_gt_iff; lia.
    1: rewrite Eb, Z.eqb_refl; destruct (Z.eqb_spec (exp_ a) (2 ^ E - 1)); [lia|];
       destruct (neg a), (neg b); cbn; rewrite ?Z.compare_eq_iff, ?Z.compare_lt_iff, ?Z.compare_gt_iff; lia.
    destruct (Z.eqb_spec (exp_ a) (2 ^ E - 1)); [lia|]. destruct (Z.eqb_spec (exp_ b) (2 ^ E - 1)); [lia|].
    cbn [fval_cmp].
    pose proof (mag_nonneg (exp_ a) (frac a) (proj1 A3) A2) as Ma.
    pose proof (mag_nonneg (exp_ b) (frac b) (proj1 B3) B2) as Mb.
    pose proof (mag_zero (exp_ a) (frac a) (proj1 A3) A2) as Za.
    pose proof (mag_zero (exp_ b) (frac b) (proj1 B3) B2) as Zb.
    assert (Hlt : f_abs a < f_abs b -> mag (exp_ a) (frac a) < mag (exp_ b) (frac b))
      by (intros; apply mag_lt; lia).
    assert (Hgt : f_abs b < f_abs a -> mag (exp_ b) (frac b) < mag (exp_ a) (frac a))
      by (intros; apply mag_lt; lia).
    assert (Heq : f_abs a = f_abs b -> mag (exp_ a) (frac a) = mag (exp_ b) (frac b)).
    { intros H. pose proof pM. assert (exp_ a = exp_ b) by nia. assert (frac a = frac b) by nia. congruence. }
    assert (Za' : mag (exp_ a) (frac a) = 0 -> f_abs a = 0) by (intros H; destruct (Za H) as [X Y]; rewrite X, Y in A1; lia).
    assert (Zb' : mag (exp_ b) (frac b) = 0 -> f_abs b = 0) by (intros H; destruct (Zb H) as [X Y]; rewrite X, Y in B1; lia).
    assert (Ya : f_abs a = 0 -> mag (exp_ a) (frac a) = 0).
    { intros H. pose proof pM. assert (X : exp_ a = 0) by nia. assert (Y : frac a = 0) by nia. rewrite X, Y. reflexivity. }
    assert (Yb : f_abs b = 0 -> mag (exp_ b) (frac b) = 0).
    { intros H. pose proof pM. assert (X : exp_ b = 0) by nia. assert (Y : frac b = 0) by nia. rewrite X, Y. reflexivity. }
    revert Hlt Hgt Heq Za' Zb' Ya Yb Ma Mb Pa Pb. clear.
    generalize (mag (exp_ a) (frac a)) (mag (exp_ b) (frac b)) (f_abs a) (f_abs b). intros x y p q. intros.
    destruct (neg a), (neg b).
    - destruct (Z.compare_spec (- p) (- q)), (Z.compare_spec (- x) (- y)); try reflexivity; lia.
    - destruct (Z.compare_spec (- p) q), (Z.compare_spec (- x) y); try reflexivity; lia.
    - destruct (Z.compare_spec p (- q)), (Z.compare_spec x (- y)); try reflexivity; lia.
    - destruct (Z.compare_spec p q), (Z.compare_spec x y); try reflexivity; lia.
  Qed.

  (** shape of a decoded pattern *)
  Lemma decode_shape b : not_nan E M b = true ->
    (f_abs b = INF /\ decode b = S754_infinity (neg b)) \/
    (f_abs b = 0 /\ decode b = S754_zero (neg b)) \/
    (exists m e, decode b = S754_finite (neg b) m e /\ 0 < f_abs b < INF /\
       ((exp_ b = 0 /\ Zpos m = frac b /\ e = 1 - f_bias E - M) \/
        (exp_ b <> 0 /\ Zpos m = 2 ^ M + frac b /\ e = exp_ b - f_bias E - M))).
  Proof.
    intros Hn. pose proof Hn as Hn'. rewrite not_nan_iff in Hn'. destruct Hn' as [H L].
    destruct (abs_fields b H) as (H1 & H2 & H3). pose proof pM. pose proof INF_lt.
    destruct (exp_cases b H) as [[Eq Le]|[Ne Lt]].
    - left. split; [lia|]. unfold f_decode. rewrite Eq, Z.eqb_refl.
      rewrite Eq in H1. rewrite INF_eq in *. destruct (Z.eqb_spec (frac b) 0); [reflexivity|lia].
    - right. unfold f_decode. destruct (Z.eqb_spec (exp_ b) (2 ^ E - 1)); [lia|].
      destruct (Z.eqb_spec (exp_ b) 0) as [E0|E0].
      + destruct (frac b) as [|m|m] eqn:Ef; [left; split; [lia|reflexivity]| |lia].
        right. exists m, (1 - f_bias E - M). split; [reflexivity|]. split; [lia|]. left. lia.
      + destruct (2 ^ M + frac b) as [|m|m] eqn:Ef; [lia| |lia].
        right. exists m, (exp_ b - f_bias E - M). split; [reflexivity|]. split; [nia|]. right. lia.
  Qed.

  (** the decoded number, in units of the least positive one *)
  Lemma decode_value b : not_nan E M b = true ->
    match f_decode E M b with
    | S754_zero _ => f_value E M b = Finite 0
    | S754_infinity s => f_value E M b = if s then NegInf else PosInf
    | S754_nan => False
    | S754_finite s m e =>
        let u := 1 - (2 ^ (E - 1) - 1) - M in
        u <= e /\ f_value E M b = Finite ((if s then - 1 else 1) * (Zpos m * 2 ^ (e - u)))
    end.
  Proof.
    intros Hn. pose proof Hn as Hn'. rewrite not_nan_iff in Hn'. destruct Hn' as [H L].
    destruct (abs_fields b H) as (H1 & H2 & H3). pose proof pM. pose proof INF_lt.
    rewrite f_value_eq.
    destruct (decode_shape b Hn) as [[Pa ->]|[[Pa ->]|(m & e & -> & Pa & Ca)]].
    - destruct (exp_cases b H) as [[-> _]|[_ Lt]]; [rewrite Z.eqb_refl; reflexivity|lia].
    - assert (X : exp_ b = 0) by nia. assert (Y : frac b = 0) by nia. rewrite X, Y.
      destruct (exp_cases b H) as [[_ Le]|[Ne _]]; [lia|].
      destruct (Z.eqb_spec 0 (2 ^ E - 1)); [lia|]. unfold mag. rewrite Z.eqb_refl. destruct (neg b); reflexivity.
    - destruct (exp_cases b H) as [[Eq Le]|[Ne _]]; [lia|].
      destruct (Z.eqb_spec (exp_ b) (2 ^ E - 1)); [lia|]. unfold mag, f_bias in *.
      destruct Ca as [(C1 & C2 & ->)|(C1 & C2 & ->)].
      + rewrite C1, Z.eqb_refl, Z.sub_diag, C2. split; [lia|]. f_equal. destruct (neg b); lia.
      + destruct (Z.eqb_spec (exp_ b) 0); [lia|]. rewrite C2. split; [lia|].
        replace (exp_ b - (2 ^ (E - 1) - 1) - M - (1 - (2 ^ (E - 1) - 1) - M)) with (exp_ b - 1) by lia.
        f_equal. destruct (neg b); lia.
  Qed.

  (** IEEE comparison (SpecFloat) is the order of the indices *)
  Lemma SF_index a b : not_nan E M a = true -> not_nan E M b = true ->
    SFcompare (decode a) (decode b) = Some (f_index a ?= f_index b).
  Proof.
    intros Na Nb. pose proof INF_lt as HI. pose proof pM as HpM. unfold f_index.
    pose proof (proj1 (not_nan_iff a) Na) as [Ha _]. pose proof (proj1 (not_nan_iff b) Nb) as [Hb _].
    destruct (abs_fields a Ha) as (A1 & A2 & A3), (abs_fields b Hb) as (B1 & B2 & B3).
    destruct (decode_shape a Na) as [[Pa ->]|[[Pa ->]|(ma & ea & -> & Pa & Ca)]];
    destruct (decode_shape b Nb) as [[Pb ->]|[[Pb ->]|(mb & eb & -> & Pb & Cb)]];
    cbn [SFcompare]; f_equal; symmetry.
    1-8: destruct (neg a), (neg b); rewrite ?Z.compare_eq_iff, ?Z.compare_lt_iff, ?Z.compare_gt_iff; lia.
    assert (Hcmp : match ea ?= eb with Lt => Lt | Gt => Gt | Eq => Pos.compare_cont Eq ma mb end = (f_abs a ?= f_abs b)).
    { change (Pos.compare_cont Eq ma mb) with (Zpos ma ?= Zpos mb).
      symmetry. destruct (Z.compare_spec ea eb);
        [|rewrite Z.compare_lt_iff; nia|rewrite Z.compare_gt_iff; nia].
      destruct (Z.compare_spec (Zpos ma) (Zpos mb));
        rewrite ?Z.compare_eq_iff, ?Z.compare_lt_iff, ?Z.compare_gt_iff; nia. }
    destruct (neg a), (neg b).
    - replace (- f_abs a ?= - f_abs b) with (CompOpp (f_abs a ?= f_abs b))
        by (destruct (Z.compare_spec (f_abs a) (f_abs b)), (Z.compare_spec (- f_abs a) (- f_abs b)); try reflexivity; lia).
      rewrite <- Hcmp. destruct (ea ?= eb); reflexivity.
    - rewrite Z.compare_lt_iff. lia.
    - rewrite Z.compare_gt_iff. lia.
    - symmetry. exact Hcmp.
  Qed.
  Definition kidx (k : fkey) : Z := f_index (proj1_sig k).
  Lemma fcmp_index (a b : fkey) : fcmp E M a b = (kidx a ?= kidx b).
  Proof. unfold fcmp. rewrite SF_index by apply proj2_sig. reflexivity. Qed.
  Lemma fcmp_value (a b : fkey) :
    SFcompare (decode (proj1_sig a)) (decode (proj1_sig b)) = Some (fcmp E M a b) /\
    fcmp E M a b = fval_cmp (f_value E M (proj1_sig a)) (f_value E M (proj1_sig b)).
  Proof.
    unfold fcmp. rewrite SF_index by apply proj2_sig. split; [reflexivity|].
    rewrite value_index by apply proj2_sig. reflexivity.
  Qed.

  Lemma to_fkey_Some b : not_nan E M b = true -> exists y : fkey, to_fkey E M b = Some y /\ proj1_sig y = b.
  Proof.
    intros H. unfold to_fkey.
    generalize (@eq_refl bool (not_nan E M b)). revert H. generalize (not_nan E M b) at 1 3 4.
    intros x ->. intros e. eexists. split; reflexivity.
  Qed.
  Lemma NEG_INF_eq : NEG_INF_BITS E M = key0 + INF.
  Proof.
    unfold NEG_INF_BITS. rewrite sign_pow. pose proof INF_lt.
    assert (Hl : Z.land key0 INF = 0).
    { apply Z.bits_inj'. intros i Hi. rewrite Z.land_spec, Z.pow2_bits_eqb, Z.bits_0 by lia.
      destruct (Z.eqb_spec (E + M) i) as [<- |]; [|reflexivity]. cbn [andb].
      apply Z.testbit_false; [lia|]. rewrite Z.div_small by lia. reflexivity. }
    rewrite (Z.add_nocarry_lxor key0 INF Hl), (Z.lxor_lor key0 INF Hl). reflexivity.
  Qed.
  Lemma NEG_TINY_eq : NEG_TINY_BITS E M = key0 + 1.
  Proof.
    unfold NEG_TINY_BITS. rewrite n1, Z.shiftl_1_l.
    assert (Hl : Z.land key0 1 = 0).
    { apply Z.bits_inj'. intros i Hi. rewrite Z.land_spec, Z.pow2_bits_eqb, Z.bits_0 by lia.
      destruct (Z.eqb_spec (E + M) i) as [<- |]; [|reflexivity]. cbn [andb].
      apply Z.testbit_false; [lia|]. rewrite Z.div_small; [reflexivity|].
      split; [lia|]. apply Z.pow_gt_1; lia. }
    rewrite (Z.add_nocarry_lxor key0 1 Hl), (Z.lxor_lor key0 1 Hl). reflexivity.
  Qed.
  Lemma index_of_pos b : 0 <= b < key0 -> f_index b = b /\ f_abs b = b.
  Proof.
    intros H. unfold f_index. destruct (abs_cases b ltac:(lia)) as [(-> & -> & _)|(_ & _ & H')]; lia.
  Qed.
  Lemma index_of_neg b : key0 <= b < 2 * key0 -> f_index b = key0 - b /\ f_abs b = b - key0.
  Proof.
    intros H. unfold f_index. destruct (abs_cases b ltac:(lia)) as [(_ & _ & H')|(-> & -> & _)]; lia.
  Qed.
  (** [add_one]: never panics, moves the index by one, saturates at infinity *)
  Lemma f_add (x : fkey) : exists y, add_one (float_steps E M) x = Some y /\
    kidx y = Z.min INF (kidx x + 1) /\ (kidx x = INF -> y = x).
  Proof.
    destruct x as [b Hb]. unfold kidx. cbn [add_one float_steps proj1_sig].
    pose proof Hb as Hn. rewrite not_nan_iff in Hn. destruct Hn as [Hr Ha]. pose proof INF_lt.
    assert (Hok : exists c, f_next_bits E M b = c /\ not_nan E M c = true /\
              f_index c = Z.min INF (f_index b + 1) /\ (f_index b = INF -> c = b)).
    { unfold f_next_bits. rewrite land_abs. unfold TINY_BITS.
      eexists. split; [reflexivity|]. rewrite not_nan_iff.
      destruct (Z.eqb_spec b INF) as [-> |N].
      { destruct (index_of_pos INF ltac:(lia)) as [-> ->]. lia. }
      destruct (Z.ltb_spec b key0) as [L|L].
      - destruct (index_of_pos b ltac:(lia)) as [E1 E2]. rewrite E1, E2 in *.
        destruct (Z.eqb_spec b 0) as [-> |N0].
        + destruct (index_of_pos 1 ltac:(lia)) as [-> ->]. lia.
        + rewrite Z.eqb_refl. destruct (index_of_pos (b + 1) ltac:(lia)) as [-> ->]. lia.
      - destruct (index_of_neg b ltac:(lia)) as [E1 E2]. rewrite E1, E2 in *.
        destruct (Z.eqb_spec (b - key0) 0) as [E0|N0].
        + destruct (index_of_pos 1 ltac:(lia)) as [-> ->]. lia.
        + destruct (Z.eqb_spec b (b - key0)); [lia|].
          destruct (index_of_neg (b - 1) ltac:(lia)) as [-> ->]. lia. }
    destruct Hok as (c & -> & Hc & H1 & H2). destruct (to_fkey_Some c Hc) as (y & Hy & Ey).
    exists y. split; [exact Hy|]. rewrite Ey. split; [exact H1|]. intros H3.
    destruct y as [y Py]. cbn in Ey. subst y. specialize (H2 H3). subst c. f_equal. apply UIP_dec, bool_dec.
  Qed.
  Lemma f_sub (x : fkey) : exists y, sub_one (float_steps E M) x = Some y /\
    kidx y = Z.max (- INF) (kidx x - 1) /\ (kidx x = - INF -> y = x).
  Proof.
    destruct x as [b Hb]. unfold kidx. cbn [sub_one float_steps proj1_sig].
    pose proof Hb as Hn. rewrite not_nan_iff in Hn. destruct Hn as [Hr Ha]. pose proof INF_lt.
    assert (Hok : exists c, f_prev_bits E M b = c /\ not_nan E M c = true /\
              f_index c = Z.max (- INF) (f_index b - 1) /\ (f_index b = - INF -> c = b)).
    { unfold f_prev_bits. rewrite land_abs, NEG_INF_eq, NEG_TINY_eq.
      eexists. split; [reflexivity|]. rewrite not_nan_iff.
      destruct (Z.eqb_spec b (key0 + INF)) as [-> |N].
      { destruct (index_of_neg (key0 + INF) ltac:(lia)) as [-> ->]. lia. }
      destruct (Z.ltb_spec b key0) as [L|L].
      - destruct (index_of_pos b ltac:(lia)) as [E1 E2]. rewrite E1, E2 in *.
        destruct (Z.eqb_spec b 0) as [-> |N0].
        + destruct (index_of_neg (key0 + 1) ltac:(lia)) as [-> ->]. lia.
        + rewrite Z.eqb_refl. destruct (index_of_pos (b - 1) ltac:(lia)) as [-> ->]. lia.
      - destruct (index_of_neg b ltac:(lia)) as [E1 E2]. rewrite E1, E2 in *.
        destruct (Z.eqb_spec (b - key0) 0) as [E0|N0].
        + destruct (index_of_neg (key0 + 1) ltac:(lia)) as [-> ->]. lia.
        + destruct (Z.eqb_spec b (b - key0)); [lia|].
          destruct (index_of_neg (b + 1) ltac:(lia)) as [-> ->]. lia. }
    destruct Hok as (c & -> & Hc & H1 & H2). destruct (to_fkey_Some c Hc) as (y & Hy & Ey).
    exists y. split; [exact Hy|]. rewrite Ey. split; [exact H1|]. intros H3.
    destruct y as [y Py]. cbn in Ey. subst y. specialize (H2 H3). subst c. f_equal. apply UIP_dec, bool_dec.
  Qed.
  Lemma kidx_bounds (x : fkey) : - INF <= kidx x <= INF.
  Proof.
    unfold kidx. destruct x as [b Hb]. cbn. apply not_nan_iff in Hb as [H1 H2].
    unfold f_index. destruct (abs_cases b H1) as [(-> & A & B)|(-> & A & B)]; lia.
  Qed.
  Lemma float_laws : TotalOrd (fcmp E M) /\ StepLaws (fcmp E M) (float_steps E M).
  Proof.
    apply (steps_of_index (fcmp E M) (float_steps E M) kidx); [exact fcmp_index| |].
    - intros a b H. destruct (f_add a) as (y & H1 & H2 & _). exists y. split; [exact H1|].
      pose proof (kidx_bounds b). lia.
    - intros a b H. destruct (f_sub a) as (y & H1 & H2 & _). exists y. split; [exact H1|].
      pose proof (kidx_bounds b). lia.
  Qed.
  Lemma float_add_one (x : fkey) : exists y, add_one (float_steps E M) x = Some y /\
    match f_value E M (proj1_sig x) with PosInf => y = x | _ =>
      fcmp E M x y = Lt /\ forall z, fcmp E M x z = Lt -> fcmp E M y z <> Gt end.
  Proof.
    destruct (f_add x) as (y & H1 & H2 & H3). exists y. split; [exact H1|].
    assert (Hi : f_value E M (proj1_sig x) = PosInf \/ kidx x < INF).
    { unfold kidx. destruct x as [b Hb]. cbn. pose proof Hb as Hn. apply not_nan_iff in Hn as [N1 N2].
      rewrite f_value_eq. unfold f_index.
      pose proof INF_lt.
      destruct (exp_cases b N1) as [[-> Le]|[Ne Lt]]; [rewrite Z.eqb_refl|];
        (destruct (abs_cases b N1) as [(Hg & A & B)|(Hg & A & B)]; rewrite Hg; [|right; lia]).
      - left; reflexivity.
      - right. exact Lt. }
    destruct Hi as [Hi|Hi].
    - rewrite Hi. apply H3. unfold kidx. destruct x as [b Hb]. cbn in *. pose proof Hb as Hn.
      apply not_nan_iff in Hn as [N1 N2]. rewrite f_value_eq in Hi. unfold f_index.
      destruct (exp_cases b N1) as [[Eq Le]|[Ne Lt]].
      + rewrite Eq, Z.eqb_refl in Hi. destruct (neg b); [discriminate|lia].
      + destruct (Z.eqb_spec (exp_ b) (2 ^ E - 1)); [lia|discriminate].
    - assert (Hg : fcmp E M x y = Lt /\ forall z, fcmp E M x z = Lt -> fcmp E M y z <> Gt).
      { split; [rewrite fcmp_index, Z.compare_lt_iff; lia|]. intros z.
        rewrite !fcmp_index, Z.compare_lt_iff. intros Hz Hz2. apply Z.compare_gt_iff in Hz2. lia. }
      destruct (f_value E M (proj1_sig x)) eqn:Ev; try exact Hg.
      exfalso. destruct x as [b Hb]. unfold kidx in Hi. cbn in *. pose proof Hb as Hn.
      apply not_nan_iff in Hn as [N1 N2]. rewrite f_value_eq in Ev. unfold f_index in Hi.
      destruct (exp_cases b N1) as [[Eq Le]|[Ne Lt]].
      + rewrite Eq, Z.eqb_refl in Ev. destruct (neg b); [discriminate|lia].
      + destruct (Z.eqb_spec (exp_ b) (2 ^ E - 1)); [lia|discriminate].
  Qed.
  Lemma float_sub_one (x : fkey) : exists y, sub_one (float_steps E M) x = Some y /\
    match f_value E M (proj1_sig x) with NegInf => y = x | _ =>
      fcmp E M y x = Lt /\ forall z, fcmp E M z x = Lt -> fcmp E M z y <> Gt end.
  Proof.
    destruct (f_sub x) as (y & H1 & H2 & H3). exists y. split; [exact H1|].
    assert (Hi : f_value E M (proj1_sig x) = NegInf /\ kidx x = - INF \/
                 f_value E M (proj1_sig x) <> NegInf /\ - INF < kidx x).
    { unfold kidx. destruct x as [b Hb]. cbn. pose proof Hb as Hn. apply not_nan_iff in Hn as [N1 N2].
      rewrite f_value_eq. unfold f_index. pose proof INF_lt.
      destruct (exp_cases b N1) as [[Eq Le]|[Ne Lt]].
      - rewrite Eq, Z.eqb_refl. destruct (abs_cases b N1) as [(Hg & A & B)|(Hg & A & B)]; rewrite Hg.
        + right. split; [discriminate|lia].
        + left. split; [reflexivity|lia].
      - destruct (Z.eqb_spec (exp_ b) (2 ^ E - 1)); [lia|]. right. split; [discriminate|].
        destruct (abs_cases b N1) as [(Hg & A & B)|(Hg & A & B)]; rewrite Hg; lia. }
    destruct Hi as [[Hv Hi]|[Hv Hi]].
    - rewrite Hv. auto.
    - assert (Hg : fcmp E M y x = Lt /\ forall z, fcmp E M z x = Lt -> fcmp E M z y <> Gt).
      { split; [rewrite fcmp_index, Z.compare_lt_iff; lia|]. intros z.
        rewrite !fcmp_index, Z.compare_lt_iff. intros Hz Hz2. apply Z.compare_gt_iff in Hz2. lia. }
      destruct (f_value E M (proj1_sig x)); try exact Hg. congruence.
  Qed.
  Lemma float_reversible (x : fkey) v : f_value E M (proj1_sig x) = Finite v ->
    (exists y z, add_one (float_steps E M) x = Some y /\ sub_one (float_steps E M) y = Some z /\ fcmp E M z x = Eq) /\
    (exists y z, sub_one (float_steps E M) x = Some y /\ add_one (float_steps E M) y = Some z /\ fcmp E M z x = Eq).
  Proof.
    intros Hv. assert (Hi : - INF < kidx x < INF).
    { unfold kidx. destruct x as [b Hb]. cbn in *. pose proof Hb as Hn. apply not_nan_iff in Hn as [N1 N2].
      rewrite f_value_eq in Hv. unfold f_index. pose proof INF_lt.
      destruct (exp_cases b N1) as [[Eq Le]|[Ne Lt]].
      - rewrite Eq, Z.eqb_refl in Hv. destruct (neg b); discriminate.
      - destruct (abs_cases b N1) as [(Hg & A & B)|(Hg & A & B)]; rewrite Hg; lia. }
    split.
    - destruct (f_add x) as (y & H1 & H2 & _), (f_sub y) as (z & H3 & H4 & _). exists y, z.
      repeat split; auto. rewrite fcmp_index, Z.compare_eq_iff. lia.
    - destruct (f_sub x) as (y & H1 & H2 & _), (f_add y) as (z & H3 & H4 & _). exists y, z.
      repeat split; auto. rewrite fcmp_index, Z.compare_eq_iff. lia.
  Qed.
End Float.
