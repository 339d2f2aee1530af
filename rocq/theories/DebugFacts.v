(** What [Debug] prints, and that it tells maps apart. *)
From Coq Require Import List Bool String Ascii ZArith Lia DecimalString DecimalZ.
From Verif Require Import ListLemmas Order Outcome BTree Ranges Spec MapModel IMapModel SetModel ISetModel
  MapFacts MapIter MapMore IFacts IMapProps DebugModel.
Import ListNotations.
Local Open Scope string_scope.

Lemma app_assoc_s (a b c : string) : (a ++ b) ++ c = a ++ (b ++ c).
Proof. induction a as [|x a IH]; cbn; [reflexivity|rewrite IH; reflexivity]. Qed.
Lemma app_nil_s (a : string) : a ++ "" = a.
Proof. induction a as [|x a IH]; cbn; [reflexivity|rewrite IH; reflexivity]. Qed.
Lemma app_inv_s (a b c : string) : a ++ b = a ++ c -> b = c.
Proof. induction a as [|x a IH]; cbn; [auto|intros H; injection H; auto]. Qed.
Lemma length_app_s (a b : string) : String.length (a ++ b) = (String.length a + String.length b)%nat.
Proof. induction a as [|x a IH]; cbn; [reflexivity|rewrite IH; reflexivity]. Qed.

(** ** The text *)
Section Text.
  Context {A : Type} (item : A -> string) (step : debugger -> A -> debugger).
  Hypothesis step_ok : forall d x, step d x =
    mkDebug (d_text d ++ (if d_has_fields d then ", " else "") ++ item x) true.

  Lemma fold_text l : forall t, debug_finish (fold_left step l (mkDebug t true)) =
    t ++ concat "" (map (fun x => ", " ++ item x) l) ++ "}".
  Proof.
    induction l as [|x l IH]; intros t; [reflexivity|].
    cbn [fold_left]. rewrite step_ok. cbn [d_text d_has_fields]. rewrite IH, !app_assoc_s.
    cbn [map]. replace (concat "" ((", " ++ item x) :: map (fun y => ", " ++ item y) l))
      with ((", " ++ item x) ++ concat "" (map (fun y => ", " ++ item y) l)).
    - rewrite !app_assoc_s. reflexivity.
    - destruct l; cbn [map]; [cbn [concat]; apply app_nil_s|reflexivity].
  Qed.
  Lemma concat_sep x l : concat ", " (item x :: map item l) =
    item x ++ concat "" (map (fun y => ", " ++ item y) l).
  Proof.
    revert x. induction l as [|y l IH]; intros x.
    - cbn. symmetry. apply app_nil_s.
    - change (concat ", " (item x :: map item (y :: l))) with
        (item x ++ ", " ++ concat ", " (item y :: map item l)).
      rewrite IH. f_equal. cbn [map].
      replace (concat "" ((", " ++ item y) :: map (fun z => ", " ++ item z) l))
        with ((", " ++ item y) ++ concat "" (map (fun z => ", " ++ item z) l)).
      + rewrite !app_assoc_s. reflexivity.
      + destruct l; cbn [map]; [cbn [concat]; apply app_nil_s|reflexivity].
  Qed.
  Lemma debug_text l :
    debug_finish (fold_left step l debug_new) = "{" ++ concat ", " (map item l) ++ "}".
  Proof.
    destruct l as [|x l]; [reflexivity|].
    cbn [fold_left]. rewrite step_ok. cbn [d_text d_has_fields debug_new]. rewrite fold_text.
    cbn [map]. rewrite concat_sep, !app_assoc_s. reflexivity.
  Qed.
End Text.

(** ** Telling lists of items apart *)
Section Apart.
  Context {A : Type} (item : A -> string) (E : A -> A -> Prop).
  Hypothesis item_apart : forall x y p q s t, In p [", "; "}"] -> In q [", "; "}"] ->
    item x ++ p ++ s = item y ++ q ++ t -> E x y /\ item x = item y.
  Hypothesis item_long : forall x, item x <> "".

  Lemma concat_cons x l : concat "" (map (fun y => ", " ++ item y) (x :: l)) =
    ", " ++ item x ++ concat "" (map (fun y => ", " ++ item y) l).
  Proof. destruct l as [|y l]; cbn [map concat]; rewrite ?app_nil_s; [reflexivity|]. rewrite app_assoc_s. reflexivity. Qed.
  Lemma tail_form l : exists p s, In p [", "; "}"] /\
    concat "" (map (fun y => ", " ++ item y) l) ++ "}" = p ++ s /\
    (l = [] -> p = "}").
  Proof.
    destruct l as [|y l].
    - exists "}", "". cbn. auto.
    - exists ", ". eexists. splits; [cbn; auto| |discriminate].
      rewrite concat_cons, app_assoc_s. reflexivity.
  Qed.
  Lemma tails_apart a : forall b,
    concat "" (map (fun y => ", " ++ item y) a) ++ "}" = concat "" (map (fun y => ", " ++ item y) b) ++ "}" ->
    Forall2 E a b.
  Proof.
    pose proof concat_cons as C.
    induction a as [|x a IH]; intros [|y b] H.
    - constructor.
    - rewrite C in H. discriminate.
    - rewrite C in H. discriminate.
    - rewrite !C, !app_assoc_s in H. apply app_inv_s in H.
      destruct (tail_form a) as (p & s & Hp & Ea & _), (tail_form b) as (q & t & Hq & Eb & _).
      pose proof H as H'. rewrite Ea, Eb in H'.
      destruct (item_apart _ _ _ _ _ _ Hp Hq H') as [He Hi]. rewrite Hi in H. apply app_inv_s in H.
      constructor; auto.
  Qed.
  Lemma texts_apart a b :
    "{" ++ concat ", " (map item a) ++ "}" = "{" ++ concat ", " (map item b) ++ "}" -> Forall2 E a b.
  Proof.
    intros H. injection H as H.
    assert (L : forall x u, item x ++ u ++ "}" <> "}").
    { intros x u Hx. apply (f_equal String.length) in Hx. rewrite !length_app_s in Hx. cbn in Hx.
      apply (item_long x). destruct (item x); [reflexivity|cbn in Hx; lia]. }
    destruct a as [|x a], b as [|y b]; cbn [map] in H.
    - constructor.
    - rewrite concat_sep, app_assoc_s in H. symmetry in H. destruct (L _ _ H).
    - rewrite concat_sep, app_assoc_s in H. destruct (L _ _ H).
    - rewrite !concat_sep, !app_assoc_s in H.
      destruct (tail_form a) as (p & s & Hp & Ea & _), (tail_form b) as (q & t & Hq & Eb & _).
      pose proof H as H'. rewrite Ea, Eb in H'.
      destruct (item_apart _ _ _ _ _ _ Hp Hq H') as [He Hi]. rewrite Hi in H. apply app_inv_s in H.
      constructor; [exact He|apply tails_apart; exact H].
  Qed.
End Apart.

(** ** Decimal integers *)
Definition plain (c : ascii) : bool :=
  ((Ascii.eqb c "-") || (Nat.leb 48 (nat_of_ascii c) && Nat.leb (nat_of_ascii c) 57))%bool.
Fixpoint all_plain (s : string) : bool :=
  match s with EmptyString => true | String c s' => (plain c && all_plain s')%bool end.
Definition starts_odd (s : string) : bool :=
  match s with EmptyString => false | String c _ => negb (plain c) end.
Lemma plain_prefix a : forall b p q, all_plain a = true -> all_plain b = true ->
  starts_odd p = true -> starts_odd q = true -> a ++ p = b ++ q -> a = b.
Proof.
  induction a as [|x a IH]; intros [|y b] p q Ha Hb Hp Hq H; cbn in *.
  - reflexivity.
  - subst p. cbn in Hp. apply andb_prop in Hb as [Hb _]. rewrite Hb in Hp. discriminate.
  - subst q. cbn in Hq. apply andb_prop in Ha as [Ha _]. rewrite Ha in Hq. discriminate.
  - apply andb_prop in Ha as [Ha1 Ha], Hb as [Hb1 Hb]. injection H as -> H. f_equal. exact (IH b p q Ha Hb Hp Hq H).
Qed.
Definition show_Z (z : Z) : string := NilZero.string_of_int (Z.to_int z).
Lemma uint_plain d : all_plain (NilEmpty.string_of_uint d) = true.
Proof. induction d; cbn; auto. Qed.
Lemma uint0_plain d : all_plain (NilZero.string_of_uint d) = true.
Proof. destruct d; try reflexivity; cbn [NilZero.string_of_uint]; apply uint_plain. Qed.
Lemma show_plain z : all_plain (show_Z z) = true.
Proof.
  unfold show_Z. destruct (Z.to_int z) as [d|d]; cbn [NilZero.string_of_int]; [apply uint0_plain|].
  cbn. apply uint0_plain.
Qed.
Lemma show_inj x y : show_Z x = show_Z y -> x = y.
Proof.
  intros H. apply (f_equal NilZero.int_of_string) in H. unfold show_Z in H.
  assert (N : forall z, NilZero.int_of_string (NilZero.string_of_int (Z.to_int z)) = Some (Z.to_int z)).
  { intros z. apply NilZero.isi; destruct z as [|p|p]; cbn; try discriminate; intros [=].
    - destruct (DecimalPos.Unsigned.to_uint_nonnil p); assumption.
    - destruct (DecimalPos.Unsigned.to_uint_nonnil p); assumption. }
  rewrite !N in H. injection H as H. rewrite <- (DecimalZ.of_to x), <- (DecimalZ.of_to y), H. reflexivity.
Qed.
Lemma show_delimited seps : forallb starts_odd seps = true -> delimited Z.eqb seps show_Z.
Proof.
  intros HS x y p q s t Hp Hq H. rewrite forallb_forall in HS.
  assert (E : show_Z x = show_Z y).
  { eapply plain_prefix; try exact H; try apply show_plain.
    - specialize (HS _ Hp). destruct p; [discriminate|exact HS].
    - specialize (HS _ Hq). destruct q; [discriminate|exact HS]. }
  split; [apply Z.eqb_eq, show_inj, E|exact E].
Qed.

(** ** The four types *)
Section Types.
  Context {K V : Type} (cmp : K -> K -> comparison) (veqb : V -> V -> bool).
  Context (fk : K -> string) (fv : V -> string).

  Lemma map_text m : rm_debug fk fv m =
    "{" ++ concat ", " (map (fun e => r_debug fk (fst e) ++ ": " ++ fv (snd e)) (rm_iter m)) ++ "}".
  Proof.
    apply (debug_text (fun e => r_debug fk (fst e) ++ ": " ++ fv (snd e))).
    intros d x. unfold debug_map_entry, debug_value, debug_key. cbn. f_equal. rewrite !app_assoc_s. reflexivity.
  Qed.
  Lemma imap_text m : im_debug fk fv m =
    "{" ++ concat ", " (map (fun e => ri_debug fk (fst e) ++ ": " ++ fv (snd e)) (im_iter m)) ++ "}".
  Proof.
    apply (debug_text (fun e => ri_debug fk (fst e) ++ ": " ++ fv (snd e))).
    intros d x. unfold debug_map_entry, debug_value, debug_key. cbn. f_equal. rewrite !app_assoc_s. reflexivity.
  Qed.
  Lemma set_text s : rs_debug fk s = "{" ++ concat ", " (map (r_debug fk) (map fst (rs_iter s))) ++ "}".
  Proof. apply (debug_text (r_debug fk)). reflexivity. Qed.
  Lemma iset_text s : is_debug fk s = "{" ++ concat ", " (map (ri_debug fk) (map fst (is_iter s))) ++ "}".
  Proof. apply (debug_text (ri_debug fk)). reflexivity. Qed.

  Lemma map_apart a b : delimited (eqb cmp) [".."; ": "] fk -> delimited veqb [", "; "}"] fv ->
    rm_debug fk fv a = rm_debug fk fv b -> rm_eqb cmp veqb a b = true.
  Proof.
    intros Hk Hv H. rewrite !map_text in H. apply rm_eqb_Forall2.
    refine (texts_apart _ _ _ _ _ _ H).
    - intros x y p q s t Hp Hq E. unfold r_debug in E |- *. rewrite !app_assoc_s in E.
      destruct (Hk _ _ ".." ".." _ _ (or_introl eq_refl) (or_introl eq_refl) E) as [K1 K2].
      rewrite K2 in E. do 2 apply app_inv_s in E.
      destruct (Hk _ _ ": " ": " _ _ (or_intror (or_introl eq_refl)) (or_intror (or_introl eq_refl)) E) as [K3 K4].
      rewrite K4 in E. do 2 apply app_inv_s in E.
      destruct (Hv _ _ _ _ _ _ Hp Hq E) as [K5 K6].
      split; [unfold entry_eq; auto|]. rewrite K2, K4, K6. reflexivity.
    - intros x E. apply (f_equal String.length) in E. unfold r_debug in E. rewrite !length_app_s in E. cbn in E. lia.
  Qed.
  Lemma imap_apart a b : delimited (eqb cmp) ["..="; ": "; "@exhausted"] fk ->
    delimited veqb [", "; "}"] fv ->
    im_debug fk fv a = im_debug fk fv b -> im_eqb cmp veqb a b = true.
  Proof.
    intros Hk Hv H. rewrite !imap_text in H. apply im_eqb_Forall2.
    refine (texts_apart _ _ _ _ _ _ H).
    - intros x y p q s t Hp Hq E. unfold ri_debug in E |- *. rewrite !app_assoc_s in E.
      destruct (Hk _ _ "..=" "..=" _ _ (or_introl eq_refl) (or_introl eq_refl) E) as [K1 K2].
      rewrite K2 in E. do 2 apply app_inv_s in E.
      assert (F : forall (z : rangei K * V) u, exists w v', In w ["..="; ": "; "@exhausted"] /\
        (if ri_exhausted (fst z) then "@exhausted" else "") ++ ": " ++ u = w ++ v').
      { intros z u. destruct (ri_exhausted (fst z)).
        - exists "@exhausted", (": " ++ u). cbn [In]. auto.
        - exists ": ", u. cbn [In]. auto. }
      destruct (F x (fv (snd x) ++ p ++ s)) as (w1 & v1 & W1 & E1).
      destruct (F y (fv (snd y) ++ q ++ t)) as (w2 & v2 & W2 & E2).
      pose proof E as E'. rewrite E1, E2 in E'.
      destruct (Hk _ _ _ _ _ _ W1 W2 E') as [K3 K4]. clear E' E1 E2 W1 W2 F.
      rewrite K4 in E. apply app_inv_s in E.
      assert (K7 : ri_exhausted (fst x) = ri_exhausted (fst y)).
      { destruct (ri_exhausted (fst x)), (ri_exhausted (fst y)); try reflexivity; discriminate. }
      rewrite K7 in E. do 2 apply app_inv_s in E.
      destruct (Hv _ _ _ _ _ _ Hp Hq E) as [K5 K6].
      split; [unfold ientry_eq; auto|]. rewrite K2, K4, K6, K7. reflexivity.
    - intros x E. apply (f_equal String.length) in E. unfold ri_debug in E. rewrite !length_app_s in E. cbn in E. lia.
  Qed.
  Lemma sets_eq (a b : rset K) : Forall2 (fun r r' => eqb cmp (r_start r) (r_start r') = true /\
    eqb cmp (r_end r) (r_end r') = true) (map fst a) (map fst b) -> rs_eqb cmp a b = true.
  Proof.
    intros H. apply (rm_eqb_Forall2 (cmp := cmp) (veqb := unit_eqb)). revert b H.
    induction a as [|x a IH]; intros [|y b] H; cbn in H; inversion H; subst; constructor; auto.
    unfold entry_eq. destruct (snd x), (snd y). intuition.
  Qed.
  Lemma isets_eq (a b : iset K) : Forall2 (fun r r' => eqb cmp (ri_start r) (ri_start r') = true /\
    eqb cmp (ri_end r) (ri_end r') = true /\ ri_exhausted r = ri_exhausted r') (map fst a) (map fst b) ->
    is_eqb cmp a b = true.
  Proof.
    intros H. apply (im_eqb_Forall2 (cmp := cmp) (veqb := unit_eqb)). revert b H.
    induction a as [|x a IH]; intros [|y b] H; cbn in H; inversion H; subst; constructor; auto.
    unfold ientry_eq. destruct (snd x), (snd y). intuition.
  Qed.
  Lemma set_apart a b : delimited (eqb cmp) [".."; ", "; "}"] fk ->
    rs_debug fk a = rs_debug fk b -> rs_eqb cmp a b = true.
  Proof.
    intros Hk H. rewrite !set_text in H. apply sets_eq.
    refine (texts_apart _ _ _ _ _ _ H).
    - intros x y p q s t Hp Hq E. unfold r_debug in E |- *. rewrite !app_assoc_s in E.
      destruct (Hk _ _ ".." ".." _ _ (or_introl eq_refl) (or_introl eq_refl) E) as [K1 K2].
      rewrite K2 in E. do 2 apply app_inv_s in E.
      destruct (Hk _ _ _ _ _ _ (or_intror Hp) (or_intror Hq) E) as [K3 K4].
      split; [auto|]. rewrite K2, K4. reflexivity.
    - intros x E. apply (f_equal String.length) in E. unfold r_debug in E. rewrite !length_app_s in E. cbn in E. lia.
  Qed.
  Lemma iset_apart a b : delimited (eqb cmp) ["..="; "@exhausted"; ", "; "}"] fk ->
    is_debug fk a = is_debug fk b -> is_eqb cmp a b = true.
  Proof.
    intros Hk H. rewrite !iset_text in H. apply isets_eq.
    refine (texts_apart _ _ _ _ _ _ H).
    - intros x y p q s t Hp Hq E. unfold ri_debug in E |- *. rewrite !app_assoc_s in E.
      destruct (Hk _ _ "..=" "..=" _ _ (or_introl eq_refl) (or_introl eq_refl) E) as [K1 K2].
      rewrite K2 in E. do 2 apply app_inv_s in E.
      assert (F : forall (z : rangei K) w u, In w [", "; "}"] ->
        exists w' v', In w' ["..="; "@exhausted"; ", "; "}"] /\
        (if ri_exhausted z then "@exhausted" else "") ++ w ++ u = w' ++ v').
      { intros z w u Hw. destruct (ri_exhausted z).
        - exists "@exhausted", (w ++ u). cbn [In]. auto.
        - exists w, u. cbn [In] in *. tauto. }
      destruct (F x p s Hp) as (w1 & v1 & W1 & E1).
      destruct (F y q t Hq) as (w2 & v2 & W2 & E2).
      pose proof E as E'. rewrite E1, E2 in E'.
      destruct (Hk _ _ _ _ _ _ W1 W2 E') as [K3 K4]. clear E' E1 E2 W1 W2 F.
      rewrite K4 in E. apply app_inv_s in E.
      assert (K7 : ri_exhausted x = ri_exhausted y).
      { destruct (ri_exhausted x), (ri_exhausted y); try reflexivity;
          cbn [In] in Hp, Hq; destruct Hp as [<-|[<-|[]]], Hq as [<-|[<-|[]]]; discriminate. }
      split; [auto|]. rewrite K2, K4, K7. reflexivity.
    - intros x E. apply (f_equal String.length) in E. unfold ri_debug in E. rewrite !length_app_s in E. cbn in E. lia.
  Qed.

  (** equal maps print the same *)
  Context (Hk : forall x y, eqb cmp x y = true -> fk x = fk y).
  Lemma map_same a b : (forall x y, veqb x y = true -> fv x = fv y) ->
    rm_eqb cmp veqb a b = true -> rm_debug fk fv a = rm_debug fk fv b.
  Proof.
    intros Hv H. apply rm_eqb_Forall2 in H. rewrite !map_text. do 2 f_equal. f_equal. unfold rm_iter.
    induction H as [|x y a b (H1 & H2 & H3) HF IH]; [reflexivity|]. cbn [map]. rewrite IH. f_equal.
    unfold r_debug. rewrite (Hk _ _ H1), (Hk _ _ H2), (Hv _ _ H3). reflexivity.
  Qed.
  Lemma imap_same a b : (forall x y, veqb x y = true -> fv x = fv y) ->
    im_eqb cmp veqb a b = true -> im_debug fk fv a = im_debug fk fv b.
  Proof.
    intros Hv H. apply im_eqb_Forall2 in H. rewrite !imap_text. do 2 f_equal. f_equal. unfold im_iter.
    induction H as [|x y a b (H1 & H2 & H3 & H4) HF IH]; [reflexivity|]. cbn [map]. rewrite IH. f_equal.
    unfold ri_debug. rewrite (Hk _ _ H1), (Hk _ _ H2), H3, (Hv _ _ H4). reflexivity.
  Qed.
  Lemma set_same a b : rs_eqb cmp a b = true -> rs_debug fk a = rs_debug fk b.
  Proof.
    intros H. apply (rm_eqb_Forall2 (cmp := cmp) (veqb := unit_eqb)) in H. rewrite !set_text. do 2 f_equal. f_equal.
    unfold rs_iter, rm_iter.
    induction H as [|x y a b (H1 & H2 & H3) HF IH]; [reflexivity|]. cbn [map]. rewrite IH. f_equal.
    unfold r_debug. rewrite (Hk _ _ H1), (Hk _ _ H2). reflexivity.
  Qed.
  Lemma iset_same a b : is_eqb cmp a b = true -> is_debug fk a = is_debug fk b.
  Proof.
    intros H. apply (im_eqb_Forall2 (cmp := cmp) (veqb := unit_eqb)) in H. rewrite !iset_text. do 2 f_equal. f_equal.
    unfold is_iter, im_iter.
    induction H as [|x y a b (H1 & H2 & H3 & H4) HF IH]; [reflexivity|]. cbn [map]. rewrite IH. f_equal.
    unfold ri_debug. rewrite (Hk _ _ H1), (Hk _ _ H2), H3. reflexivity.
  Qed.
End Types.
