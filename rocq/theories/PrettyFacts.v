(** The indented [Debug] form. *)
From Coq Require Import List Bool String Ascii ZArith Lia.
From Verif Require Import ListLemmas Order Outcome BTree Ranges Spec MapModel IMapModel SetModel ISetModel
  MapFacts MapIter MapMore IFacts IMapProps DebugModel DebugFacts.
Import ListNotations.
Local Open Scope string_scope.

(** ** The pad adapter *)

(** is the position after [s] the beginning of a line? *)
Fixpoint bol_after (b : bool) (s : string) : bool :=
  match s with
  | EmptyString => b
  | String c s' => bol_after (Ascii.eqb c "010") s'
  end.
Lemma bol_app s : forall b t, bol_after b (s ++ t) = bol_after (bol_after b s) t.
Proof. induction s as [|c s IH]; intros b t; cbn; auto. Qed.
Lemma indented_app s : forall b t, indented b (s ++ t) = indented b s ++ indented (bol_after b s) t.
Proof.
  induction s as [|c s IH]; intros b t; [reflexivity|]. cbn [String.append indented bol_after].
  change (ascii_of_nat 10) with ("010"%char). rewrite IH. destruct b; reflexivity.
Qed.
Lemma pad_fst l : forall t b, fst (fold_left pad_line l (t, b)) = t ++ fst (fold_left pad_line l ("", b)) /\
  snd (fold_left pad_line l (t, b)) = snd (fold_left pad_line l ("", b)).
Proof.
  induction l as [|x l IH]; intros t b; cbn [fold_left].
  - cbn. rewrite app_nil_s. auto.
  - unfold pad_line at 2 4 6 8. cbn [fst snd].
    destruct (IH (t ++ (if b then "    " else "") ++ x) (ends_with_newline x)) as [E1 E2].
    destruct (IH ("" ++ (if b then "    " else "") ++ x) (ends_with_newline x)) as [E3 E4].
    rewrite E1, E2, E3, E4. rewrite !app_assoc_s. auto.
Qed.
Lemma split_ne c s : split_inclusive (String c s) <> [].
Proof. cbn. destruct (Ascii.eqb c "010"); [discriminate|]. destruct (split_inclusive s); discriminate. Qed.
Lemma lines_ne s l : In l (split_inclusive s) -> l <> "".
Proof.
  revert l. induction s as [|c s IH]; intros l; cbn; [tauto|].
  destruct (Ascii.eqb c "010"); cbn.
  - intros [<-|H]; [discriminate|auto].
  - destruct (split_inclusive s) as [|x ls]; cbn; intros [<-|H]; try discriminate; [tauto|].
    apply IH. cbn. auto.
Qed.
Lemma pad_lines s : forall b, fold_left pad_line (split_inclusive s) ("", b) = (indented b s, bol_after b s).
Proof.
  induction s as [|c s IH]; intros b; [reflexivity|].
  cbn [split_inclusive indented bol_after]. change (ascii_of_nat 10) with ("010"%char).
  destruct (Ascii.eqb c "010") eqn:Ec.
  - cbn [fold_left]. unfold pad_line at 2. cbn [fst snd ends_with_newline]. rewrite Ec.
    match goal with |- ?x = _ => rewrite (surjective_pairing x) end.
    destruct (pad_fst (split_inclusive s) ("" ++ (if b then "    " else "") ++ String c "") true) as [E1 E2].
    rewrite E1, E2, IH. cbn [fst snd]. destruct b; reflexivity.
  - specialize (IH false).
    pose proof (lines_ne s) as N.
    destruct (split_inclusive s) as [|x ls] eqn:Es.
    + destruct s; [|exfalso; apply (split_ne a s); exact Es].
      cbn [fold_left]. unfold pad_line. cbn [fst snd ends_with_newline indented bol_after]. rewrite Ec.
      destruct b; reflexivity.
    + cbn [fold_left] in IH |- *. unfold pad_line at 2 in IH. unfold pad_line at 2. cbn [fst snd] in *.
      assert (Ex : ends_with_newline (String c x) = ends_with_newline x).
      { specialize (N x (or_introl eq_refl)). destruct x; [congruence|]. reflexivity. }
      rewrite Ex.
      match goal with |- ?x = _ => rewrite (surjective_pairing x) end.
      match type of IH with ?x = _ => rewrite (surjective_pairing x) in IH end.
      destruct (pad_fst ls ("" ++ (if b then "    " else "") ++ String c x) (ends_with_newline x)) as [E1 E2].
      destruct (pad_fst ls ("" ++ "" ++ x) (ends_with_newline x)) as [E3 E4].
      rewrite E1, E2. rewrite E3, E4 in IH. injection IH as I1 I2. rewrite I2. f_equal.
      cbn [String.append] in I1. rewrite <- I1, !app_assoc_s. destruct b; reflexivity.
Qed.
Lemma pad_write_eq t b s : pad_write (t, b) s = (t ++ indented b s, bol_after b s).
Proof.
  unfold pad_write. rewrite (surjective_pairing (fold_left _ _ _)).
  destruct (pad_fst (split_inclusive s) t b) as [E1 E2]. rewrite E1, E2, pad_lines. reflexivity.
Qed.
Definition joined (l : list string) : string := concat "" l.
Lemma joined_cons x l : joined (x :: l) = x ++ joined l.
Proof. unfold joined. destruct l; cbn; [symmetry; apply app_nil_s|reflexivity]. Qed.
Lemma joined_app a b : joined (a ++ b) = joined a ++ joined b.
Proof.
  induction a as [|x a IH]; [reflexivity|]. change ((x :: a) ++ b)%list with (x :: (a ++ b))%list.
  rewrite !joined_cons, IH, app_assoc_s. reflexivity.
Qed.
Lemma pad_writes_eq l : forall t b, pad_writes (t, b) l = (t ++ indented b (joined l), bol_after b (joined l)).
Proof.
  induction l as [|x l IH]; intros t b.
  - cbn. rewrite app_nil_s. reflexivity.
  - unfold pad_writes in *. cbn [fold_left]. rewrite pad_write_eq, IH, joined_cons, indented_app, bol_app, app_assoc_s.
    reflexivity.
Qed.

(** ** The text *)
Section Text.
  Context {A : Type} (item : A -> string) (step : pretty -> A -> pretty).
  Hypothesis step_ok : forall d x, p_text (step d x) =
    (p_text d ++ (if p_has_fields d then "" else newline)) ++ indented true (item x ++ "," ++ newline) /\
    p_has_fields (step d x) = true.

  Lemma pretty_fold l : forall d, p_has_fields d = true ->
    p_text (fold_left step l d) = p_text d ++ joined (map (fun x => indented true (item x ++ "," ++ newline)) l).
  Proof.
    induction l as [|x l IH]; intros d Hd; cbn [fold_left map].
    - symmetry. apply app_nil_s.
    - destruct (step_ok d x) as [E1 E2]. rewrite IH, E1, Hd, joined_cons by exact E2.
      rewrite app_nil_s, app_assoc_s. reflexivity.
  Qed.
  Lemma pretty_text l : pretty_finish (fold_left step l pretty_new) =
    match l with
    | [] => "{}"
    | _ => "{" ++ newline ++ joined (map (fun x => indented true (item x ++ "," ++ newline)) l) ++ "}"
    end.
  Proof.
    destruct l as [|x l]; [reflexivity|]. unfold pretty_finish. cbn [fold_left].
    destruct (step_ok pretty_new x) as [E1 E2]. rewrite pretty_fold by exact E2. rewrite E1.
    cbn [map]. rewrite joined_cons. cbn [p_text p_has_fields pretty_new]. rewrite !app_assoc_s. reflexivity.
  Qed.
  Lemma bol_line b s : bol_after b (s ++ "," ++ newline) = true.
  Proof. rewrite bol_app. reflexivity. Qed.
  Lemma joined_indented l : joined (map (fun x => indented true (item x ++ "," ++ newline)) l) =
    indented true (joined (map (fun x => item x ++ "," ++ newline) l)).
  Proof.
    induction l as [|x l IH]; [reflexivity|]. cbn [map]. rewrite !joined_cons, IH, (indented_app (item x ++ "," ++ newline)), bol_line. reflexivity.
  Qed.
End Text.

(** ** Telling lists of items apart *)
Lemma indented_inj s : forall b t, indented b s = indented b t -> s = t.
Proof.
  induction s as [|c s IH]; intros b [|d t] H; cbn in H.
  - reflexivity.
  - destruct b; discriminate.
  - destruct b; discriminate.
  - assert (E : String c (indented (Ascii.eqb c "010") s) = String d (indented (Ascii.eqb d "010") t)).
    { destruct b; [injection H as H1 H2; rewrite H1 at 1; rewrite H2; reflexivity|exact H]. }
    injection E as -> E. f_equal. exact (IH _ _ E).
Qed.
Lemma strip_last a : forall b c, a ++ String c "" = b ++ String c "" -> a = b.
Proof.
  induction a as [|x a IH]; intros [|y b] c H; cbn in H.
  - reflexivity.
  - injection H as -> H. destruct b; discriminate.
  - injection H as -> H. destruct a; discriminate.
  - injection H as -> H. f_equal. exact (IH _ _ H).
Qed.
Definition comma_nl : string := "," ++ newline.
Section Apart.
  Context {A : Type} (item : A -> string) (E : A -> A -> Prop).
  Hypothesis item_apart : forall x y s t,
    item x ++ comma_nl ++ s = item y ++ comma_nl ++ t -> E x y /\ item x = item y.

  Lemma items_apart a : forall b,
    joined (map (fun x => item x ++ comma_nl) a) = joined (map (fun x => item x ++ comma_nl) b) -> Forall2 E a b.
  Proof.
    assert (N : forall s t, s ++ comma_nl ++ t <> "").
    { intros s t Hx. apply (f_equal String.length) in Hx. rewrite !length_app_s in Hx. cbn in Hx. lia. }
    induction a as [|x a IH]; intros [|y b] H; cbn [map] in H; rewrite ?joined_cons, ?app_assoc_s in H.
    - constructor.
    - symmetry in H. destruct (N _ _ H).
    - destruct (N _ _ H).
    - destruct (item_apart _ _ _ _ H) as [He Hi]. rewrite Hi in H. do 2 apply app_inv_s in H.
      constructor; auto.
  Qed.
  Lemma pretty_apart a b :
    match a with
    | [] => "{}"
    | _ => "{" ++ newline ++ joined (map (fun x => indented true (item x ++ "," ++ newline)) a) ++ "}"
    end =
    match b with
    | [] => "{}"
    | _ => "{" ++ newline ++ joined (map (fun x => indented true (item x ++ "," ++ newline)) b) ++ "}"
    end -> Forall2 E a b.
  Proof.
    intros H. destruct a as [|x a], b as [|y b]; try discriminate; [constructor|].
    do 2 apply app_inv_s in H. apply strip_last in H. rewrite !joined_indented in H.
    apply indented_inj in H. exact (items_apart _ _ H).
  Qed.
End Apart.

(** ** The four types *)
Section Types.
  Context {K V : Type} (cmp : K -> K -> comparison) (veqb : V -> V -> bool).
  Context (fk : K -> list string) (fv : V -> list string).
  Notation tk := (fun k => joined (fk k)).
  Notation tv := (fun v => joined (fv v)).
  Notation ind := (indented true).

  Lemma map_step k v d : p_text (pretty_map_entry k v d) =
    (p_text d ++ (if p_has_fields d then "" else newline)) ++ ind ((joined k ++ ": " ++ joined v) ++ "," ++ newline) /\
    p_has_fields (pretty_map_entry k v d) = true.
  Proof.
    unfold pretty_map_entry, pretty_value, pretty_key.
    rewrite pad_writes_eq, pad_write_eq. cbn [p_text p_on_newline p_has_fields].
    rewrite pad_writes_eq, pad_write_eq. cbn [p_text p_has_fields]. split; [|reflexivity].
    rewrite !indented_app. rewrite !app_assoc_s. rewrite !bol_app.
    destruct (p_has_fields d); cbn [String.append]; rewrite ?app_assoc_s; reflexivity.
  Qed.
  Lemma set_step k d : p_text (pretty_set_entry k d) =
    (p_text d ++ (if p_has_fields d then "" else newline)) ++ ind (joined k ++ "," ++ newline) /\
    p_has_fields (pretty_set_entry k d) = true.
  Proof.
    unfold pretty_set_entry. rewrite pad_writes_eq, pad_write_eq. cbn [p_text p_has_fields]. split; [|reflexivity].
    rewrite !indented_app, !app_assoc_s. destruct (p_has_fields d); rewrite ?app_assoc_s; reflexivity.
  Qed.
  Lemma r_joined r : joined (r_pretty fk r) = r_debug tk r.
  Proof. unfold r_pretty, r_debug. rewrite !joined_app. reflexivity. Qed.
  Lemma ri_joined r : joined (ri_pretty fk r) = ri_debug tk r.
  Proof. unfold ri_pretty, ri_debug. rewrite !joined_app. destruct (ri_exhausted r); reflexivity. Qed.

  Definition pretty_of (items : list string) : string :=
    match items with
    | [] => "{}"
    | _ => "{" ++ newline ++ joined (map (fun s => ind (s ++ "," ++ newline)) items) ++ "}"
    end.
  Lemma pretty_of_map {A} (f : A -> string) l : pretty_of (map f l) =
    match l with
    | [] => "{}"
    | _ => "{" ++ newline ++ joined (map (fun x => ind (f x ++ "," ++ newline)) l) ++ "}"
    end.
  Proof. destruct l; [reflexivity|]. unfold pretty_of. cbn [map]. rewrite map_map. reflexivity. Qed.

  Lemma map_pretty m : rm_pretty fk fv m =
    pretty_of (map (fun e => r_debug tk (fst e) ++ ": " ++ tv (snd e)) (rm_iter m)).
  Proof.
    rewrite pretty_of_map. apply pretty_text. intros d x. rewrite <- r_joined. apply map_step.
  Qed.
  Lemma imap_pretty m : im_pretty fk fv m =
    pretty_of (map (fun e => ri_debug tk (fst e) ++ ": " ++ tv (snd e)) (im_iter m)).
  Proof.
    rewrite pretty_of_map. apply pretty_text. intros d x. rewrite <- ri_joined. apply map_step.
  Qed.
  Lemma set_pretty s : rs_pretty fk s = pretty_of (map (r_debug tk) (map fst (rs_iter s))).
  Proof. rewrite pretty_of_map. apply pretty_text. intros d x. rewrite <- r_joined. apply set_step. Qed.
  Lemma iset_pretty s : is_pretty fk s = pretty_of (map (ri_debug tk) (map fst (is_iter s))).
  Proof. rewrite pretty_of_map. apply pretty_text. intros d x. rewrite <- ri_joined. apply set_step. Qed.

  Lemma map_pretty_apart a b : delimited (eqb cmp) [".."; ": "] tk -> delimited veqb [comma_nl] tv ->
    rm_pretty fk fv a = rm_pretty fk fv b -> rm_eqb cmp veqb a b = true.
  Proof.
    intros Hk Hv H. rewrite !map_pretty, !pretty_of_map in H. apply rm_eqb_Forall2.
    refine (pretty_apart _ _ _ _ _ H).
    intros x y s t E. unfold r_debug in E |- *. rewrite !app_assoc_s in E.
    destruct (Hk _ _ ".." ".." _ _ (or_introl eq_refl) (or_introl eq_refl) E) as [K1 K2].
    rewrite K2 in E. do 2 apply app_inv_s in E.
    destruct (Hk _ _ ": " ": " _ _ (or_intror (or_introl eq_refl)) (or_intror (or_introl eq_refl)) E) as [K3 K4].
    rewrite K4 in E. do 2 apply app_inv_s in E.
    destruct (Hv _ _ comma_nl comma_nl _ _ (or_introl eq_refl) (or_introl eq_refl) E) as [K5 K6].
    split; [unfold entry_eq; auto|]. rewrite K2, K4, K6. reflexivity.
  Qed.
  Lemma imap_pretty_apart a b : delimited (eqb cmp) ["..="; ": "; "@exhausted"] tk ->
    delimited veqb [comma_nl] tv ->
    im_pretty fk fv a = im_pretty fk fv b -> im_eqb cmp veqb a b = true.
  Proof.
    intros Hk Hv H. rewrite !imap_pretty, !pretty_of_map in H. apply im_eqb_Forall2.
    refine (pretty_apart _ _ _ _ _ H).
    intros x y s t E. unfold ri_debug in E |- *. rewrite !app_assoc_s in E.
    destruct (Hk _ _ "..=" "..=" _ _ (or_introl eq_refl) (or_introl eq_refl) E) as [K1 K2].
    rewrite K2 in E. do 2 apply app_inv_s in E.
    assert (F : forall (z : rangei K * V) u, exists w v', In w ["..="; ": "; "@exhausted"] /\
      (if ri_exhausted (fst z) then "@exhausted" else "") ++ ": " ++ u = w ++ v').
    { intros z u. destruct (ri_exhausted (fst z)).
      - exists "@exhausted", (": " ++ u). cbn [In]. auto.
      - exists ": ", u. cbn [In]. auto. }
    destruct (F x (tv (snd x) ++ comma_nl ++ s)) as (w1 & v1 & W1 & E1).
    destruct (F y (tv (snd y) ++ comma_nl ++ t)) as (w2 & v2 & W2 & E2).
    pose proof E as E'. rewrite E1, E2 in E'.
    destruct (Hk _ _ _ _ _ _ W1 W2 E') as [K3 K4]. clear E' E1 E2 W1 W2 F.
    rewrite K4 in E. apply app_inv_s in E.
    assert (K7 : ri_exhausted (fst x) = ri_exhausted (fst y)).
    { destruct (ri_exhausted (fst x)), (ri_exhausted (fst y)); try reflexivity; discriminate. }
    rewrite K7 in E. do 2 apply app_inv_s in E.
    destruct (Hv _ _ comma_nl comma_nl _ _ (or_introl eq_refl) (or_introl eq_refl) E) as [K5 K6].
    split; [unfold ientry_eq; auto|]. rewrite K2, K4, K6, K7. reflexivity.
  Qed.
  Lemma set_pretty_apart a b : delimited (eqb cmp) [".."; comma_nl] tk ->
    rs_pretty fk a = rs_pretty fk b -> rs_eqb cmp a b = true.
  Proof.
    intros Hk H. rewrite !set_pretty, !pretty_of_map in H. apply sets_eq.
    refine (pretty_apart _ _ _ _ _ H).
    intros x y s t E. unfold r_debug in E |- *. rewrite !app_assoc_s in E.
    destruct (Hk _ _ ".." ".." _ _ (or_introl eq_refl) (or_introl eq_refl) E) as [K1 K2].
    rewrite K2 in E. do 2 apply app_inv_s in E.
    destruct (Hk _ _ comma_nl comma_nl _ _ (or_intror (or_introl eq_refl)) (or_intror (or_introl eq_refl)) E) as [K3 K4].
    split; [auto|]. rewrite K2, K4. reflexivity.
  Qed.
  Lemma iset_pretty_apart a b : delimited (eqb cmp) ["..="; "@exhausted"; comma_nl] tk ->
    is_pretty fk a = is_pretty fk b -> is_eqb cmp a b = true.
  Proof.
    intros Hk H. rewrite !iset_pretty, !pretty_of_map in H. apply isets_eq.
    refine (pretty_apart _ _ _ _ _ H).
    intros x y s t E. unfold ri_debug in E |- *. rewrite !app_assoc_s in E.
    destruct (Hk _ _ "..=" "..=" _ _ (or_introl eq_refl) (or_introl eq_refl) E) as [K1 K2].
    rewrite K2 in E. do 2 apply app_inv_s in E.
    assert (F : forall (z : rangei K) u,
      exists w' v', In w' ["..="; "@exhausted"; comma_nl] /\
      (if ri_exhausted z then "@exhausted" else "") ++ comma_nl ++ u = w' ++ v').
    { intros z u. destruct (ri_exhausted z).
      - exists "@exhausted", (comma_nl ++ u). cbn [In]. auto.
      - exists comma_nl, u. cbn [In] in *. tauto. }
    destruct (F x s) as (w1 & v1 & W1 & E1).
    destruct (F y t) as (w2 & v2 & W2 & E2).
    pose proof E as E'. rewrite E1, E2 in E'.
    destruct (Hk _ _ _ _ _ _ W1 W2 E') as [K3 K4]. clear E' E1 E2 W1 W2 F.
    rewrite K4 in E. apply app_inv_s in E.
    assert (K7 : ri_exhausted x = ri_exhausted y).
    { destruct (ri_exhausted x), (ri_exhausted y); try reflexivity; discriminate. }
    split; [auto|]. rewrite K2, K4, K7. reflexivity.
  Qed.

  (** equal maps print the same *)
  Context (Hk : forall x y, eqb cmp x y = true -> joined (fk x) = joined (fk y)).
  Lemma map_pretty_same a b : (forall x y, veqb x y = true -> joined (fv x) = joined (fv y)) ->
    rm_eqb cmp veqb a b = true -> rm_pretty fk fv a = rm_pretty fk fv b.
  Proof.
    intros Hv H. apply rm_eqb_Forall2 in H. rewrite !map_pretty. f_equal. unfold rm_iter.
    induction H as [|x y a b (H1 & H2 & H3) HF IH]; [reflexivity|]. cbn [map]. rewrite IH. f_equal.
    unfold r_debug. rewrite (Hk _ _ H1), (Hk _ _ H2), (Hv _ _ H3). reflexivity.
  Qed.
  Lemma imap_pretty_same a b : (forall x y, veqb x y = true -> joined (fv x) = joined (fv y)) ->
    im_eqb cmp veqb a b = true -> im_pretty fk fv a = im_pretty fk fv b.
  Proof.
    intros Hv H. apply im_eqb_Forall2 in H. rewrite !imap_pretty. f_equal. unfold im_iter.
    induction H as [|x y a b (H1 & H2 & H3 & H4) HF IH]; [reflexivity|]. cbn [map]. rewrite IH. f_equal.
    unfold ri_debug. rewrite (Hk _ _ H1), (Hk _ _ H2), H3, (Hv _ _ H4). reflexivity.
  Qed.
  Lemma set_pretty_same a b : rs_eqb cmp a b = true -> rs_pretty fk a = rs_pretty fk b.
  Proof.
    intros H. apply (rm_eqb_Forall2 (cmp := cmp) (veqb := unit_eqb)) in H. rewrite !set_pretty. f_equal.
    unfold rs_iter, rm_iter.
    induction H as [|x y a b (H1 & H2 & H3) HF IH]; [reflexivity|]. cbn [map]. rewrite IH. f_equal.
    unfold r_debug. rewrite (Hk _ _ H1), (Hk _ _ H2). reflexivity.
  Qed.
  Lemma iset_pretty_same a b : is_eqb cmp a b = true -> is_pretty fk a = is_pretty fk b.
  Proof.
    intros H. apply (im_eqb_Forall2 (cmp := cmp) (veqb := unit_eqb)) in H. rewrite !iset_pretty. f_equal.
    unfold is_iter, im_iter.
    induction H as [|x y a b (H1 & H2 & H3 & H4) HF IH]; [reflexivity|]. cbn [map]. rewrite IH. f_equal.
    unfold ri_debug. rewrite (Hk _ _ H1), (Hk _ _ H2), H3. reflexivity.
  Qed.
End Types.
