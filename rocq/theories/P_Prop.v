(** The crate's property tests (C93): the [#[proptest]] and [quickcheck!] functions of
    /repo/src pass on every input, except that a test which collects or inserts a
    range the crate rejects panics. *)
From Coq Require Import List Bool Arith ZArith Lia.
From Verif Require Import Order Outcome BTree Ranges History Spec MapModel IMapModel OpsModel SetModel ISetModel MapProps
  StepModel StepFacts IMapProps FuzzModel FuzzFacts PropModel PropFacts Instances.
Import ListNotations.

(** What passes: every range [ok], or the panic of [insert]. *)
Notation passes ok l := (if forallb ok l then Ret tt else Panicked PAssert).
Notation both_pass ok l r := (if forallb ok l && forallb ok r then Ret tt else Panicked PAssert).

(** ** map.rs *)
Section Map.
  Context {K V : Type} {cmp : K -> K -> comparison} {veqb : V -> V -> bool}.
  Context (HO : TotalOrd cmp) (HV : PartialEquiv veqb) (Hr : forall v, veqb v v = true).
  Notation ok := (fun e : range K * V => valid_range cmp (fst e)).

  Theorem C93_map : forall l, exists n, forall fuel, n <= fuel ->
    map_first cmp veqb fuel l = passes ok l /\ map_last cmp veqb fuel l = passes ok l /\
    map_len cmp veqb fuel l = passes ok l /\
    map_iter_reversible cmp veqb fuel l = passes ok l /\ map_into_iter_reversible cmp veqb fuel l = passes ok l /\
    forall q, map_overlapping_reversible cmp veqb fuel l q = passes ok l.
  Proof. exact (map_tests HO HV Hr). Qed.
  (** [test_arbitrary_map_u8] drops the ranges with [start == end] first. *)
  Theorem C93_map_arbitrary : forall ks l, map_arbitrary_test cmp veqb ks l =
    passes (fun e : range K * V => leb cmp (r_start (fst e)) (r_end (fst e))) l.
  Proof. exact (map_arbitrary_ok HO HV Hr). Qed.
  (** for every hasher whose results can be compared, when equal keys and equal values hash alike *)
  Theorem C93_map_hash : forall W H (heqb : H -> H -> bool) (hk : K -> list W) hv sip l r,
    (forall h, heqb h h = true) -> (forall x y, eqb cmp x y = true -> hk x = hk y) ->
    (forall x y, veqb x y = true -> hv x = hv y) ->
    map_hash cmp veqb heqb hk hv sip l r = both_pass ok l r.
  Proof. exact (map_hash_ok HO HV). Qed.
  Theorem C93_map_ord : forall vcmp pcmp vpcmp l r,
    (forall x y, vcmp x y = Eq <-> veqb x y = true) ->
    (forall x y, pcmp x y = Some (cmp x y)) -> (forall x y, vpcmp x y = Some (vcmp x y)) ->
    map_ord cmp veqb vcmp pcmp vpcmp l r = both_pass ok l r.
  Proof. exact (map_ord_ok HO HV). Qed.
  (** [quickcheck]'s generator leaves out what [insert] rejects *)
  Theorem C93_map_quickcheck : forall l, map_self cmp veqb l = Ret tt.
  Proof. exact (map_self_ok HO HV Hr). Qed.
End Map.

(** ** inclusive_map.rs; the ranges generated are never exhausted *)
Section IMap.
  Context {K V : Type} {cmp : K -> K -> comparison} {veqb : V -> V -> bool} {st : stepfns K}.
  Context (HO : TotalOrd cmp) (HS : StepLaws cmp st) (HV : PartialEquiv veqb) (Hr : forall v, veqb v v = true).
  Notation ok := (fun e : rangei K * V => valid_rangei cmp (fst e)).
  Notation allfresh l := (forall e : rangei K * V, In e l -> ri_exhausted (fst e) = false).

  Theorem C93_inclusive_map : forall l, allfresh l -> exists n, forall fuel, n <= fuel ->
    imap_first cmp veqb st fuel l = passes ok l /\ imap_last cmp veqb st fuel l = passes ok l /\
    imap_len cmp veqb st fuel l = passes ok l /\
    imap_iter_reversible cmp veqb st fuel l = passes ok l /\ imap_into_iter_reversible cmp veqb st fuel l = passes ok l /\
    forall q, imap_overlapping_reversible cmp veqb st fuel l q = passes ok l.
  Proof. exact (imap_tests HO HS HV Hr). Qed.
  Theorem C93_inclusive_map_arbitrary : forall ks l, allfresh l -> imap_arbitrary_test cmp veqb st ks l =
    passes (fun e : rangei K * V => leb cmp (ri_start (fst e)) (ri_end (fst e))) l.
  Proof. exact (imap_arbitrary_ok HO HS HV Hr). Qed.
  Theorem C93_inclusive_map_hash : forall W H (heqb : H -> H -> bool) (hk : K -> list W) hb hv sip l r,
    allfresh l -> allfresh r ->
    (forall h, heqb h h = true) -> (forall x y, eqb cmp x y = true -> hk x = hk y) ->
    (forall x y, veqb x y = true -> hv x = hv y) ->
    imap_hash cmp veqb st heqb hk hb hv sip l r = both_pass ok l r.
  Proof. exact (imap_hash_ok HO HS HV). Qed.
  Theorem C93_inclusive_map_ord : forall vcmp pcmp vpcmp l r, allfresh l -> allfresh r -> TotalOrd vcmp ->
    (forall x y, vcmp x y = Eq <-> veqb x y = true) ->
    (forall x y, pcmp x y = Some (cmp x y)) -> (forall x y, vpcmp x y = Some (vcmp x y)) ->
    imap_ord cmp veqb st vcmp pcmp vpcmp l r = both_pass ok l r.
  Proof. exact (imap_ord_ok HO HS HV). Qed.
  Theorem C93_inclusive_map_quickcheck : forall l, imap_self cmp veqb st l = Ret tt.
  Proof. exact (imap_self_ok HO HS HV Hr). Qed.
End IMap.

(** ** set.rs; here every collection is built from what [filter_ranges] leaves, so
    only backward ranges are fatal *)
Section RSet.
  Context {K : Type} {cmp : K -> K -> comparison} (HO : TotalOrd cmp).
  Notation ok := (fun r : range K => leb cmp (r_start r) (r_end r)).

  Theorem C93_set : forall l, exists n, forall fuel, n <= fuel ->
    set_first cmp fuel l = passes ok l /\ set_last cmp fuel l = passes ok l /\ set_len cmp fuel l = passes ok l /\
    set_iter_reversible cmp fuel l = passes ok l /\ set_into_iter_reversible cmp fuel l = passes ok l /\
    forall q, set_overlapping_reversible cmp fuel l q = passes ok l.
  Proof. exact (set_tests HO). Qed.
  Theorem C93_set_arbitrary : forall ks l, set_arbitrary_test cmp ks l = passes ok l.
  Proof. exact (set_arbitrary_ok HO). Qed.
  Theorem C93_set_hash : forall W H (heqb : H -> H -> bool) (hk : K -> list W) sip l r,
    (forall h, heqb h h = true) -> (forall x y, eqb cmp x y = true -> hk x = hk y) ->
    set_hash cmp heqb hk sip l r = both_pass ok l r.
  Proof. exact (set_hash_ok HO). Qed.
  Theorem C93_set_ord : forall pcmp l r, (forall x y, pcmp x y = Some (cmp x y)) ->
    set_ord cmp pcmp l r = both_pass ok l r.
  Proof. exact (set_ord_ok HO). Qed.
  Theorem C93_set_quickcheck : forall l, set_self cmp l = Ret tt.
  Proof. exact (set_self_ok HO). Qed.
  (** the pieces of a union or intersection inserted one after another never overlap *)
  Theorem C93_set_overlaps : forall l r, exists n, forall fuel, n <= fuel ->
    set_union_overlaps cmp fuel l r = both_pass ok l r /\
    set_intersection_overlaps cmp fuel l r = both_pass ok l r.
  Proof. exact (set_overlaps_ok HO). Qed.
  Theorem C93_set_contains : forall ks l r,
    set_union_contains cmp ks l r = both_pass ok l r /\ set_intersection_contains cmp ks l r = both_pass ok l r.
  Proof. exact (set_contains_ok HO). Qed.
End RSet.

(** ** inclusive_set.rs *)
Section ISet.
  Context {K : Type} {cmp : K -> K -> comparison} {st : stepfns K} (HO : TotalOrd cmp) (HS : StepLaws cmp st).
  Notation ok := (valid_rangei cmp).
  Notation allfresh l := (forall r : rangei K, In r l -> ri_exhausted r = false).

  Theorem C93_inclusive_set : forall l, allfresh l -> exists n, forall fuel, n <= fuel ->
    iset_first cmp st fuel l = passes ok l /\ iset_last cmp st fuel l = passes ok l /\ iset_len cmp st fuel l = passes ok l /\
    iset_iter_reversible cmp st fuel l = passes ok l /\ iset_into_iter_reversible cmp st fuel l = passes ok l /\
    forall q, iset_overlapping_reversible cmp st fuel l q = passes ok l.
  Proof. exact (iset_tests HO HS). Qed.
  Theorem C93_inclusive_set_arbitrary : forall ks l, allfresh l ->
    iset_arbitrary_test cmp st ks l = passes (fun r : rangei K => leb cmp (ri_start r) (ri_end r)) l.
  Proof. exact (iset_arbitrary_ok HO HS). Qed.
  Theorem C93_inclusive_set_hash : forall W H (heqb : H -> H -> bool) (hk : K -> list W) hb sip l r,
    allfresh l -> allfresh r ->
    (forall h, heqb h h = true) -> (forall x y, eqb cmp x y = true -> hk x = hk y) ->
    iset_hash cmp st heqb hk hb sip l r = both_pass ok l r.
  Proof. exact (iset_hash_ok HO HS). Qed.
  Theorem C93_inclusive_set_ord : forall pcmp l r, allfresh l -> allfresh r ->
    (forall x y, pcmp x y = Some (cmp x y)) -> iset_ord cmp st pcmp l r = both_pass ok l r.
  Proof. exact (iset_ord_ok HO HS). Qed.
  Theorem C93_inclusive_set_quickcheck : forall l, iset_self cmp st l = Ret tt.
  Proof. exact (iset_self_ok HO HS). Qed.
  Theorem C93_inclusive_set_overlaps : forall l r, allfresh l -> allfresh r -> exists n, forall fuel, n <= fuel ->
    iset_union_overlaps cmp st fuel l r = both_pass ok l r /\
    iset_intersection_overlaps cmp st fuel l r = both_pass ok l r.
  Proof. exact (iset_overlaps_ok HO HS). Qed.
  Theorem C93_inclusive_set_contains : forall ks l r, allfresh l -> allfresh r ->
    iset_union_contains cmp st ks l r = both_pass ok l r /\ iset_intersection_contains cmp st ks l r = both_pass ok l r.
  Proof. exact (iset_contains_ok HO HS). Qed.
End ISet.

(** ** std_ext.rs: every float format, in particular both that ordered-float wraps *)
Theorem C93_floats : forall E M, (2 <= E)%Z -> (1 <= M)%Z -> forall x : fkey E M,
  steps_are_reversible E M x = Ret tt /\ steps_move_in_the_right_direction E M x = Ret tt.
Proof. intros E M HE HM x. split; [apply (reversible_steps E M HE HM)|apply (directed_steps E M HE HM)]. Qed.

(** ** Examples *)
Local Open Scope Z_scope.
(** Overlapping, touching and separate ranges; then the same with one empty, and with one backward. *)
Definition pt_map : list (range Z * Z) := [(mkR 0 5, 1); (mkR 8 9, 1); (mkR 3 8, 2); (mkR 5 6, 2)].
Definition pt_set : list (range Z) := [mkR 0 5; mkR 9 10; mkR 3 8; mkR 7 7; mkR 12 20].
Definition pt_set2 : list (range Z) := [mkR 4 13; mkR 15 16].
Example C93_example :
  snd (for_each (fun e => rm_insert Z.compare Z.eqb (fst e) (snd e)) pt_map rm_new) =
    [(mkR 0 3, 1); (mkR 3 8, 2); (mkR 8 9, 1)] /\
  map (fun t => t Z.compare Z.eqb 9%nat pt_map)
    [map_first; map_last; map_len; map_iter_reversible; map_into_iter_reversible] = repeat (Ret tt) 5 /\
  map (fun q => map_overlapping_reversible Z.compare Z.eqb 9 pt_map q) [mkR 1 4; mkR 8 3; mkR 20 30] = repeat (Ret tt) 3 /\
  map_first Z.compare Z.eqb 9 ((mkR 4 4, 1) :: pt_map) = Panicked PAssert /\
  map_first Z.compare Z.eqb 2 pt_map = OutOfFuel /\
  map_arbitrary_test Z.compare Z.eqb [-1; 0; 3; 5; 8; 9] ((mkR 4 4, 1) :: pt_map) = Ret tt /\
  map_arbitrary_test Z.compare Z.eqb [] ((mkR 4 3, 1) :: pt_map) = Panicked PAssert /\
  map_hash Z.compare Z.eqb Nat.eqb (fun z : Z => [z]) (fun z : Z => [z]) (fun w => length w) pt_map (rev pt_map) = Ret tt /\
  map_ord Z.compare Z.eqb Z.compare (fun a b => Some (a ?= b)) (fun a b => Some (a ?= b)) pt_map (rev pt_map) = Ret tt /\
  map_self Z.compare Z.eqb ((mkR 4 3, 1) :: pt_map) = Ret tt.
Proof. vm_compute. repeat split; reflexivity. Qed.
Example C93_example_set :
  map (fun t => t Z.compare 9%nat pt_set)
    [set_first; set_last; set_len; set_iter_reversible; set_into_iter_reversible] = repeat (Ret tt) 5 /\
  set_overlapping_reversible Z.compare 9 pt_set (mkR 4 13) = Ret tt /\
  set_arbitrary_test Z.compare [-1; 0; 4; 7; 8; 19; 20] pt_set = Ret tt /\
  set_hash Z.compare Nat.eqb (fun z : Z => [z]) (fun w => length w) pt_set pt_set2 = Ret tt /\
  set_ord Z.compare (fun a b => Some (a ?= b)) pt_set pt_set2 = Ret tt /\ set_self Z.compare (map (fun r => (r, tt)) (mkR 4 3 :: pt_set)) = Ret tt /\
  set_union_overlaps Z.compare 9 pt_set pt_set2 = Ret tt /\ set_intersection_overlaps Z.compare 9 pt_set pt_set2 = Ret tt /\
  set_union_contains Z.compare [0; 8; 13; 20] pt_set pt_set2 = Ret tt /\
  set_intersection_contains Z.compare [0; 8; 13; 15; 20] pt_set pt_set2 = Ret tt /\
  set_union_contains Z.compare [] pt_set [mkR 2 1] = Panicked PAssert.
Proof. vm_compute. repeat split; reflexivity. Qed.

(** Inclusive collections of [u8], reaching both of its ends. *)
Definition pt_imap : list (rangei (ival u8) * Z) :=
  [(incl (b8 0) (b8 5), 1); (incl (b8 200) (b8 255), 1); (incl (b8 3) (b8 8), 2); (incl (b8 9) (b8 9), 2)].
Definition pt_iset : list (rangei (ival u8)) := [incl (b8 0) (b8 5); incl (b8 6) (b8 9); incl (b8 200) (b8 255)].
Definition pt_iset2 : list (rangei (ival u8)) := [incl (b8 4) (b8 210); incl (b8 255) (b8 255)].
Example C93_example_inclusive : forall md, let st := int_steps md u8 in
  (forall e, In e pt_imap -> ri_exhausted (fst e) = false) /\
  (forall r, In r (pt_iset ++ pt_iset2) -> ri_exhausted r = false) /\
  map (fun t => t (icmp u8) Z.eqb st 9%nat pt_imap)
    [imap_first; imap_last; imap_len; imap_iter_reversible; imap_into_iter_reversible] = repeat (Ret tt) 5 /\
  imap_overlapping_reversible (icmp u8) Z.eqb st 9 pt_imap (incl (b8 4) (b8 255)) = Ret tt /\
  imap_first (icmp u8) Z.eqb st 9 ((incl (b8 4) (b8 3), 1) :: pt_imap) = Panicked PAssert /\
  imap_arbitrary_test (icmp u8) Z.eqb st [b8 0; b8 5; b8 9; b8 10; b8 255] pt_imap = Ret tt /\
  imap_hash (icmp u8) Z.eqb st Nat.eqb (fun z => [proj1_sig z]) (fun b : bool => [if b then 1 else 0]) (fun z => [z])
    (fun w => length w) pt_imap (rev pt_imap) = Ret tt /\
  imap_ord (icmp u8) Z.eqb st Z.compare (fun a b => Some (icmp u8 a b)) (fun a b => Some (a ?= b)) pt_imap (rev pt_imap) = Ret tt /\
  imap_self (icmp u8) Z.eqb st pt_imap = Ret tt /\
  map (fun t => t (icmp u8) st 9%nat pt_iset)
    [iset_first; iset_last; iset_len; iset_iter_reversible; iset_into_iter_reversible] = repeat (Ret tt) 5 /\
  iset_overlapping_reversible (icmp u8) st 9 pt_iset (incl (b8 4) (b8 255)) = Ret tt /\
  iset_arbitrary_test (icmp u8) st [b8 0; b8 5; b8 9; b8 10; b8 255] pt_iset = Ret tt /\
  iset_hash (icmp u8) st Nat.eqb (fun z => [proj1_sig z]) (fun b : bool => [if b then 1 else 0]) (fun w => length w)
    pt_iset pt_iset2 = Ret tt /\
  iset_ord (icmp u8) st (fun a b => Some (icmp u8 a b)) pt_iset pt_iset2 = Ret tt /\
  iset_self (icmp u8) st (map (fun r => (r, tt)) (incl (b8 4) (b8 3) :: pt_iset)) = Ret tt /\
  iset_union_overlaps (icmp u8) st 9 pt_iset pt_iset2 = Ret tt /\
  iset_intersection_overlaps (icmp u8) st 9 pt_iset pt_iset2 = Ret tt /\
  iset_union_contains (icmp u8) st [b8 0; b8 199; b8 255] pt_iset pt_iset2 = Ret tt /\
  iset_intersection_contains (icmp u8) st [b8 0; b8 199; b8 210; b8 211; b8 255] pt_iset pt_iset2 = Ret tt.
Proof.
  intros md st. split; [|split].
  - intros e He. cbn in He. repeat (destruct He as [<-|He]; [reflexivity|]). destruct He.
  - intros e He. cbn in He. repeat (destruct He as [<-|He]; [reflexivity|]). destruct He.
  - subst st. destruct md; vm_compute; repeat split; reflexivity.
Qed.

(** What the tests are looking for does make them fail: a first entry that is not
    the least, a length off by one, a wrong [is_empty], a backward iterator that is
    not the reverse, a collection not [==] to itself, equal collections
    hashed or ordered apart, overlapping pieces, a key lost. *)
Example C93_example_alarms :
  let ri := @it_next Z in
  t_extreme Z.eqb (min_by Z.compare) (fun l : list Z => nth_error l 1) (fun l => l) ri 9 [2; 3; 5] = Panicked PAssert /\
  t_extreme Z.eqb (min_by Z.compare) (fun l : list Z => None) (fun l => l) ri 9 [2; 3; 5] = Panicked PAssert /\
  t_extreme Z.eqb (max_by Z.compare) (fun l : list Z => Some 7) (fun l => l) ri 9 [] = Panicked PAssert /\
  t_len (fun l : list Z => S (length l)) (fun l => false) (fun l => (Ret tt, [])) (fun l => l) ri 9 [2; 3] = Panicked PAssert /\
  t_len (@length Z) (fun l => match l with [] => true | _ => false end) (fun l => (Ret tt, l)) (fun l => l) ri 9 [2; 3] = Panicked PAssert /\
  t_len (@length Z) (fun l => true) (fun l => (Ret tt, [])) (fun l => l) ri 9 [2; 3] = Panicked PAssert /\
  t_reversible Z.eqb (Ret [2; 3]) ri ri 9 = Panicked PAssert /\
  t_self (fun a b : Z => false) 2 = Panicked PAssert /\
  t_hash Nat.eqb (fun a b : list Z => true) (@length Z) [2] [] = Panicked PAssert /\
  t_ord (fun a b : Z => false) Z.compare (fun a b => Some (a ?= b)) 2 2 = Panicked PAssert /\
  t_ord Z.eqb Z.compare (fun a b => Some (b ?= a)) 2 3 = Panicked PAssert /\
  t_ord Z.eqb Z.compare (fun a b => None) 2 3 = Panicked PAssert /\
  t_disjoint (fun l : list (range Z) => (Ret (fst (it_next l)), snd (it_next l))) (rs_overlapping Z.compare)
    (rs_ov_next Z.compare) (rs_insert Z.compare) 9 [mkR 0 3; mkR 2 5] rs_new = Panicked PAssert /\
  t_combine (fun a b : rset Z => Ret a) (rs_contains Z.compare) orb [1; 2]
    (rs_run Z.compare [SInsert (mkR 0 2)]) (rs_run Z.compare [SInsert (mkR 2 3)]) = Panicked PAssert.
Proof. vm_compute. repeat split; reflexivity. Qed.
(** A format of one sign, two exponent and one mantissa bit: all of its keys, and
    which of them the tests do not pass over. *)
Example C93_example_floats :
  map (fun b => option_map (f_is_finite 2 1) (to_fkey 2 1 b)) [0; 1; 5; 6; 8; 9; 14] =
    [Some true; Some true; Some true; Some false; Some true; Some true; Some false].
Proof. vm_compute. reflexivity. Qed.

Print Assumptions C93_map.
Print Assumptions C93_map_arbitrary.
Print Assumptions C93_map_hash.
Print Assumptions C93_map_ord.
Print Assumptions C93_map_quickcheck.
Print Assumptions C93_inclusive_map.
Print Assumptions C93_inclusive_map_arbitrary.
Print Assumptions C93_inclusive_map_hash.
Print Assumptions C93_inclusive_map_ord.
Print Assumptions C93_inclusive_map_quickcheck.
Print Assumptions C93_set.
Print Assumptions C93_set_arbitrary.
Print Assumptions C93_set_hash.
Print Assumptions C93_set_ord.
Print Assumptions C93_set_quickcheck.
Print Assumptions C93_set_overlaps.
Print Assumptions C93_set_contains.
Print Assumptions C93_inclusive_set.
Print Assumptions C93_inclusive_set_arbitrary.
Print Assumptions C93_inclusive_set_hash.
Print Assumptions C93_inclusive_set_ord.
Print Assumptions C93_inclusive_set_quickcheck.
Print Assumptions C93_inclusive_set_overlaps.
Print Assumptions C93_inclusive_set_contains.
Print Assumptions C93_floats.
