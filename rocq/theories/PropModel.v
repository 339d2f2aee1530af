(** Model of the crate's property tests: the [#[proptest]] and [quickcheck!]
    functions of map.rs, inclusive_map.rs, set.rs, inclusive_set.rs and std_ext.rs.
    Each is a program that builds collections from random input, looks at them and
    panics when what it sees is wrong.

    Simplifications.  The tests fix keys to [u64], [u8], [usize] or [NotNan<f64>]
    and values to [String], [u64], [usize] or [NotNan<f64>]; here the key type with
    its order and steps and the value type with its [==] are parameters.  The lists
    of ranges that [proptest] and [quickcheck] generate are the arguments.  Every
    way for a test to fail ([assert!], [assert_eq!], [unwrap] on [None], the result
    [false] of a [quickcheck!] function) is the outcome [Panicked PAssert]; a panic
    of the collection ends the test with that panic.  [for value in 0..u8::MAX] is a
    loop over any list of keys.  Fuel is given to each [collect], [count],
    [min_by_key], [max_by_key] and [for] over an iterator; running out of it is the
    outcome [OutOfFuel]. *)
From Coq Require Import List Bool Arith ZArith.
From Verif Require Import Order Outcome BTree Ranges MapModel IMapModel OpsModel SetModel ISetModel StepModel FuzzModel.
Import ListNotations.

(** [Iterator::min_by_key] (core), map.rs:880, inclusive_map.rs:1007, set.rs:487,
    inclusive_set.rs:516: the first of the least elements;
    [Iterator::max_by_key], map.rs:899, inclusive_map.rs:1015, set.rs:503,
    inclusive_set.rs:532: the last of the greatest. *)
Definition min_by {A} (c : A -> A -> comparison) (l : list A) : option A :=
  match l with
  | [] => None
  | a :: l' => Some (fold_left (fun x y => match c x y with Gt => y | _ => x end) l' a)
  end.
Definition max_by {A} (c : A -> A -> comparison) (l : list A) : option A :=
  match l with
  | [] => None
  | a :: l' => Some (fold_left (fun x y => match c x y with Gt => x | _ => y end) l' a)
  end.
(** [PartialEq for Option] (core) *)
Definition option_eqb {A} (e : A -> A -> bool) (a b : option A) : bool :=
  match a, b with Some x, Some y => e x y | None, None => true | _, _ => false end.
(** [PartialEq for Ordering] and [Ordering::is_eq] (core), map.rs:983,
    inclusive_map.rs:1102, set.rs:585, inclusive_set.rs:616 *)
Definition ordering_eqb (a b : comparison) : bool :=
  match a, b with Lt, Lt | Eq, Eq | Gt, Gt => true | _, _ => false end.
Definition is_eq (c : comparison) : bool := match c with Eq => true | _ => false end.

(** ** The bodies shared by the four collections *)
Section Bodies.
  (** the collection, its iterator, what it yields with [==], and its keys *)
  Context {T I E K : Type} (e : E -> E -> bool).

  Definition collect (next : I -> option E * I) (fuel : nat) (i : I) : outcome (list E) :=
    fst (drain (pnext next) fuel i).

  (** [test_first], [test_last]: map.rs:877-882, 896-901; inclusive_map.rs:1004-1017,
      1996-2009; set.rs:486-488, 502-504; inclusive_set.rs:515-517, 531-533, 860-862,
      876-878. *)
  Definition t_extreme (pick : list E -> option E) (found : T -> option E)
    (iter : T -> I) next fuel (t : T) : outcome unit :=
    obind (collect next fuel (iter t)) (fun l => fassert (option_eqb e (found t) (pick l))).

  (** [test_len]: map.rs:886-893; inclusive_map.rs:994-1001, 1986-1993; set.rs:492-499;
      inclusive_set.rs:521-528, 866-873. *)
  Definition t_len (len : T -> nat) (is_empty : T -> bool) (clear : M T unit)
    (iter : T -> I) next fuel (t : T) : outcome unit :=
    obind (collect next fuel (iter t)) (fun l =>
    obind (fassert (Nat.eqb (len t) (length l))) (fun _ =>
    obind (fassert (Bool.eqb (is_empty t) (Nat.eqb (len t) 0))) (fun _ =>
    let (o, t') := clear t in
    obind o (fun _ =>
    obind (fassert (Nat.eqb (len t') 0)) (fun _ =>
    obind (fassert (is_empty t')) (fun _ =>
    obind (collect next fuel (iter t')) (fun l' =>
    fassert (Nat.eqb (length l') 0)))))))).

  (** [test_iter_reversible], [test_into_iter_reversible],
      [test_overlapping_reversible]: map.rs:904-925; inclusive_map.rs:1020-1044,
      2012-2036; set.rs:507-528; inclusive_set.rs:536-557, 881-902. *)
  Definition t_reversible (mk : outcome I) (next next_back : I -> option E * I) fuel : outcome unit :=
    obind mk (fun i =>
    obind (collect next fuel i) (fun forward =>
    obind mk (fun j =>
    obind (collect next_back fuel j) (fun backward =>
    fassert (list_eqb e forward (rev backward)))))).

  (** [test_hash]: map.rs:954-977; inclusive_map.rs:1073-1096, 2040-2063;
      set.rs:556-579; inclusive_set.rs:587-610. *)
  Definition t_hash {H} (heqb : H -> H -> bool) (eq : T -> T -> bool) (hash : T -> H) (left right : T) : outcome unit :=
    obind (if eq left right then fassert (heqb (hash left) (hash right)) else Ret tt) (fun _ =>
    if negb (heqb (hash left) (hash right)) then fassert (negb (eq left right)) else Ret tt).

  (** [test_ord]: map.rs:980-991; inclusive_map.rs:1099-1110, 2066-2077;
      set.rs:582-593; inclusive_set.rs:613-624. *)
  Definition t_ord (eq : T -> T -> bool) (cmp : T -> T -> comparison)
    (pcmp : T -> T -> option comparison) (left right : T) : outcome unit :=
    obind (fassert (Bool.eqb (eq left right) (is_eq (cmp left right)))) (fun _ =>
    match pcmp left right with
    | None => Panicked PAssert
    | Some c => fassert (ordering_eqb (cmp left right) c)
    end).

  (** [quickcheck!]: map.rs:1842-1846; inclusive_map.rs:1971-1975; set.rs:810-814;
      inclusive_set.rs:844-848. *)
  Definition t_self (eq : T -> T -> bool) (xs : T) : outcome unit := fassert (eq xs xs).

  (** [for value in 0..u8::MAX { assert_eq!(a, b) }] map.rs:940, set.rs:546, 627,
    640, inclusive_map.rs:1059, inclusive_set.rs:577, 658, 671 *)
  Fixpoint for_keys (f : K -> outcome unit) (ks : list K) : outcome unit :=
    match ks with
    | [] => Ret tt
    | k :: ks' => obind (f k) (fun _ => for_keys f ks')
    end.

  (** [test_union_contains_u8], [test_intersection_contains_u8]: set.rs:623-646;
      inclusive_set.rs:654-677.  [||] and [&&] always evaluate both sides here;
      [contains] changes nothing. *)
  Definition t_combine (op : T -> T -> outcome T) (contains : T -> K -> outcome bool)
    (f : bool -> bool -> bool) (ks : list K) (left right : T) : outcome unit :=
    obind (op left right) (fun c =>
    for_keys (fun k =>
      obind (contains c k) (fun x =>
      obind (contains left k) (fun y =>
      obind (contains right k) (fun z =>
      fassert (Bool.eqb x (f y z)))))) ks).

  (** [test_union_overlaps_u8], [test_intersection_overlaps_u8]: set.rs:613-620,
      649-657; inclusive_set.rs:644-651, 680-688.  [pieces] is the union or
      intersection iterator, [t] the set being built. *)
  Fixpoint t_disjoint {P O R} (pieces : M P (option R)) (overlapping : T -> R -> outcome O)
    (ov : O -> option R * O) (insert : R -> M T unit) (fuel : nat) (p : P) (t : T) : outcome unit :=
    match fuel with
    | 0 => OutOfFuel
    | S fuel' =>
        let (o, p') := pieces p in
        obind o (fun x =>
        match x with
        | None => Ret tt
        | Some r =>
            obind (overlapping t r) (fun o =>
            obind (fassert (match fst (ov o) with None => true | Some _ => false end)) (fun _ =>
            let (u, t') := insert r t in
            obind u (fun _ => t_disjoint pieces overlapping ov insert fuel' p' t')))
        end)
    end.
End Bodies.

(** ** map.rs *)
Section Map.
  Context {K V : Type} (cmp : K -> K -> comparison) (veqb : V -> V -> bool).
  Notation T := (rmap K V).
  (** [impl Arbitrary for RangeMap] map.rs:861-874: [collect] of the generated ranges *)
  Definition given_map (l : list (range K * V)) (f : T -> outcome unit) : outcome unit :=
    obind (rm_from_iter cmp veqb l) f.
  (** [==] of [(&Range<K>, &V)] and of [(Range<K>, V)] *)
  Definition e_eqb (x y : range K * V) : bool := r_eqb cmp (fst x) (fst y) && veqb (snd x) (snd y).
  (** [test_first] map.rs:877-882 *)
  Definition map_first fuel l := given_map l
    (t_extreme e_eqb (min_by (fun x y => cmp (r_start (fst x)) (r_start (fst y)))) rm_first_range_value rm_iter it_next fuel).
  (** [test_last] map.rs:896-901 *)
  Definition map_last fuel l := given_map l
    (t_extreme e_eqb (max_by (fun x y => cmp (r_end (fst x)) (r_end (fst y)))) rm_last_range_value rm_iter it_next fuel).
  (** [test_len] map.rs:886-893 *)
  Definition map_len fuel l := given_map l (t_len rm_len rm_is_empty rm_clear rm_iter it_next fuel).
  (** [test_iter_reversible] map.rs:904-909 *)
  Definition map_iter_reversible fuel l := given_map l (fun m =>
    t_reversible e_eqb (Ret (rm_iter m)) it_next it_next_back fuel).
  (** [test_into_iter_reversible] map.rs:912-917 *)
  Definition map_into_iter_reversible fuel l := given_map l (fun m =>
    t_reversible e_eqb (Ret (rm_into_iter m)) it_next it_next_back fuel).
  (** [test_overlapping_reversible] map.rs:920-925 *)
  Definition map_overlapping_reversible fuel l (q : range K) := given_map l (fun m =>
    t_reversible e_eqb (rm_overlapping cmp m q) (ov_next cmp) (ov_next_back cmp) fuel).
  (** [test_arbitrary_map_u8] map.rs:928-950 *)
  Definition map_arbitrary_test (ks : list K) (l : list (range K * V)) : outcome unit :=
    let ranges := filter (fun e => negb (eqb cmp (r_start (fst e)) (r_end (fst e)))) l in
    let (o, m) := for_each (fun e => rm_insert cmp veqb (fst e) (snd e)) ranges rm_new in
    obind o (fun _ => for_keys (fun k =>
      obind (rm_get cmp m k) (fun g =>
      fassert (option_eqb veqb g (option_map snd (find (fun e => r_contains cmp (fst e) k) (rev ranges)))))) ks).
  (** [test_hash] map.rs:954-977; [SipHasher]: any function of what is written *)
  Definition map_hash {W H} (heqb : H -> H -> bool) (hk : K -> list W) (hv : V -> list W)
    (sip : list (hwrite W) -> H) l r := given_map l (fun left => given_map r (fun right =>
    t_hash heqb (rm_eqb cmp veqb) (fun m => sip (rm_hash hk hv m)) left right)).
  (** [test_ord] map.rs:980-991 *)
  Definition map_ord vcmp pcmp vpcmp l r := given_map l (fun left => given_map r (fun right =>
    t_ord (rm_eqb cmp veqb) (rm_cmp cmp vcmp) (rm_partial_cmp pcmp vpcmp) left right)).
  (** [quickcheck!] map.rs:1842-1846 *)
  Definition map_self l := obind (rm_arbitrary cmp veqb l) (t_self (rm_eqb cmp veqb)).
End Map.

(** ** inclusive_map.rs *)
Section IMap.
  Context {K V : Type} (cmp : K -> K -> comparison) (veqb : V -> V -> bool) (st : stepfns K).
  Notation T := (imap K V).
  (** [impl Arbitrary for RangeInclusiveMap] inclusive_map.rs:977-990 *)
  Definition given_imap (l : list (rangei K * V)) (f : T -> outcome unit) : outcome unit :=
    obind (im_from_iter cmp veqb st l) f.
  Definition ei_eqb (x y : rangei K * V) : bool := ri_eqb cmp (fst x) (fst y) && veqb (snd x) (snd y).
  (** [test_first] inclusive_map.rs:1004-1009, 1996-2001 *)
  Definition imap_first fuel l := given_imap l
    (t_extreme ei_eqb (min_by (fun x y => cmp (ri_start (fst x)) (ri_start (fst y)))) im_first_range_value im_iter it_next fuel).
  (** [test_last] inclusive_map.rs:1012-1017, 2004-2009 *)
  Definition imap_last fuel l := given_imap l
    (t_extreme ei_eqb (max_by (fun x y => cmp (ri_end (fst x)) (ri_end (fst y)))) im_last_range_value im_iter it_next fuel).
  (** [test_len] inclusive_map.rs:994-1001, 1986-1993 *)
  Definition imap_len fuel l := given_imap l (t_len im_len im_is_empty im_clear im_iter it_next fuel).
  (** [test_iter_reversible] inclusive_map.rs:1020-1025, 2012-2017 *)
  Definition imap_iter_reversible fuel l := given_imap l (fun m =>
    t_reversible ei_eqb (Ret (im_iter m)) it_next it_next_back fuel).
  (** [test_into_iter_reversible] inclusive_map.rs:1028-1033, 2020-2025 *)
  Definition imap_into_iter_reversible fuel l := given_imap l (fun m =>
    t_reversible ei_eqb (Ret (im_into_iter m)) it_next it_next_back fuel).
  (** [test_overlapping_reversible] inclusive_map.rs:1036-1044, 2028-2036 *)
  Definition imap_overlapping_reversible fuel l (q : rangei K) := given_imap l (fun m =>
    t_reversible ei_eqb (im_overlapping cmp m q) (ovi_next cmp) (ovi_next_back cmp) fuel).
  (** [test_arbitrary_map_u8] inclusive_map.rs:1047-1069 *)
  Definition imap_arbitrary_test (ks : list K) (l : list (rangei K * V)) : outcome unit :=
    let ranges := filter (fun e => negb (eqb cmp (ri_start (fst e)) (ri_end (fst e)))) l in
    let (o, m) := for_each (fun e => im_insert cmp veqb st (fst e) (snd e)) ranges im_new in
    obind o (fun _ => for_keys (fun k =>
      obind (im_get cmp m k) (fun g =>
      fassert (option_eqb veqb g (option_map snd (find (fun e => ri_contains cmp (fst e) k) (rev ranges)))))) ks).
  (** [test_hash] inclusive_map.rs:1073-1096, 2040-2063 *)
  Definition imap_hash {W H} (heqb : H -> H -> bool) (hk : K -> list W) (hb : bool -> list W) (hv : V -> list W)
    (sip : list (hwrite W) -> H) l r := given_imap l (fun left => given_imap r (fun right =>
    t_hash heqb (im_eqb cmp veqb) (fun m => sip (im_hash hk hb hv m)) left right)).
  (** [test_ord] inclusive_map.rs:1099-1110, 2066-2077 *)
  Definition imap_ord vcmp pcmp vpcmp l r := given_imap l (fun left => given_imap r (fun right =>
    t_ord (im_eqb cmp veqb) (im_cmp cmp vcmp) (im_partial_cmp pcmp vpcmp) left right)).
  (** [quickcheck!] inclusive_map.rs:1971-1975 *)
  Definition imap_self l := obind (im_arbitrary cmp veqb st l) (t_self (im_eqb cmp veqb)).
End IMap.

(** ** set.rs *)
Section RSet.
  Context {K : Type} (cmp : K -> K -> comparison).
  Notation T := (rset K).
  (** [filter_ranges] set.rs:531-536 *)
  Definition filter_ranges (l : list (range K)) : list (range K) :=
    filter (fun r => negb (eqb cmp (r_start r) (r_end r))) l.
  (** [impl Arbitrary for RangeSet] set.rs:466-483 *)
  Definition given_set (l : list (range K)) (f : T -> outcome unit) : outcome unit :=
    obind (rs_from_iter cmp (filter_ranges l)) f.
  (** [test_first] set.rs:486-488 *)
  Definition set_first fuel l := given_set l
    (t_extreme (r_eqb cmp) (min_by (fun x y => cmp (r_start x) (r_start y))) rs_first rs_iter rs_iter_next fuel).
  (** [test_last] set.rs:502-504 *)
  Definition set_last fuel l := given_set l
    (t_extreme (r_eqb cmp) (max_by (fun x y => cmp (r_end x) (r_end y))) rs_last rs_iter rs_iter_next fuel).
  (** [test_len] set.rs:492-499 *)
  Definition set_len fuel l := given_set l (t_len rs_len rs_is_empty rs_clear rs_iter rs_iter_next fuel).
  (** [test_iter_reversible] set.rs:507-512 *)
  Definition set_iter_reversible fuel l := given_set l (fun s =>
    t_reversible (r_eqb cmp) (Ret (rs_iter s)) rs_iter_next rs_iter_next_back fuel).
  (** [test_into_iter_reversible] set.rs:515-520 *)
  Definition set_into_iter_reversible fuel l := given_set l (fun s =>
    t_reversible (r_eqb cmp) (Ret (rs_into_iter s)) rs_iter_next rs_iter_next_back fuel).
  (** [test_overlapping_reversible] set.rs:523-528 *)
  Definition set_overlapping_reversible fuel l (q : range K) := given_set l (fun s =>
    t_reversible (r_eqb cmp) (rs_overlapping cmp s q) (rs_ov_next cmp) (rs_ov_next_back cmp) fuel).
  (** [test_arbitrary_set_u8] set.rs:539-552 *)
  Definition set_arbitrary_test (ks : list K) (l : list (range K)) : outcome unit :=
    let ranges := filter_ranges l in
    let (o, s) := for_each (rs_insert cmp) ranges rs_new in
    obind o (fun _ => for_keys (fun k =>
      obind (rs_contains cmp s k) (fun g =>
      fassert (Bool.eqb g (existsb (fun r => r_contains cmp r k) ranges)))) ks).
  (** [test_hash] set.rs:556-579 *)
  Definition set_hash {W H} (heqb : H -> H -> bool) (hk : K -> list W)
    (sip : list (hwrite W) -> H) l r := given_set l (fun left => given_set r (fun right =>
    t_hash heqb (rs_eqb cmp) (fun s => sip (rs_hash hk s)) left right)).
  (** [test_ord] set.rs:582-593 *)
  Definition set_ord pcmp l r := given_set l (fun left => given_set r (fun right =>
    t_ord (rs_eqb cmp) (rs_cmp cmp) (rs_partial_cmp pcmp) left right)).
  (** [quickcheck!] set.rs:810-814 *)
  Definition set_self l := obind (rs_arbitrary cmp l) (t_self (rs_eqb cmp)).
  (** [test_union_overlaps_u8] set.rs:613-620 *)
  Definition set_union_overlaps fuel l r := given_set l (fun left => given_set r (fun right =>
    t_disjoint (rs_union_next cmp) (rs_overlapping cmp) (rs_ov_next cmp) (rs_insert cmp) fuel (rs_union left right) rs_new)).
  (** [test_intersection_overlaps_u8] set.rs:649-657 *)
  Definition set_intersection_overlaps fuel l r := given_set l (fun left => given_set r (fun right =>
    t_disjoint (rs_intersection_next cmp) (rs_overlapping cmp) (rs_ov_next cmp) (rs_insert cmp) fuel
      (rs_intersection left right) rs_new)).
  (** [test_union_contains_u8] set.rs:623-633 *)
  Definition set_union_contains ks l r := given_set l (fun left => given_set r (fun right =>
    t_combine (rs_bitor cmp) (rs_contains cmp) orb ks left right)).
  (** [test_intersection_contains_u8] set.rs:636-646 *)
  Definition set_intersection_contains ks l r := given_set l (fun left => given_set r (fun right =>
    t_combine (rs_bitand cmp) (rs_contains cmp) andb ks left right)).
End RSet.

(** ** inclusive_set.rs *)
Section ISet.
  Context {K : Type} (cmp : K -> K -> comparison) (st : stepfns K).
  Notation T := (iset K).
  (** [impl Arbitrary for RangeInclusiveSet] inclusive_set.rs:500-512 *)
  Definition given_iset (l : list (rangei K)) (f : T -> outcome unit) : outcome unit :=
    obind (is_from_iter cmp st l) f.
  (** [test_first] inclusive_set.rs:515-517, 860-862 *)
  Definition iset_first fuel l := given_iset l
    (t_extreme (ri_eqb cmp) (min_by (fun x y => cmp (ri_start x) (ri_start y))) is_first is_iter is_iter_next fuel).
  (** [test_last] inclusive_set.rs:531-533, 876-878 *)
  Definition iset_last fuel l := given_iset l
    (t_extreme (ri_eqb cmp) (max_by (fun x y => cmp (ri_end x) (ri_end y))) is_last is_iter is_iter_next fuel).
  (** [test_len] inclusive_set.rs:521-528, 866-873 *)
  Definition iset_len fuel l := given_iset l (t_len is_len is_is_empty is_clear is_iter is_iter_next fuel).
  (** [test_iter_reversible] inclusive_set.rs:536-541, 881-886 *)
  Definition iset_iter_reversible fuel l := given_iset l (fun s =>
    t_reversible (ri_eqb cmp) (Ret (is_iter s)) is_iter_next is_iter_next_back fuel).
  (** [test_into_iter_reversible] inclusive_set.rs:544-549, 889-894 *)
  Definition iset_into_iter_reversible fuel l := given_iset l (fun s =>
    t_reversible (ri_eqb cmp) (Ret (is_into_iter s)) is_iter_next is_iter_next_back fuel).
  (** [test_overlapping_reversible] inclusive_set.rs:552-557, 897-902 *)
  Definition iset_overlapping_reversible fuel l (q : rangei K) := given_iset l (fun s =>
    t_reversible (ri_eqb cmp) (is_overlapping cmp s q) (is_ov_next cmp) (is_ov_next_back cmp) fuel).
  (** [test_arbitrary_set_u8] inclusive_set.rs:568-583, [filter_ranges] 560-565 *)
  Definition iset_arbitrary_test (ks : list K) (l : list (rangei K)) : outcome unit :=
    let ranges := filter (fun r => negb (eqb cmp (ri_start r) (ri_end r))) l in
    let (o, s) := for_each (is_insert cmp st) ranges is_new in
    obind o (fun _ => for_keys (fun k =>
      obind (is_contains cmp s k) (fun g =>
      fassert (Bool.eqb g (existsb (fun r => ri_contains cmp r k) ranges)))) ks).
  (** [test_hash] inclusive_set.rs:587-610 *)
  Definition iset_hash {W H} (heqb : H -> H -> bool) (hk : K -> list W) (hb : bool -> list W)
    (sip : list (hwrite W) -> H) l r := given_iset l (fun left => given_iset r (fun right =>
    t_hash heqb (is_eqb cmp) (fun s => sip (is_hash hk hb s)) left right)).
  (** [test_ord] inclusive_set.rs:613-624 *)
  Definition iset_ord pcmp l r := given_iset l (fun left => given_iset r (fun right =>
    t_ord (is_eqb cmp) (is_cmp cmp) (is_partial_cmp pcmp) left right)).
  (** [quickcheck!] inclusive_set.rs:844-848 *)
  Definition iset_self l := obind (is_arbitrary cmp st l) (t_self (is_eqb cmp)).
  (** [test_union_overlaps_u8] inclusive_set.rs:644-651 *)
  Definition iset_union_overlaps fuel l r := given_iset l (fun left => given_iset r (fun right =>
    t_disjoint (is_union_next cmp) (is_overlapping cmp) (is_ov_next cmp) (is_insert cmp st) fuel (is_union left right) is_new)).
  (** [test_intersection_overlaps_u8] inclusive_set.rs:680-688 *)
  Definition iset_intersection_overlaps fuel l r := given_iset l (fun left => given_iset r (fun right =>
    t_disjoint (is_intersection_next cmp) (is_overlapping cmp) (is_ov_next cmp) (is_insert cmp st) fuel
      (is_intersection left right) is_new)).
  (** [test_union_contains_u8] inclusive_set.rs:654-664 *)
  Definition iset_union_contains ks l r := given_iset l (fun left => given_iset r (fun right =>
    t_combine (is_bitor cmp st) (is_contains cmp) orb ks left right)).
  (** [test_intersection_contains_u8] inclusive_set.rs:667-677 *)
  Definition iset_intersection_contains ks l r := given_iset l (fun left => given_iset r (fun right =>
    t_combine (is_bitand cmp st) (is_contains cmp) andb ks left right)).
End ISet.

(** ** std_ext.rs, with [NotNan<f64>] or [NotNan<f32>] *)
Section Floats.
  Context (E M : Z).
  (** [is_finite] (core), std_ext.rs:343, 350 *)
  Definition f_is_finite (x : fkey E M) : bool :=
    match f_decode E M (proj1_sig x) with
    | SpecFloat.S754_zero _ | SpecFloat.S754_finite _ _ _ => true
    | _ => false
    end.
  Notation up x := (farith (add_one (float_steps E M) x)).
  Notation down x := (farith (sub_one (float_steps E M) x)).
  (** [steps_are_reversible] std_ext.rs:341-346; [prop_assume!] passes over the
      other inputs. *)
  Definition steps_are_reversible (x : fkey E M) : outcome unit :=
    if f_is_finite x then
      obind (obind (up x) (fun y => down y)) (fun z =>
      obind (fassert (is_eq (fcmp E M z x))) (fun _ =>
      obind (obind (down x) (fun y => up y)) (fun z =>
      fassert (is_eq (fcmp E M z x)))))
    else Ret tt.
  (** [steps_move_in_the_right_direction] std_ext.rs:349-353 *)
  Definition steps_move_in_the_right_direction (x : fkey E M) : outcome unit :=
    if f_is_finite x then
      obind (up x) (fun y =>
      obind (fassert (gtb (fcmp E M) y x)) (fun _ =>
      obind (down x) (fun y =>
      fassert (ltb (fcmp E M) y x))))
    else Ret tt.
End Floats.
