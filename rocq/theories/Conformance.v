(** The crate's own unit tests, run on the model: what the authors assert of the
    code holds of the model.  Each example translates the test at the cited
    lines (calls, then assertions; [completes]: no call panicked).  Keys are
    integers in [Z]; [st8], [st32], [st64] are the steps of [u8], [u32], [u64]
    with overflow checks.  Left out are only [always_default] (four tests, no
    assertion), the [const] items checking that [new] is a [const fn], and the
    randomised [proptest]s, whose assertions are instances of the properties.
    This file is evidence that the model is the code's, not a property. *)
From Coq Require Import List Bool ZArith String.
From Verif Require Import Order Outcome BTree Ranges History Spec MapModel IMapModel SetModel ISetModel OpsModel
  StepModel DebugModel DebugFacts DenseModel.
Import ListNotations.
Local Open Scope Z_scope.

Definition bounded (lo hi : Z) : stepfns Z :=
  mkStep (fun z => if z <? hi then Some (z + 1) else None) (fun z => if lo <? z then Some (z - 1) else None).
Definition st8 : stepfns Z := bounded 0 255.
Definition st32 : stepfns Z := bounded 0 (2 ^ 32 - 1).
Definition st64 : stepfns Z := bounded 0 (2 ^ 64 - 1).
Definition bool_cmp (a b : bool) : comparison :=
  match a, b with false, true => Lt | true, false => Gt | _, _ => Eq end.
Definition returns {A} (o : outcome A) : bool := match o with Ret _ => true | _ => false end.
Fixpoint completes {S O} (exec : O -> M S unit) (ops : list O) (s : S) : bool :=
  match ops with
  | [] => true
  | o :: ops' => let (r, s') := exec o s in returns r && completes exec ops' s'
  end.

(** map.rs:994-1002 *)
Example m_test_from_array :
  omap (rm_eqb Z.compare String.eqb (rm_run Z.compare String.eqb [OInsert (mkR 0 100) "hello"%string; OInsert (mkR 200 300) "world"%string])) (rm_from_array Z.compare String.eqb [((mkR 0 100), "hello"%string); ((mkR 200 300), "world"%string)]) = Ret true /\
  completes (rm_exec Z.compare String.eqb) [OInsert (mkR 0 100) "hello"%string; OInsert (mkR 200 300) "world"%string] [] = true.
Proof. vm_compute. repeat split. Qed.

(** map.rs:1005-1014 *)
Example m_test_macro :
  omap (rm_eqb (K := Z) Z.compare Z.eqb rm_new) (rm_from_array Z.compare Z.eqb []) = Ret true /\
  obind (rm_from_array Z.compare String.eqb [((mkR 0 100), "abc"%string); ((mkR 100 200), "def"%string); ((mkR 200 300), "ghi"%string)]) (fun a => omap (rm_eqb Z.compare String.eqb a) (rm_from_iter Z.compare String.eqb [((mkR 0 100), "abc"%string); ((mkR 100 200), "def"%string); ((mkR 200 300), "ghi"%string)])) = Ret true.
Proof. vm_compute. repeat split. Qed.

(** map.rs:1035-1038 *)
Example m_empty_map_is_empty :
  rm_iter (rm_run Z.compare Bool.eqb []) = [].
Proof. vm_compute. repeat split. Qed.

(** map.rs:1041-1045 *)
Example m_insert_into_empty_map :
  rm_iter (rm_run Z.compare Bool.eqb [OInsert (mkR 0 50) false]) = [((mkR 0 50), false)] /\
  completes (rm_exec Z.compare Bool.eqb) [OInsert (mkR 0 50) false] [] = true.
Proof. vm_compute. repeat split. Qed.

(** map.rs:1048-1059 *)
Example m_new_same_value_immediately_following_stored :
  rm_iter (rm_run Z.compare Bool.eqb [OInsert (mkR 1 3) false; OInsert (mkR 3 5) false]) = [((mkR 1 5), false)] /\
  completes (rm_exec Z.compare Bool.eqb) [OInsert (mkR 1 3) false; OInsert (mkR 3 5) false] [] = true.
Proof. vm_compute. repeat split. Qed.

(** map.rs:1062-1074 *)
Example m_new_different_value_immediately_following_stored :
  rm_iter (rm_run Z.compare Bool.eqb [OInsert (mkR 1 3) false; OInsert (mkR 3 5) true]) = [((mkR 1 3), false); ((mkR 3 5), true)] /\
  completes (rm_exec Z.compare Bool.eqb) [OInsert (mkR 1 3) false; OInsert (mkR 3 5) true] [] = true.
Proof. vm_compute. repeat split. Qed.

(** map.rs:1077-1088 *)
Example m_new_same_value_overlapping_end_of_stored :
  rm_iter (rm_run Z.compare Bool.eqb [OInsert (mkR 1 4) false; OInsert (mkR 3 5) false]) = [((mkR 1 5), false)] /\
  completes (rm_exec Z.compare Bool.eqb) [OInsert (mkR 1 4) false; OInsert (mkR 3 5) false] [] = true.
Proof. vm_compute. repeat split. Qed.

(** map.rs:1091-1103 *)
Example m_new_different_value_overlapping_end_of_stored :
  rm_iter (rm_run Z.compare Bool.eqb [OInsert (mkR 1 4) false; OInsert (mkR 3 5) true]) = [((mkR 1 3), false); ((mkR 3 5), true)] /\
  completes (rm_exec Z.compare Bool.eqb) [OInsert (mkR 1 4) false; OInsert (mkR 3 5) true] [] = true.
Proof. vm_compute. repeat split. Qed.

(** map.rs:1106-1117 *)
Example m_new_same_value_immediately_preceding_stored :
  rm_iter (rm_run Z.compare Bool.eqb [OInsert (mkR 3 5) false; OInsert (mkR 1 3) false]) = [((mkR 1 5), false)] /\
  completes (rm_exec Z.compare Bool.eqb) [OInsert (mkR 3 5) false; OInsert (mkR 1 3) false] [] = true.
Proof. vm_compute. repeat split. Qed.

(** map.rs:1120-1132 *)
Example m_new_different_value_immediately_preceding_stored :
  rm_iter (rm_run Z.compare Bool.eqb [OInsert (mkR 3 5) true; OInsert (mkR 1 3) false]) = [((mkR 1 3), false); ((mkR 3 5), true)] /\
  completes (rm_exec Z.compare Bool.eqb) [OInsert (mkR 3 5) true; OInsert (mkR 1 3) false] [] = true.
Proof. vm_compute. repeat split. Qed.

(** map.rs:1135-1146 *)
Example m_new_same_value_wholly_inside_stored :
  rm_iter (rm_run Z.compare Bool.eqb [OInsert (mkR 1 5) false; OInsert (mkR 2 4) false]) = [((mkR 1 5), false)] /\
  completes (rm_exec Z.compare Bool.eqb) [OInsert (mkR 1 5) false; OInsert (mkR 2 4) false] [] = true.
Proof. vm_compute. repeat split. Qed.

(** map.rs:1149-1165 *)
Example m_new_different_value_wholly_inside_stored :
  rm_iter (rm_run Z.compare Bool.eqb [OInsert (mkR 1 5) true; OInsert (mkR 2 4) false]) = [((mkR 1 2), true); ((mkR 2 4), false); ((mkR 4 5), true)] /\
  completes (rm_exec Z.compare Bool.eqb) [OInsert (mkR 1 5) true; OInsert (mkR 2 4) false] [] = true.
Proof. vm_compute. repeat split. Qed.

(** map.rs:1168-1182 *)
Example m_replace_at_end_of_existing_range_should_coalesce :
  rm_iter (rm_run Z.compare Bool.eqb [OInsert (mkR 1 3) false; OInsert (mkR 3 5) true; OInsert (mkR 3 5) false]) = [((mkR 1 5), false)] /\
  completes (rm_exec Z.compare Bool.eqb) [OInsert (mkR 1 3) false; OInsert (mkR 3 5) true; OInsert (mkR 3 5) false] [] = true.
Proof. vm_compute. repeat split. Qed.

(** map.rs:1230-1235 *)
Example m_get :
  rm_get Z.compare (rm_run Z.compare Bool.eqb [OInsert (mkR 0 50) false]) 49 = Ret (Some false) /\
  rm_get Z.compare (rm_run Z.compare Bool.eqb [OInsert (mkR 0 50) false]) 50 = Ret (None) /\
  completes (rm_exec Z.compare Bool.eqb) [OInsert (mkR 0 50) false] [] = true.
Proof. vm_compute. repeat split. Qed.

(** map.rs:1238-1243 *)
Example m_get_key_value :
  rm_get_key_value Z.compare (rm_run Z.compare Bool.eqb [OInsert (mkR 0 50) false]) 49 = Ret (Some ((mkR 0 50), false)) /\
  rm_get_key_value Z.compare (rm_run Z.compare Bool.eqb [OInsert (mkR 0 50) false]) 50 = Ret (None) /\
  completes (rm_exec Z.compare Bool.eqb) [OInsert (mkR 0 50) false] [] = true.
Proof. vm_compute. repeat split. Qed.

(** map.rs:1250-1254 *)
Example m_remove_from_empty_map :
  rm_iter (rm_run Z.compare Bool.eqb [ORemove (mkR 0 50)]) = [] /\
  completes (rm_exec Z.compare Bool.eqb) [ORemove (mkR 0 50)] [] = true.
Proof. vm_compute. repeat split. Qed.

(** map.rs:1257-1262 *)
Example m_remove_non_covered_range_before_stored :
  rm_iter (rm_run Z.compare Bool.eqb [OInsert (mkR 25 75) false; ORemove (mkR 0 25)]) = [((mkR 25 75), false)] /\
  completes (rm_exec Z.compare Bool.eqb) [OInsert (mkR 25 75) false; ORemove (mkR 0 25)] [] = true.
Proof. vm_compute. repeat split. Qed.

(** map.rs:1265-1270 *)
Example m_remove_non_covered_range_after_stored :
  rm_iter (rm_run Z.compare Bool.eqb [OInsert (mkR 25 75) false; ORemove (mkR 75 100)]) = [((mkR 25 75), false)] /\
  completes (rm_exec Z.compare Bool.eqb) [OInsert (mkR 25 75) false; ORemove (mkR 75 100)] [] = true.
Proof. vm_compute. repeat split. Qed.

(** map.rs:1273-1278 *)
Example m_remove_overlapping_start_of_stored :
  rm_iter (rm_run Z.compare Bool.eqb [OInsert (mkR 25 75) false; ORemove (mkR 0 30)]) = [((mkR 30 75), false)] /\
  completes (rm_exec Z.compare Bool.eqb) [OInsert (mkR 25 75) false; ORemove (mkR 0 30)] [] = true.
Proof. vm_compute. repeat split. Qed.

(** map.rs:1281-1286 *)
Example m_remove_middle_of_stored :
  rm_iter (rm_run Z.compare Bool.eqb [OInsert (mkR 25 75) false; ORemove (mkR 30 70)]) = [((mkR 25 30), false); ((mkR 70 75), false)] /\
  completes (rm_exec Z.compare Bool.eqb) [OInsert (mkR 25 75) false; ORemove (mkR 30 70)] [] = true.
Proof. vm_compute. repeat split. Qed.

(** map.rs:1289-1294 *)
Example m_remove_overlapping_end_of_stored :
  rm_iter (rm_run Z.compare Bool.eqb [OInsert (mkR 25 75) false; ORemove (mkR 70 100)]) = [((mkR 25 70), false)] /\
  completes (rm_exec Z.compare Bool.eqb) [OInsert (mkR 25 75) false; ORemove (mkR 70 100)] [] = true.
Proof. vm_compute. repeat split. Qed.

(** map.rs:1297-1302 *)
Example m_remove_exactly_stored :
  rm_iter (rm_run Z.compare Bool.eqb [OInsert (mkR 25 75) false; ORemove (mkR 25 75)]) = [] /\
  completes (rm_exec Z.compare Bool.eqb) [OInsert (mkR 25 75) false; ORemove (mkR 25 75)] [] = true.
Proof. vm_compute. repeat split. Qed.

(** map.rs:1305-1310 *)
Example m_remove_superset_of_stored :
  rm_iter (rm_run Z.compare Bool.eqb [OInsert (mkR 25 75) false; ORemove (mkR 0 100)]) = [] /\
  completes (rm_exec Z.compare Bool.eqb) [OInsert (mkR 25 75) false; ORemove (mkR 0 100)] [] = true.
Proof. vm_compute. repeat split. Qed.

(** map.rs:1315-1329 *)
Example m_whole_range_is_a_gap :
  omap (nexts (gp_next Z.compare) 4) (rm_gaps Z.compare (rm_run Z.compare unit_eqb []) (mkR 1 8)) = Ret [Some (mkR 1 8); None; None; None].
Proof. vm_compute. repeat split. Qed.

(** map.rs:1332-1346 *)
Example m_whole_range_is_covered_exactly :
  omap (nexts (gp_next Z.compare) 3) (rm_gaps Z.compare (rm_run Z.compare unit_eqb [OInsert (mkR 1 6) tt]) (mkR 1 6)) = Ret [None; None; None] /\
  completes (rm_exec Z.compare unit_eqb) [OInsert (mkR 1 6) tt] [] = true.
Proof. vm_compute. repeat split. Qed.

(** map.rs:1349-1364 *)
Example m_item_before_outer_range :
  omap (nexts (gp_next Z.compare) 4) (rm_gaps Z.compare (rm_run Z.compare unit_eqb [OInsert (mkR 1 3) tt]) (mkR 5 8)) = Ret [Some (mkR 5 8); None; None; None] /\
  completes (rm_exec Z.compare unit_eqb) [OInsert (mkR 1 3) tt] [] = true.
Proof. vm_compute. repeat split. Qed.

(** map.rs:1367-1382 *)
Example m_item_touching_start_of_outer_range :
  omap (nexts (gp_next Z.compare) 4) (rm_gaps Z.compare (rm_run Z.compare unit_eqb [OInsert (mkR 1 5) tt]) (mkR 5 8)) = Ret [Some (mkR 5 8); None; None; None] /\
  completes (rm_exec Z.compare unit_eqb) [OInsert (mkR 1 5) tt] [] = true.
Proof. vm_compute. repeat split. Qed.

(** map.rs:1385-1401 *)
Example m_item_overlapping_start_of_outer_range :
  omap (nexts (gp_next Z.compare) 4) (rm_gaps Z.compare (rm_run Z.compare unit_eqb [OInsert (mkR 1 6) tt]) (mkR 5 8)) = Ret [Some (mkR 6 8); None; None; None] /\
  completes (rm_exec Z.compare unit_eqb) [OInsert (mkR 1 6) tt] [] = true.
Proof. vm_compute. repeat split. Qed.

(** map.rs:1404-1419 *)
Example m_item_starting_at_start_of_outer_range :
  omap (nexts (gp_next Z.compare) 4) (rm_gaps Z.compare (rm_run Z.compare unit_eqb [OInsert (mkR 5 6) tt]) (mkR 5 8)) = Ret [Some (mkR 6 8); None; None; None] /\
  completes (rm_exec Z.compare unit_eqb) [OInsert (mkR 5 6) tt] [] = true.
Proof. vm_compute. repeat split. Qed.

(** map.rs:1422-1443 *)
Example m_items_floating_inside_outer_range :
  omap (nexts (gp_next Z.compare) 6) (rm_gaps Z.compare (rm_run Z.compare unit_eqb [OInsert (mkR 5 6) tt; OInsert (mkR 3 4) tt]) (mkR 1 8)) = Ret [Some (mkR 1 3); Some (mkR 4 5); Some (mkR 6 8); None; None; None] /\
  completes (rm_exec Z.compare unit_eqb) [OInsert (mkR 5 6) tt; OInsert (mkR 3 4) tt] [] = true.
Proof. vm_compute. repeat split. Qed.

(** map.rs:1446-1462 *)
Example m_item_ending_at_end_of_outer_range :
  omap (nexts (gp_next Z.compare) 4) (rm_gaps Z.compare (rm_run Z.compare unit_eqb [OInsert (mkR 7 8) tt]) (mkR 5 8)) = Ret [Some (mkR 5 7); None; None; None] /\
  completes (rm_exec Z.compare unit_eqb) [OInsert (mkR 7 8) tt] [] = true.
Proof. vm_compute. repeat split. Qed.

(** map.rs:1465-1481 *)
Example m_item_overlapping_end_of_outer_range :
  omap (nexts (gp_next Z.compare) 4) (rm_gaps Z.compare (rm_run Z.compare unit_eqb [OInsert (mkR 4 6) tt]) (mkR 2 5)) = Ret [Some (mkR 2 4); None; None; None] /\
  completes (rm_exec Z.compare unit_eqb) [OInsert (mkR 4 6) tt] [] = true.
Proof. vm_compute. repeat split. Qed.

(** map.rs:1484-1499 *)
Example m_item_touching_end_of_outer_range :
  omap (nexts (gp_next Z.compare) 4) (rm_gaps Z.compare (rm_run Z.compare unit_eqb [OInsert (mkR 4 8) tt]) (mkR 1 4)) = Ret [Some (mkR 1 4); None; None; None] /\
  completes (rm_exec Z.compare unit_eqb) [OInsert (mkR 4 8) tt] [] = true.
Proof. vm_compute. repeat split. Qed.

(** map.rs:1502-1517 *)
Example m_item_after_outer_range :
  omap (nexts (gp_next Z.compare) 4) (rm_gaps Z.compare (rm_run Z.compare unit_eqb [OInsert (mkR 6 7) tt]) (mkR 1 4)) = Ret [Some (mkR 1 4); None; None; None] /\
  completes (rm_exec Z.compare unit_eqb) [OInsert (mkR 6 7) tt] [] = true.
Proof. vm_compute. repeat split. Qed.

(** map.rs:1520-1536 *)
Example m_empty_outer_range_with_items_away_from_both_sides :
  omap (nexts (gp_next Z.compare) 2) (rm_gaps Z.compare (rm_run Z.compare unit_eqb [OInsert (mkR 1 3) tt; OInsert (mkR 5 7) tt]) (mkR 4 4)) = Ret [None; None] /\
  completes (rm_exec Z.compare unit_eqb) [OInsert (mkR 1 3) tt; OInsert (mkR 5 7) tt] [] = true.
Proof. vm_compute. repeat split. Qed.

(** map.rs:1539-1556 *)
Example m_empty_outer_range_with_items_touching_both_sides :
  omap (nexts (gp_next Z.compare) 3) (rm_gaps Z.compare (rm_run Z.compare unit_eqb [OInsert (mkR 2 4) tt; OInsert (mkR 4 6) tt]) (mkR 4 4)) = Ret [None; None; None] /\
  completes (rm_exec Z.compare unit_eqb) [OInsert (mkR 2 4) tt; OInsert (mkR 4 6) tt] [] = true.
Proof. vm_compute. repeat split. Qed.

(** map.rs:1559-1573 *)
Example m_empty_outer_range_with_item_straddling :
  omap (nexts (gp_next Z.compare) 3) (rm_gaps Z.compare (rm_run Z.compare unit_eqb [OInsert (mkR 2 5) tt]) (mkR 4 4)) = Ret [None; None; None] /\
  completes (rm_exec Z.compare unit_eqb) [OInsert (mkR 2 5) tt] [] = true.
Proof. vm_compute. repeat split. Qed.

(** map.rs:1576-1598 *)
Example m_no_empty_gaps :
  omap (nexts (gp_next Z.compare) 5) (rm_gaps Z.compare (rm_run Z.compare Bool.eqb [OInsert (mkR 4 5) true; OInsert (mkR 3 4) false]) (mkR 1 8)) = Ret [Some (mkR 1 3); Some (mkR 5 8); None; None; None] /\
  completes (rm_exec Z.compare Bool.eqb) [OInsert (mkR 4 5) true; OInsert (mkR 3 4) false] [] = true.
Proof. vm_compute. repeat split. Qed.

(** map.rs:1601-1616 *)
Example m_adjacent_small_items :
  omap (nexts (gp_next Z.compare) 3) (rm_gaps Z.compare (rm_run Z.compare Bool.eqb [OInsert (mkR 0 1) false; OInsert (mkR 1 2) true; OInsert (mkR 253 254) false; OInsert (mkR 254 255) true]) (mkR 0 255)) = Ret [Some (mkR 2 253); None; None] /\
  completes (rm_exec Z.compare Bool.eqb) [OInsert (mkR 0 1) false; OInsert (mkR 1 2) true; OInsert (mkR 253 254) false; OInsert (mkR 254 255) true] [] = true.
Proof. vm_compute. repeat split. Qed.

(** map.rs:1620-1633 *)
Example m_outer_range_lies_within_first_of_two_stored_ranges :
  omap (nexts (gp_next Z.compare) 1) (rm_gaps Z.compare (rm_run Z.compare unit_eqb [OInsert (mkR 0 5) tt; OInsert (mkR 6 8) tt]) (mkR 1 3)) = Ret [None] /\
  completes (rm_exec Z.compare unit_eqb) [OInsert (mkR 0 5) tt; OInsert (mkR 6 8) tt] [] = true.
Proof. vm_compute. repeat split. Qed.

(** map.rs:1638-1650 *)
Example m_overlapping_with_empty_map :
  omap (nexts (ov_next Z.compare) 2) (rm_overlapping Z.compare (rm_run Z.compare unit_eqb []) (mkR 1 8)) = Ret [None; None].
Proof. vm_compute. repeat split. Qed.

(** map.rs:1653-1681 *)
Example m_overlapping_partial_edges_complete_middle :
  omap (nexts (ov_next Z.compare) 5) (rm_overlapping Z.compare (rm_run Z.compare unit_eqb [OInsert (mkR 0 2) tt; OInsert (mkR 3 4) tt; OInsert (mkR 5 7) tt]) (mkR 1 6)) = Ret [Some ((mkR 0 2), tt); Some ((mkR 3 4), tt); Some ((mkR 5 7), tt); None; None] /\
  completes (rm_exec Z.compare unit_eqb) [OInsert (mkR 0 2) tt; OInsert (mkR 3 4) tt; OInsert (mkR 5 7) tt] [] = true.
Proof. vm_compute. repeat split. Qed.

(** map.rs:1684-1709 *)
Example m_overlapping_non_overlapping_edges_complete_middle :
  omap (nexts (ov_next Z.compare) 3) (rm_overlapping Z.compare (rm_run Z.compare unit_eqb [OInsert (mkR 0 2) tt; OInsert (mkR 3 4) tt; OInsert (mkR 5 7) tt]) (mkR 2 5)) = Ret [Some ((mkR 3 4), tt); None; None] /\
  completes (rm_exec Z.compare unit_eqb) [OInsert (mkR 0 2) tt; OInsert (mkR 3 4) tt; OInsert (mkR 5 7) tt] [] = true.
Proof. vm_compute. repeat split. Qed.

(** map.rs:1716-1730 *)
Example m_map_debug_repr_looks_right :
  rm_debug show_Z (fun _ : unit => "()"%string) (rm_run Z.compare unit_eqb []) = "{}"%string /\
  rm_debug show_Z (fun _ : unit => "()"%string) (rm_run Z.compare unit_eqb [OInsert (mkR 2 5) tt]) = "{2..5: ()}"%string /\
  rm_debug show_Z (fun _ : unit => "()"%string) (rm_run Z.compare unit_eqb [OInsert (mkR 2 5) tt; OInsert (mkR 6 7) tt; OInsert (mkR 8 9) tt]) = "{2..5: (), 6..7: (), 8..9: ()}"%string /\
  completes (rm_exec Z.compare unit_eqb) [OInsert (mkR 2 5) tt; OInsert (mkR 6 7) tt; OInsert (mkR 8 9) tt] [] = true.
Proof. vm_compute. repeat split. Qed.

(** map.rs:1743-1757 *)
Example m_into_iter_matches_iter :
  rm_iter (rm_run Z.compare Bool.eqb [OInsert (mkR 1 3) false; OInsert (mkR 3 5) true]) = [((mkR 1 3), false); ((mkR 3 5), true)] /\
  rm_iter (rm_run Z.compare Bool.eqb [OInsert (mkR 1 3) false; OInsert (mkR 3 5) true]) = rm_into_iter (rm_run Z.compare Bool.eqb [OInsert (mkR 1 3) false; OInsert (mkR 3 5) true]) /\
  completes (rm_exec Z.compare Bool.eqb) [OInsert (mkR 1 3) false; OInsert (mkR 3 5) true] [] = true.
Proof. vm_compute. repeat split. Qed.

(** map.rs:1761-1777 *)
Example m_eq :
  rm_eqb Z.compare Bool.eqb (rm_run Z.compare Bool.eqb [OInsert (mkR 1 3) false]) (rm_run Z.compare Bool.eqb [OInsert (mkR 1 4) false]) = false /\
  rm_eqb Z.compare Bool.eqb (rm_run Z.compare Bool.eqb [OInsert (mkR 1 4) false]) (rm_run Z.compare Bool.eqb [OInsert (mkR 1 3) false]) = false /\
  rm_eqb Z.compare Bool.eqb (rm_run Z.compare Bool.eqb [OInsert (mkR 1 3) false]) (rm_run Z.compare Bool.eqb [OInsert (mkR 1 3) false]) = true /\
  rm_eqb Z.compare Bool.eqb (rm_run Z.compare Bool.eqb [OInsert (mkR 1 3) false]) (rm_run Z.compare Bool.eqb [OInsert (mkR 1 3) false]) = true /\
  rm_eqb Z.compare Bool.eqb (rm_run Z.compare Bool.eqb [OInsert (mkR 1 3) false]) (rm_run Z.compare Bool.eqb [OInsert (mkR 1 3) false]) = true /\
  completes (rm_exec Z.compare Bool.eqb) [OInsert (mkR 1 3) false] [] = true /\
  completes (rm_exec Z.compare Bool.eqb) [OInsert (mkR 1 4) false] [] = true /\
  completes (rm_exec Z.compare Bool.eqb) [OInsert (mkR 1 3) false] [] = true.
Proof. vm_compute. repeat split. Qed.

(** map.rs:1781-1792 *)
Example m_partial_ord :
  rm_partial_cmp (total Z.compare) (total bool_cmp) (rm_run Z.compare Bool.eqb [OInsert (mkR 1 3) false]) (rm_run Z.compare Bool.eqb [OInsert (mkR 1 3) false]) = Some Eq /\
  rm_partial_cmp (total Z.compare) (total bool_cmp) (rm_run Z.compare Bool.eqb [OInsert (mkR 1 3) false]) (rm_run Z.compare Bool.eqb [OInsert (mkR 1 4) false]) = Some Lt /\
  rm_partial_cmp (total Z.compare) (total bool_cmp) (rm_run Z.compare Bool.eqb [OInsert (mkR 1 4) false]) (rm_run Z.compare Bool.eqb [OInsert (mkR 1 3) false]) = Some Gt /\
  completes (rm_exec Z.compare Bool.eqb) [OInsert (mkR 1 3) false] [] = true /\
  completes (rm_exec Z.compare Bool.eqb) [OInsert (mkR 1 4) false] [] = true.
Proof. vm_compute. repeat split. Qed.

(** map.rs:1795-1806 *)
Example m_ord :
  rm_cmp Z.compare bool_cmp (rm_run Z.compare Bool.eqb [OInsert (mkR 1 3) false]) (rm_run Z.compare Bool.eqb [OInsert (mkR 1 3) false]) = Eq /\
  rm_cmp Z.compare bool_cmp (rm_run Z.compare Bool.eqb [OInsert (mkR 1 3) false]) (rm_run Z.compare Bool.eqb [OInsert (mkR 1 4) false]) = Lt /\
  rm_cmp Z.compare bool_cmp (rm_run Z.compare Bool.eqb [OInsert (mkR 1 4) false]) (rm_run Z.compare Bool.eqb [OInsert (mkR 1 3) false]) = Gt /\
  completes (rm_exec Z.compare Bool.eqb) [OInsert (mkR 1 3) false] [] = true /\
  completes (rm_exec Z.compare Bool.eqb) [OInsert (mkR 1 4) false] [] = true.
Proof. vm_compute. repeat split. Qed.

(** map.rs:1812-1822 *)
Example m_serialization :
  snd (rm_serialize (rm_run Z.compare Bool.eqb [OInsert (mkR 1 3) false; OInsert (mkR 5 7) true])) = [((1, 3), false); ((5, 7), true)] /\
  completes (rm_exec Z.compare Bool.eqb) [OInsert (mkR 1 3) false; OInsert (mkR 5 7) true] [] = true.
Proof. vm_compute. repeat split. Qed.

(** map.rs:1828-1834 *)
Example m_deserialization :
  omap (fun x : unit + _ => match x with inr m => snd (rm_serialize m) | inl _ => [] end) (rm_deserialize Z.compare Bool.eqb (map inr [((1, 3), false); ((5, 7), true)])) = Ret [((1, 3), false); ((5, 7), true)].
Proof. vm_compute. repeat split. Qed.

(** inclusive_map.rs:1113-1121 *)
Example i_test_from_array :
  omap (im_eqb Z.compare String.eqb (im_run Z.compare String.eqb st32 [OInsert (incl 0 100) "hello"%string; OInsert (incl 200 300) "world"%string])) (im_from_array Z.compare String.eqb st32 [((incl 0 100), "hello"%string); ((incl 200 300), "world"%string)]) = Ret true /\
  completes (im_exec Z.compare String.eqb st32) [OInsert (incl 0 100) "hello"%string; OInsert (incl 200 300) "world"%string] [] = true.
Proof. vm_compute. repeat split. Qed.

(** inclusive_map.rs:1124-1136 *)
Example i_test_macro :
  omap (im_eqb (K := Z) Z.compare Z.eqb im_new) (im_from_array Z.compare Z.eqb st32 []) = Ret true /\
  obind (im_from_array Z.compare String.eqb st32 [((incl 0 100), "abc"%string); ((incl 100 200), "def"%string); ((incl 200 300), "ghi"%string)]) (fun a => omap (im_eqb Z.compare String.eqb a) (im_from_iter Z.compare String.eqb st32 [((incl 0 100), "abc"%string); ((incl 100 200), "def"%string); ((incl 200 300), "ghi"%string)])) = Ret true.
Proof. vm_compute. repeat split. Qed.

(** inclusive_map.rs:1157-1160 *)
Example i_empty_map_is_empty :
  im_iter (im_run Z.compare Bool.eqb st32 []) = [].
Proof. vm_compute. repeat split. Qed.

(** inclusive_map.rs:1163-1167 *)
Example i_insert_into_empty_map :
  im_iter (im_run Z.compare Bool.eqb st32 [OInsert (incl 0 50) false]) = [((incl 0 50), false)] /\
  completes (im_exec Z.compare Bool.eqb st32) [OInsert (incl 0 50) false] [] = true.
Proof. vm_compute. repeat split. Qed.

(** inclusive_map.rs:1170-1181 *)
Example i_new_same_value_immediately_following_stored :
  im_iter (im_run Z.compare Bool.eqb st32 [OInsert (incl 1 3) false; OInsert (incl 4 6) false]) = [((incl 1 6), false)] /\
  completes (im_exec Z.compare Bool.eqb st32) [OInsert (incl 1 3) false; OInsert (incl 4 6) false] [] = true.
Proof. vm_compute. repeat split. Qed.

(** inclusive_map.rs:1184-1196 *)
Example i_new_different_value_immediately_following_stored :
  im_iter (im_run Z.compare Bool.eqb st32 [OInsert (incl 1 3) false; OInsert (incl 4 6) true]) = [((incl 1 3), false); ((incl 4 6), true)] /\
  completes (im_exec Z.compare Bool.eqb st32) [OInsert (incl 1 3) false; OInsert (incl 4 6) true] [] = true.
Proof. vm_compute. repeat split. Qed.

(** inclusive_map.rs:1199-1210 *)
Example i_new_same_value_overlapping_end_of_stored :
  im_iter (im_run Z.compare Bool.eqb st32 [OInsert (incl 1 4) false; OInsert (incl 4 6) false]) = [((incl 1 6), false)] /\
  completes (im_exec Z.compare Bool.eqb st32) [OInsert (incl 1 4) false; OInsert (incl 4 6) false] [] = true.
Proof. vm_compute. repeat split. Qed.

(** inclusive_map.rs:1213-1225 *)
Example i_new_different_value_overlapping_end_of_stored :
  im_iter (im_run Z.compare Bool.eqb st32 [OInsert (incl 1 3) false; OInsert (incl 3 5) true]) = [((incl 1 2), false); ((incl 3 5), true)] /\
  completes (im_exec Z.compare Bool.eqb st32) [OInsert (incl 1 3) false; OInsert (incl 3 5) true] [] = true.
Proof. vm_compute. repeat split. Qed.

(** inclusive_map.rs:1228-1239 *)
Example i_new_same_value_immediately_preceding_stored :
  im_iter (im_run Z.compare Bool.eqb st32 [OInsert (incl 3 5) false; OInsert (incl 1 2) false]) = [((incl 1 5), false)] /\
  completes (im_exec Z.compare Bool.eqb st32) [OInsert (incl 3 5) false; OInsert (incl 1 2) false] [] = true.
Proof. vm_compute. repeat split. Qed.

(** inclusive_map.rs:1242-1254 *)
Example i_new_different_value_immediately_preceding_stored :
  im_iter (im_run Z.compare Bool.eqb st32 [OInsert (incl 3 5) true; OInsert (incl 1 2) false]) = [((incl 1 2), false); ((incl 3 5), true)] /\
  completes (im_exec Z.compare Bool.eqb st32) [OInsert (incl 3 5) true; OInsert (incl 1 2) false] [] = true.
Proof. vm_compute. repeat split. Qed.

(** inclusive_map.rs:1257-1268 *)
Example i_new_same_value_wholly_inside_stored :
  im_iter (im_run Z.compare Bool.eqb st32 [OInsert (incl 1 5) false; OInsert (incl 2 4) false]) = [((incl 1 5), false)] /\
  completes (im_exec Z.compare Bool.eqb st32) [OInsert (incl 1 5) false; OInsert (incl 2 4) false] [] = true.
Proof. vm_compute. repeat split. Qed.

(** inclusive_map.rs:1271-1287 *)
Example i_new_different_value_wholly_inside_stored :
  im_iter (im_run Z.compare Bool.eqb st32 [OInsert (incl 1 5) true; OInsert (incl 2 4) false]) = [((incl 1 1), true); ((incl 2 4), false); ((incl 5 5), true)] /\
  completes (im_exec Z.compare Bool.eqb st32) [OInsert (incl 1 5) true; OInsert (incl 2 4) false] [] = true.
Proof. vm_compute. repeat split. Qed.

(** inclusive_map.rs:1290-1304 *)
Example i_replace_at_end_of_existing_range_should_coalesce :
  im_iter (im_run Z.compare Bool.eqb st32 [OInsert (incl 1 3) false; OInsert (incl 4 6) true; OInsert (incl 4 6) false]) = [((incl 1 6), false)] /\
  completes (im_exec Z.compare Bool.eqb st32) [OInsert (incl 1 3) false; OInsert (incl 4 6) true; OInsert (incl 4 6) false] [] = true.
Proof. vm_compute. repeat split. Qed.

(** inclusive_map.rs:1349-1354 *)
Example i_get :
  im_get Z.compare (im_run Z.compare Bool.eqb st32 [OInsert (incl 0 50) false]) 50 = Ret (Some false) /\
  im_get Z.compare (im_run Z.compare Bool.eqb st32 [OInsert (incl 0 50) false]) 51 = Ret (None) /\
  completes (im_exec Z.compare Bool.eqb st32) [OInsert (incl 0 50) false] [] = true.
Proof. vm_compute. repeat split. Qed.

(** inclusive_map.rs:1357-1362 *)
Example i_get_key_value :
  im_get_key_value Z.compare (im_run Z.compare Bool.eqb st32 [OInsert (incl 0 50) false]) 50 = Ret (Some ((incl 0 50), false)) /\
  im_get_key_value Z.compare (im_run Z.compare Bool.eqb st32 [OInsert (incl 0 50) false]) 51 = Ret (None) /\
  completes (im_exec Z.compare Bool.eqb st32) [OInsert (incl 0 50) false] [] = true.
Proof. vm_compute. repeat split. Qed.

(** inclusive_map.rs:1369-1373 *)
Example i_remove_from_empty_map :
  im_iter (im_run Z.compare Bool.eqb st32 [ORemove (incl 0 50)]) = [] /\
  completes (im_exec Z.compare Bool.eqb st32) [ORemove (incl 0 50)] [] = true.
Proof. vm_compute. repeat split. Qed.

(** inclusive_map.rs:1376-1381 *)
Example i_remove_non_covered_range_before_stored :
  im_iter (im_run Z.compare Bool.eqb st32 [OInsert (incl 25 75) false; ORemove (incl 0 24)]) = [((incl 25 75), false)] /\
  completes (im_exec Z.compare Bool.eqb st32) [OInsert (incl 25 75) false; ORemove (incl 0 24)] [] = true.
Proof. vm_compute. repeat split. Qed.

(** inclusive_map.rs:1384-1389 *)
Example i_remove_non_covered_range_after_stored :
  im_iter (im_run Z.compare Bool.eqb st32 [OInsert (incl 25 75) false; ORemove (incl 76 100)]) = [((incl 25 75), false)] /\
  completes (im_exec Z.compare Bool.eqb st32) [OInsert (incl 25 75) false; ORemove (incl 76 100)] [] = true.
Proof. vm_compute. repeat split. Qed.

(** inclusive_map.rs:1392-1397 *)
Example i_remove_overlapping_start_of_stored :
  im_iter (im_run Z.compare Bool.eqb st32 [OInsert (incl 25 75) false; ORemove (incl 0 25)]) = [((incl 26 75), false)] /\
  completes (im_exec Z.compare Bool.eqb st32) [OInsert (incl 25 75) false; ORemove (incl 0 25)] [] = true.
Proof. vm_compute. repeat split. Qed.

(** inclusive_map.rs:1400-1405 *)
Example i_remove_middle_of_stored :
  im_iter (im_run Z.compare Bool.eqb st32 [OInsert (incl 25 75) false; ORemove (incl 30 70)]) = [((incl 25 29), false); ((incl 71 75), false)] /\
  completes (im_exec Z.compare Bool.eqb st32) [OInsert (incl 25 75) false; ORemove (incl 30 70)] [] = true.
Proof. vm_compute. repeat split. Qed.

(** inclusive_map.rs:1408-1413 *)
Example i_remove_overlapping_end_of_stored :
  im_iter (im_run Z.compare Bool.eqb st32 [OInsert (incl 25 75) false; ORemove (incl 75 100)]) = [((incl 25 74), false)] /\
  completes (im_exec Z.compare Bool.eqb st32) [OInsert (incl 25 75) false; ORemove (incl 75 100)] [] = true.
Proof. vm_compute. repeat split. Qed.

(** inclusive_map.rs:1416-1421 *)
Example i_remove_exactly_stored :
  im_iter (im_run Z.compare Bool.eqb st32 [OInsert (incl 25 75) false; ORemove (incl 25 75)]) = [] /\
  completes (im_exec Z.compare Bool.eqb st32) [OInsert (incl 25 75) false; ORemove (incl 25 75)] [] = true.
Proof. vm_compute. repeat split. Qed.

(** inclusive_map.rs:1424-1429 *)
Example i_remove_superset_of_stored :
  im_iter (im_run Z.compare Bool.eqb st32 [OInsert (incl 25 75) false; ORemove (incl 0 100)]) = [] /\
  completes (im_exec Z.compare Bool.eqb st32) [OInsert (incl 25 75) false; ORemove (incl 0 100)] [] = true.
Proof. vm_compute. repeat split. Qed.

(** inclusive_map.rs:1438-1455 *)
Example i_no_overflow_at_key_domain_extremes :
  completes (im_exec Z.compare Bool.eqb st8) [OInsert (incl 0 255) false; OInsert (incl 0 10) true; OInsert (incl 245 255) true; ORemove (incl 0 5); ORemove (incl 0 5); ORemove (incl 250 255); ORemove (incl 250 255); OInsert (incl 0 255) true; ORemove (incl 1 254); OInsert (incl 254 254) true; OInsert (incl 255 255) true; OInsert (incl 255 255) false; OInsert (incl 0 0) false; OInsert (incl 1 1) true; OInsert (incl 0 0) true] [] = true.
Proof. vm_compute. repeat split. Qed.

(** inclusive_map.rs:1460-1474 *)
Example i_whole_range_is_a_gap :
  omap (nexts_m (gpi_next Z.compare st32) 4) (im_gaps Z.compare (im_run Z.compare unit_eqb st32 []) (incl 1 8)) = Ret (map Ret [Some (incl 1 8); None; None; None]).
Proof. vm_compute. repeat split. Qed.

(** inclusive_map.rs:1477-1491 *)
Example i_whole_range_is_covered_exactly :
  omap (nexts_m (gpi_next Z.compare st32) 3) (im_gaps Z.compare (im_run Z.compare unit_eqb st32 [OInsert (incl 1 6) tt]) (incl 1 6)) = Ret (map Ret [None; None; None]) /\
  completes (im_exec Z.compare unit_eqb st32) [OInsert (incl 1 6) tt] [] = true.
Proof. vm_compute. repeat split. Qed.

(** inclusive_map.rs:1494-1509 *)
Example i_item_before_outer_range :
  omap (nexts_m (gpi_next Z.compare st32) 4) (im_gaps Z.compare (im_run Z.compare unit_eqb st32 [OInsert (incl 1 3) tt]) (incl 5 8)) = Ret (map Ret [Some (incl 5 8); None; None; None]) /\
  completes (im_exec Z.compare unit_eqb st32) [OInsert (incl 1 3) tt] [] = true.
Proof. vm_compute. repeat split. Qed.

(** inclusive_map.rs:1512-1527 *)
Example i_item_touching_start_of_outer_range :
  omap (nexts_m (gpi_next Z.compare st32) 4) (im_gaps Z.compare (im_run Z.compare unit_eqb st32 [OInsert (incl 1 4) tt]) (incl 5 8)) = Ret (map Ret [Some (incl 5 8); None; None; None]) /\
  completes (im_exec Z.compare unit_eqb st32) [OInsert (incl 1 4) tt] [] = true.
Proof. vm_compute. repeat split. Qed.

(** inclusive_map.rs:1530-1546 *)
Example i_item_overlapping_start_of_outer_range :
  omap (nexts_m (gpi_next Z.compare st32) 4) (im_gaps Z.compare (im_run Z.compare unit_eqb st32 [OInsert (incl 1 5) tt]) (incl 5 8)) = Ret (map Ret [Some (incl 6 8); None; None; None]) /\
  completes (im_exec Z.compare unit_eqb st32) [OInsert (incl 1 5) tt] [] = true.
Proof. vm_compute. repeat split. Qed.

(** inclusive_map.rs:1549-1564 *)
Example i_item_starting_at_start_of_outer_range :
  omap (nexts_m (gpi_next Z.compare st32) 4) (im_gaps Z.compare (im_run Z.compare unit_eqb st32 [OInsert (incl 5 6) tt]) (incl 5 8)) = Ret (map Ret [Some (incl 7 8); None; None; None]) /\
  completes (im_exec Z.compare unit_eqb st32) [OInsert (incl 5 6) tt] [] = true.
Proof. vm_compute. repeat split. Qed.

(** inclusive_map.rs:1567-1588 *)
Example i_items_floating_inside_outer_range :
  omap (nexts_m (gpi_next Z.compare st32) 6) (im_gaps Z.compare (im_run Z.compare unit_eqb st32 [OInsert (incl 6 7) tt; OInsert (incl 3 4) tt]) (incl 1 8)) = Ret (map Ret [Some (incl 1 2); Some (incl 5 5); Some (incl 8 8); None; None; None]) /\
  completes (im_exec Z.compare unit_eqb st32) [OInsert (incl 6 7) tt; OInsert (incl 3 4) tt] [] = true.
Proof. vm_compute. repeat split. Qed.

(** inclusive_map.rs:1591-1607 *)
Example i_item_ending_at_end_of_outer_range :
  omap (nexts_m (gpi_next Z.compare st32) 4) (im_gaps Z.compare (im_run Z.compare unit_eqb st32 [OInsert (incl 7 8) tt]) (incl 5 8)) = Ret (map Ret [Some (incl 5 6); None; None; None]) /\
  completes (im_exec Z.compare unit_eqb st32) [OInsert (incl 7 8) tt] [] = true.
Proof. vm_compute. repeat split. Qed.

(** inclusive_map.rs:1610-1626 *)
Example i_item_overlapping_end_of_outer_range :
  omap (nexts_m (gpi_next Z.compare st32) 4) (im_gaps Z.compare (im_run Z.compare unit_eqb st32 [OInsert (incl 5 6) tt]) (incl 2 5)) = Ret (map Ret [Some (incl 2 4); None; None; None]) /\
  completes (im_exec Z.compare unit_eqb st32) [OInsert (incl 5 6) tt] [] = true.
Proof. vm_compute. repeat split. Qed.

(** inclusive_map.rs:1629-1644 *)
Example i_item_touching_end_of_outer_range :
  omap (nexts_m (gpi_next Z.compare st32) 4) (im_gaps Z.compare (im_run Z.compare unit_eqb st32 [OInsert (incl 5 9) tt]) (incl 1 4)) = Ret (map Ret [Some (incl 1 4); None; None; None]) /\
  completes (im_exec Z.compare unit_eqb st32) [OInsert (incl 5 9) tt] [] = true.
Proof. vm_compute. repeat split. Qed.

(** inclusive_map.rs:1647-1662 *)
Example i_item_after_outer_range :
  omap (nexts_m (gpi_next Z.compare st32) 4) (im_gaps Z.compare (im_run Z.compare unit_eqb st32 [OInsert (incl 6 7) tt]) (incl 1 4)) = Ret (map Ret [Some (incl 1 4); None; None; None]) /\
  completes (im_exec Z.compare unit_eqb st32) [OInsert (incl 6 7) tt] [] = true.
Proof. vm_compute. repeat split. Qed.

(** inclusive_map.rs:1665-1682 *)
Example i_zero_width_outer_range_with_items_away_from_both_sides :
  omap (nexts_m (gpi_next Z.compare st32) 3) (im_gaps Z.compare (im_run Z.compare unit_eqb st32 [OInsert (incl 1 3) tt; OInsert (incl 5 7) tt]) (incl 4 4)) = Ret (map Ret [Some (incl 4 4); None; None]) /\
  completes (im_exec Z.compare unit_eqb st32) [OInsert (incl 1 3) tt; OInsert (incl 5 7) tt] [] = true.
Proof. vm_compute. repeat split. Qed.

(** inclusive_map.rs:1685-1702 *)
Example i_zero_width_outer_range_with_items_touching_both_sides :
  omap (nexts_m (gpi_next Z.compare st32) 3) (im_gaps Z.compare (im_run Z.compare unit_eqb st32 [OInsert (incl 2 3) tt; OInsert (incl 5 6) tt]) (incl 4 4)) = Ret (map Ret [Some (incl 4 4); None; None]) /\
  completes (im_exec Z.compare unit_eqb st32) [OInsert (incl 2 3) tt; OInsert (incl 5 6) tt] [] = true.
Proof. vm_compute. repeat split. Qed.

(** inclusive_map.rs:1705-1719 *)
Example i_empty_outer_range_with_item_straddling :
  omap (nexts_m (gpi_next Z.compare st32) 3) (im_gaps Z.compare (im_run Z.compare unit_eqb st32 [OInsert (incl 2 5) tt]) (incl 4 4)) = Ret (map Ret [None; None; None]) /\
  completes (im_exec Z.compare unit_eqb st32) [OInsert (incl 2 5) tt] [] = true.
Proof. vm_compute. repeat split. Qed.

(** inclusive_map.rs:1722-1744 *)
Example i_no_empty_gaps :
  omap (nexts_m (gpi_next Z.compare st32) 5) (im_gaps Z.compare (im_run Z.compare Bool.eqb st32 [OInsert (incl 4 5) true; OInsert (incl 2 3) false]) (incl 1 8)) = Ret (map Ret [Some (incl 1 1); Some (incl 6 8); None; None; None]) /\
  completes (im_exec Z.compare Bool.eqb st32) [OInsert (incl 4 5) true; OInsert (incl 2 3) false] [] = true.
Proof. vm_compute. repeat split. Qed.

(** inclusive_map.rs:1747-1771 *)
Example i_no_overflow_finding_gaps_at_key_domain_extremes :
  returns (im_gaps Z.compare (im_run Z.compare Bool.eqb st8 [OInsert (incl 0 255) false]) (incl 0 255)) = true /\
  completes (im_exec Z.compare Bool.eqb st8) [OInsert (incl 0 255) false] [] = true /\
  returns (im_gaps Z.compare (im_run Z.compare Bool.eqb st8 [OInsert (incl 0 255) false]) (incl 0 5)) = true /\
  returns (im_gaps Z.compare (im_run Z.compare Bool.eqb st8 [OInsert (incl 0 255) false]) (incl 250 255)) = true /\
  completes (im_exec Z.compare Bool.eqb st8) [OInsert (incl 0 255) false] [] = true /\
  returns (im_gaps Z.compare (im_run Z.compare Bool.eqb st8 [OInsert (incl 0 255) false]) (incl 1 5)) = true /\
  returns (im_gaps Z.compare (im_run Z.compare Bool.eqb st8 [OInsert (incl 0 255) false]) (incl 250 254)) = true /\
  completes (im_exec Z.compare Bool.eqb st8) [OInsert (incl 0 255) false] [] = true /\
  returns (im_gaps Z.compare (im_run Z.compare Bool.eqb st8 [OInsert (incl 1 254) false]) (incl 0 5)) = true /\
  returns (im_gaps Z.compare (im_run Z.compare Bool.eqb st8 [OInsert (incl 1 254) false]) (incl 250 255)) = true /\
  completes (im_exec Z.compare Bool.eqb st8) [OInsert (incl 1 254) false] [] = true.
Proof. vm_compute. repeat split. Qed.

(** inclusive_map.rs:1774-1789 *)
Example i_adjacent_unit_width_items :
  omap (nexts_m (gpi_next Z.compare st8) 3) (im_gaps Z.compare (im_run Z.compare Bool.eqb st8 [OInsert (incl 0 0) false; OInsert (incl 1 1) true; OInsert (incl 254 254) false; OInsert (incl 255 255) true]) (incl 0 255)) = Ret (map Ret [Some (incl 2 253); None; None]) /\
  completes (im_exec Z.compare Bool.eqb st8) [OInsert (incl 0 0) false; OInsert (incl 1 1) true; OInsert (incl 254 254) false; OInsert (incl 255 255) true] [] = true.
Proof. vm_compute. repeat split. Qed.

(** inclusive_map.rs:1794-1806 *)
Example i_overlapping_ref_with_empty_map :
  omap (nexts (ovi_next Z.compare) 2) (im_overlapping Z.compare (im_run Z.compare unit_eqb st32 []) (incl 1 8)) = Ret [None; None].
Proof. vm_compute. repeat split. Qed.

(** inclusive_map.rs:1809-1821 *)
Example i_overlapping_owned_with_empty_map :
  omap (nexts (ovi_next Z.compare) 2) (im_overlapping Z.compare (im_run Z.compare unit_eqb st32 []) (incl 1 8)) = Ret [None; None].
Proof. vm_compute. repeat split. Qed.

(** inclusive_map.rs:1824-1852 *)
Example i_overlapping_partial_edges_complete_middle :
  omap (nexts (ovi_next Z.compare) 5) (im_overlapping Z.compare (im_run Z.compare unit_eqb st32 [OInsert (incl 0 1) tt; OInsert (incl 3 4) tt; OInsert (incl 6 7) tt]) (incl 1 6)) = Ret [Some ((incl 0 1), tt); Some ((incl 3 4), tt); Some ((incl 6 7), tt); None; None] /\
  completes (im_exec Z.compare unit_eqb st32) [OInsert (incl 0 1) tt; OInsert (incl 3 4) tt; OInsert (incl 6 7) tt] [] = true.
Proof. vm_compute. repeat split. Qed.

(** inclusive_map.rs:1855-1880 *)
Example i_overlapping_non_overlapping_edges_complete_middle :
  omap (nexts (ovi_next Z.compare) 3) (im_overlapping Z.compare (im_run Z.compare unit_eqb st32 [OInsert (incl 0 1) tt; OInsert (incl 3 4) tt; OInsert (incl 6 7) tt]) (incl 2 5)) = Ret [Some ((incl 3 4), tt); None; None] /\
  completes (im_exec Z.compare unit_eqb st32) [OInsert (incl 0 1) tt; OInsert (incl 3 4) tt; OInsert (incl 6 7) tt] [] = true.
Proof. vm_compute. repeat split. Qed.

(** inclusive_map.rs:1887-1901 *)
Example i_map_debug_repr_looks_right :
  im_debug show_Z (fun _ : unit => "()"%string) (im_run Z.compare unit_eqb st32 []) = "{}"%string /\
  im_debug show_Z (fun _ : unit => "()"%string) (im_run Z.compare unit_eqb st32 [OInsert (incl 2 5) tt]) = "{2..=5: ()}"%string /\
  im_debug show_Z (fun _ : unit => "()"%string) (im_run Z.compare unit_eqb st32 [OInsert (incl 2 5) tt; OInsert (incl 7 8) tt; OInsert (incl 10 11) tt]) = "{2..=5: (), 7..=8: (), 10..=11: ()}"%string /\
  completes (im_exec Z.compare unit_eqb st32) [OInsert (incl 2 5) tt; OInsert (incl 7 8) tt; OInsert (incl 10 11) tt] [] = true.
Proof. vm_compute. repeat split. Qed.

(** inclusive_map.rs:1915-1925 *)
Example i_serialization :
  snd (im_serialize (im_run Z.compare Bool.eqb st32 [OInsert (incl 1 3) false; OInsert (incl 5 7) true])) = [((1, 3), false); ((5, 7), true)] /\
  completes (im_exec Z.compare Bool.eqb st32) [OInsert (incl 1 3) false; OInsert (incl 5 7) true] [] = true.
Proof. vm_compute. repeat split. Qed.

(** inclusive_map.rs:1931-1937 *)
Example i_deserialization :
  omap (fun x : unit + _ => match x with inr m => snd (im_serialize m) | inl _ => [] end) (im_deserialize Z.compare Bool.eqb st32 (map inr [((1, 3), false); ((5, 7), true)])) = Ret [((1, 3), false); ((5, 7), true)].
Proof. vm_compute. repeat split. Qed.

(** inclusive_map.rs:1949-1957 *)
Example i_test_equality_same_start_different_end :
  im_eqb Z.compare unit_eqb (im_run Z.compare unit_eqb st32 [OInsert (incl 0 5) tt]) (im_run Z.compare unit_eqb st32 [OInsert (incl 0 2) tt]) = false /\
  completes (im_exec Z.compare unit_eqb st32) [OInsert (incl 0 5) tt] [] = true /\
  completes (im_exec Z.compare unit_eqb st32) [OInsert (incl 0 2) tt] [] = true.
Proof. vm_compute. repeat split. Qed.

(** inclusive_map.rs:1960-1968 *)
Example i_test_equality_identical_ranges :
  im_eqb Z.compare unit_eqb (im_run Z.compare unit_eqb st32 [OInsert (incl 0 5) tt]) (im_run Z.compare unit_eqb st32 [OInsert (incl 0 5) tt]) = true /\
  completes (im_exec Z.compare unit_eqb st32) [OInsert (incl 0 5) tt] [] = true /\
  completes (im_exec Z.compare unit_eqb st32) [OInsert (incl 0 5) tt] [] = true.
Proof. vm_compute. repeat split. Qed.

(** set.rs:596-601 *)
Example s_test_from_array :
  omap (rs_eqb Z.compare (rs_run Z.compare [SInsert (mkR 0 100); SInsert (mkR 200 300)])) (rs_from_array Z.compare [(mkR 0 100); (mkR 200 300)]) = Ret true /\
  completes (rs_exec Z.compare) [SInsert (mkR 0 100); SInsert (mkR 200 300)] [] = true.
Proof. vm_compute. repeat split. Qed.

(** set.rs:604-610 *)
Example s_test_macro :
  omap (rs_eqb Z.compare rs_new) (rs_from_array Z.compare []) = Ret true /\
  obind (rs_from_array Z.compare [(mkR 0 100); (mkR 200 300); (mkR 400 500)]) (fun a => omap (rs_eqb Z.compare a) (rs_from_iter Z.compare [(mkR 0 100); (mkR 200 300); (mkR 400 500)])) = Ret true.
Proof. vm_compute. repeat split. Qed.

(** set.rs:673-676 *)
Example s_empty_set_is_empty :
  map fst (rs_iter (rs_run Z.compare [])) = [].
Proof. vm_compute. repeat split. Qed.

(** set.rs:679-683 *)
Example s_insert_into_empty_map :
  map fst (rs_iter (rs_run Z.compare [SInsert (mkR 0 50)])) = [(mkR 0 50)] /\
  completes (rs_exec Z.compare) [SInsert (mkR 0 50)] [] = true.
Proof. vm_compute. repeat split. Qed.

(** set.rs:686-691 *)
Example s_remove_partially_overlapping :
  map fst (rs_iter (rs_run Z.compare [SInsert (mkR 0 50); SRemove (mkR 25 75)])) = [(mkR 0 25)] /\
  completes (rs_exec Z.compare) [SInsert (mkR 0 50); SRemove (mkR 25 75)] [] = true.
Proof. vm_compute. repeat split. Qed.

(** set.rs:694-715 *)
Example s_gaps_between_items_floating_inside_outer_range :
  omap (nexts (rs_gaps_next Z.compare) 6) (rs_gaps Z.compare (rs_run Z.compare [SInsert (mkR 5 6); SInsert (mkR 3 4)]) (mkR 1 8)) = Ret [Some (mkR 1 3); Some (mkR 4 5); Some (mkR 6 8); None; None; None] /\
  completes (rs_exec Z.compare) [SInsert (mkR 5 6); SInsert (mkR 3 4)] [] = true.
Proof. vm_compute. repeat split. Qed.

(** set.rs:718-746 *)
Example s_overlapping_partial_edges_complete_middle :
  omap (nexts (rs_ov_next Z.compare) 5) (rs_overlapping Z.compare (rs_run Z.compare [SInsert (mkR 0 2); SInsert (mkR 3 4); SInsert (mkR 5 7)]) (mkR 1 6)) = Ret [Some (mkR 0 2); Some (mkR 3 4); Some (mkR 5 7); None; None] /\
  completes (rs_exec Z.compare) [SInsert (mkR 0 2); SInsert (mkR 3 4); SInsert (mkR 5 7)] [] = true.
Proof. vm_compute. repeat split. Qed.

(** set.rs:753-767 *)
Example s_set_debug_repr_looks_right :
  rs_debug show_Z (rs_run Z.compare []) = "{}"%string /\
  rs_debug show_Z (rs_run Z.compare [SInsert (mkR 2 5)]) = "{2..5}"%string /\
  rs_debug show_Z (rs_run Z.compare [SInsert (mkR 2 5); SInsert (mkR 7 8); SInsert (mkR 10 11)]) = "{2..5, 7..8, 10..11}"%string /\
  completes (rs_exec Z.compare) [SInsert (mkR 2 5); SInsert (mkR 7 8); SInsert (mkR 10 11)] [] = true.
Proof. vm_compute. repeat split. Qed.

(** set.rs:781-791 *)
Example s_serialization :
  snd (rs_serialize (rs_run Z.compare [SInsert (mkR 1 3); SInsert (mkR 5 7)])) = [(1, 3); (5, 7)] /\
  completes (rs_exec Z.compare) [SInsert (mkR 1 3); SInsert (mkR 5 7)] [] = true.
Proof. vm_compute. repeat split. Qed.

(** set.rs:797-802 *)
Example s_deserialization :
  omap (fun x : unit + _ => match x with inr m => snd (rs_serialize m) | inl _ => [] end) (rs_deserialize Z.compare (map inr [(1, 3); (5, 7)])) = Ret [(1, 3); (5, 7)].
Proof. vm_compute. repeat split. Qed.

(** inclusive_set.rs:627-632 *)
Example j_test_from_array :
  omap (is_eqb Z.compare (is_run Z.compare st32 [SInsert (incl 0 100); SInsert (incl 200 300)])) (is_from_array Z.compare st32 [(incl 0 100); (incl 200 300)]) = Ret true /\
  completes (is_exec Z.compare st32) [SInsert (incl 0 100); SInsert (incl 200 300)] [] = true.
Proof. vm_compute. repeat split. Qed.

(** inclusive_set.rs:635-641 *)
Example j_test_macro :
  omap (is_eqb Z.compare is_new) (is_from_array Z.compare st32 []) = Ret true /\
  obind (is_from_array Z.compare st32 [(incl 0 100); (incl 200 300); (incl 400 500)]) (fun a => omap (is_eqb Z.compare a) (is_from_iter Z.compare st32 [(incl 0 100); (incl 200 300); (incl 400 500)])) = Ret true.
Proof. vm_compute. repeat split. Qed.

(** inclusive_set.rs:704-707 *)
Example j_empty_set_is_empty :
  map fst (is_iter (is_run Z.compare st32 [])) = [].
Proof. vm_compute. repeat split. Qed.

(** inclusive_set.rs:710-714 *)
Example j_insert_into_empty_map :
  map fst (is_iter (is_run Z.compare st32 [SInsert (incl 0 50)])) = [(incl 0 50)] /\
  completes (is_exec Z.compare st32) [SInsert (incl 0 50)] [] = true.
Proof. vm_compute. repeat split. Qed.

(** inclusive_set.rs:717-722 *)
Example j_remove_partially_overlapping :
  map fst (is_iter (is_run Z.compare st32 [SInsert (incl 0 50); SRemove (incl 25 75)])) = [(incl 0 24)] /\
  completes (is_exec Z.compare st32) [SInsert (incl 0 50); SRemove (incl 25 75)] [] = true.
Proof. vm_compute. repeat split. Qed.

(** inclusive_set.rs:725-746 *)
Example j_gaps_between_items_floating_inside_outer_range :
  omap (nexts_m (is_gaps_next Z.compare st32) 6) (is_gaps Z.compare (is_run Z.compare st32 [SInsert (incl 5 6); SInsert (incl 2 3)]) (incl 1 8)) = Ret (map Ret [Some (incl 1 1); Some (incl 4 4); Some (incl 7 8); None; None; None]) /\
  completes (is_exec Z.compare st32) [SInsert (incl 5 6); SInsert (incl 2 3)] [] = true.
Proof. vm_compute. repeat split. Qed.

(** inclusive_set.rs:749-777 *)
Example j_overlapping_partial_edges_complete_middle :
  omap (nexts (is_ov_next Z.compare) 5) (is_overlapping Z.compare (is_run Z.compare st32 [SInsert (incl 0 1); SInsert (incl 3 4); SInsert (incl 6 7)]) (incl 1 6)) = Ret [Some (incl 0 1); Some (incl 3 4); Some (incl 6 7); None; None] /\
  completes (is_exec Z.compare st32) [SInsert (incl 0 1); SInsert (incl 3 4); SInsert (incl 6 7)] [] = true.
Proof. vm_compute. repeat split. Qed.

(** inclusive_set.rs:784-798 *)
Example j_set_debug_repr_looks_right :
  is_debug show_Z (is_run Z.compare st32 []) = "{}"%string /\
  is_debug show_Z (is_run Z.compare st32 [SInsert (incl 2 5)]) = "{2..=5}"%string /\
  is_debug show_Z (is_run Z.compare st32 [SInsert (incl 2 5); SInsert (incl 7 8); SInsert (incl 10 11)]) = "{2..=5, 7..=8, 10..=11}"%string /\
  completes (is_exec Z.compare st32) [SInsert (incl 2 5); SInsert (incl 7 8); SInsert (incl 10 11)] [] = true.
Proof. vm_compute. repeat split. Qed.

(** inclusive_set.rs:812-822 *)
Example j_serialization :
  snd (is_serialize (is_run Z.compare st32 [SInsert (incl 1 3); SInsert (incl 5 7)])) = [(1, 3); (5, 7)] /\
  completes (is_exec Z.compare st32) [SInsert (incl 1 3); SInsert (incl 5 7)] [] = true.
Proof. vm_compute. repeat split. Qed.

(** inclusive_set.rs:828-834 *)
Example j_deserialization :
  omap (fun x : unit + _ => match x with inr m => snd (is_serialize m) | inl _ => [] end) (is_deserialize Z.compare st32 (map inr [(1, 3); (5, 7)])) = Ret [(1, 3); (5, 7)].
Proof. vm_compute. repeat split. Qed.

(** ** Every permutation of a few ranges, against the dense oracle *)
Fixpoint everywhere {A} (a : A) (l : list A) : list (list A) :=
  (a :: l) :: match l with [] => [] | b :: l' => map (cons b) (everywhere a l') end.
Fixpoint permutations {A} (l : list A) : list (list A) :=
  match l with [] => [[]] | a :: l' => flat_map (everywhere a) (permutations l') end.
Definition prefixes {A} (l : list A) : list (list A) := map (fun n => firstn (S n) l) (seq 0 (List.length l)).
Definition eq_entry (x y : Z * Z * bool) : bool :=
  (fst (fst x) =? fst (fst y)) && (snd (fst x) =? snd (fst y)) && Bool.eqb (snd x) (snd y).
Fixpoint eq_list (a b : list (Z * Z * bool)) : bool :=
  match a, b with
  | [], [] => true
  | x :: a', y :: b' => eq_entry x y && eq_list a' b'
  | _, _ => false
  end.

Definition ho_plain (l : list (range Z * bool)) := map (fun e => (r_start (fst e), r_end (fst e), snd e)) l.
Definition in_plain (l : list (rangei Z * bool)) := map (fun e => (ri_start (fst e), ri_end (fst e), snd e)) l.
(** map.rs:1186-1223 *)
Definition m_interesting : list (range Z * bool) :=
  [(mkR 2 3, false); (mkR 2 3, false); (mkR 2 3, true); (mkR 3 5, true); (mkR 4 6, true); (mkR 5 7, true);
   (mkR 2 6, true)].
Definition m_agrees (l : list (range Z * bool)) : bool :=
  match d_to_end_exclusive_vec Bool.eqb
          (d_insert_all (map (fun e => (incl (r_start (fst e)) (r_end (fst e) - 1), snd e)) l) d_new) with
  | Ret D => eq_list (ho_plain (rm_iter (rm_run Z.compare Bool.eqb (map (fun e => OInsert (fst e) (snd e)) l))))
               (ho_plain D)
  | _ => false
  end.
Example m_lots_of_interesting_ranges :
  Z.of_nat (List.length (permutations m_interesting)) = 5040 /\
  forallb (fun p => forallb m_agrees (prefixes p)) (permutations m_interesting) = true.
Proof. vm_compute. auto. Qed.
(** inclusive_map.rs:1308-1342 *)
Definition i_interesting : list (rangei Z * bool) :=
  [(incl 2 3, false); (incl 2 3, false); (incl 2 3, true); (incl 3 5, true); (incl 4 6, true); (incl 6 7, true);
   (incl 2 6, true)].
Definition i_agrees (l : list (rangei Z * bool)) : bool :=
  match d_to_vec Bool.eqb (d_insert_all l d_new) with
  | Ret D => eq_list (in_plain (im_iter (im_run Z.compare Bool.eqb st32 (map (fun e => OInsert (fst e) (snd e)) l))))
               (in_plain D)
  | _ => false
  end.
Example i_lots_of_interesting_ranges :
  forallb (fun p => forallb i_agrees (prefixes p)) (permutations i_interesting) = true.
Proof. vm_compute. reflexivity. Qed.

(** ** Floats, given by their bit patterns *)
Definition f64 (b : Z) : not_nan 11 52 b = true -> fkey 11 52 := exist _ b.
Definition f_one : Z := 1023 * 2 ^ 52.
Definition f_two : Z := 1024 * 2 ^ 52.
Definition f_inf : Z := 2047 * 2 ^ 52.
Definition f_max : Z := f_inf - 1.
Definition f_sign : Z := 2 ^ 63.
Definition bits_of (o : option (fkey 11 52)) : option Z := option_map (@proj1_sig _ _) o.
Definition up (b : Z) (H : not_nan 11 52 b = true) : option Z := bits_of (add_one (float_steps 11 52) (f64 b H)).
Definition down (b : Z) (H : not_nan 11 52 b = true) : option Z := bits_of (sub_one (float_steps 11 52) (f64 b H)).

(** The bit patterns above are those numbers. *)
Example f_meaning :
  f_value 11 52 f_one = Finite (2 ^ 1074) /\ f_value 11 52 f_two = Finite (2 * 2 ^ 1074) /\
  f_value 11 52 f_inf = PosInf /\ f_value 11 52 (f_sign + f_inf) = NegInf /\
  f_value 11 52 f_sign = Finite 0 /\ f_value 11 52 (f_sign + f_one) = Finite (- 2 ^ 1074).
Proof. vm_compute. repeat split. Qed.
(** std_ext.rs:277-296 *)
Example x_steps_to_the_next_representable_float :
  up f_one eq_refl = Some (f_one + 1) /\ down f_one eq_refl = Some (f_one - 1) /\
  up (f_sign + f_one) eq_refl = Some (f_sign + f_one - 1) /\
  down (f_sign + f_one) eq_refl = Some (f_sign + f_one + 1).
Proof. vm_compute. repeat split. Qed.
(** std_ext.rs:299-308 *)
Example x_steps_from_zero_to_the_smallest_subnormals :
  up 0 eq_refl = Some 1 /\ down 0 eq_refl = Some (f_sign + 1) /\
  up f_sign eq_refl = Some 1 /\ down f_sign eq_refl = Some (f_sign + 1).
Proof. vm_compute. repeat split. Qed.
(** std_ext.rs:311-323 *)
Example x_steps_saturate_at_the_infinities :
  up f_max eq_refl = Some f_inf /\ up f_inf eq_refl = Some f_inf /\
  down (f_sign + f_max) eq_refl = Some (f_sign + f_inf) /\ down (f_sign + f_inf) eq_refl = Some (f_sign + f_inf) /\
  down f_inf eq_refl = Some f_max /\ up (f_sign + f_inf) eq_refl = Some (f_sign + f_max).
Proof. vm_compute. repeat split. Qed.
(** std_ext.rs:326-338 *)
Definition up32 (b : Z) (H : not_nan 8 23 b = true) : option Z :=
  option_map (@proj1_sig _ _) (add_one (float_steps 8 23) (exist _ b H)).
Example x_f32_steps_the_same_way_as_f64 :
  up32 (127 * 2 ^ 23) eq_refl = Some (127 * 2 ^ 23 + 1) /\ up32 0 eq_refl = Some 1 /\ up32 (2 ^ 31) eq_refl = Some 1 /\
  up32 (255 * 2 ^ 23 - 1) eq_refl = Some (255 * 2 ^ 23) /\ up32 (255 * 2 ^ 23) eq_refl = Some (255 * 2 ^ 23).
Proof. vm_compute. repeat split. Qed.

Notation fincl a b := (incl (f64 a eq_refl) (f64 b eq_refl)).
Definition f_plain {V} (l : list (rangei (fkey 11 52) * V)) : list (Z * Z * V) :=
  map (fun e => (proj1_sig (ri_start (fst e)), proj1_sig (ri_end (fst e)), snd e)) l.
Definition f_run := im_run (fcmp 11 52) String.eqb (float_steps 11 52).
(** inclusive_map.rs:2084-2092 *)
Example i_ranges_one_ulp_apart_are_coalesced :
  f_plain (f_run [OInsert (fincl 0 f_one) "hello"%string; OInsert (fincl (f_one + 1) f_two) "hello"%string]) =
  [(0, f_two, "hello"%string)].
Proof. vm_compute. reflexivity. Qed.
(** inclusive_map.rs:2095-2112 *)
Example i_ranges_two_ulps_apart_are_not_coalesced :
  let m := f_run [OInsert (fincl 0 f_one) "hello"%string; OInsert (fincl (f_one + 2) f_two) "hello"%string] in
  f_plain m = [(0, f_one, "hello"%string); (f_one + 2, f_two, "hello"%string)] /\
  omap (fun g => map (omap (option_map (fun r => (proj1_sig (ri_start r), proj1_sig (ri_end r)))))
                   (nexts_m (gpi_next (fcmp 11 52) (float_steps 11 52)) 3 g))
       (im_gaps (fcmp 11 52) m (fincl 0 f_two)) =
  Ret [Ret (Some (f_one + 1, f_one + 1)); Ret None; Ret None].
Proof. vm_compute. split; reflexivity. Qed.
(** inclusive_map.rs:2115-2134 *)
Example i_ranges_can_span_the_infinities :
  let m := f_run [OInsert (fincl (f_sign + f_inf) f_inf) "everything"%string;
                  OInsert (fincl 0 f_one) "something"%string] in
  map snd (im_iter m) = ["everything"%string; "something"%string; "everything"%string] /\
  omap (fun g => map (omap (option_map (fun r => (proj1_sig (ri_start r), proj1_sig (ri_end r)))))
                   (nexts_m (gpi_next (fcmp 11 52) (float_steps 11 52)) 1 g))
       (im_gaps (fcmp 11 52) m (fincl (f_sign + f_inf) f_inf)) = Ret [Ret None].
Proof. vm_compute. split; reflexivity. Qed.
(** inclusive_set.rs:909-914 *)
Example j_ranges_one_ulp_apart_are_coalesced :
  map (fun e => (proj1_sig (ri_start (fst e)), proj1_sig (ri_end (fst e))))
    (is_iter (is_run (fcmp 11 52) (float_steps 11 52) [SInsert (fincl 0 f_one); SInsert (fincl (f_one + 1) f_two)])) =
  [(0, f_two)].
Proof. vm_compute. reflexivity. Qed.

(** lib.rs:51-88 and examples/roster.rs: dates are counted in weeks from the start of the roster. *)
Example roster :
  let people := ["Alice"; "Bob"; "Carol"]%string in
  let initial := map (fun w => OInsert (mkR (Z.of_nat w) (Z.of_nat w + 1)) (nth (w mod 3) people ""%string)) (seq 0 9) in
  rm_iter (rm_run Z.compare String.eqb (initial ++ [OInsert (mkR 3 4) "Bob"%string])) =
  [(mkR 0 1, "Alice"); (mkR 1 2, "Bob"); (mkR 2 3, "Carol"); (mkR 3 5, "Bob"); (mkR 5 6, "Carol");
   (mkR 6 7, "Alice"); (mkR 7 8, "Bob"); (mkR 8 9, "Carol")]%string.
Proof. vm_compute. reflexivity. Qed.

(** operations.rs:100-105 *)
Example o_test_intersect :
  r_intersect Z.compare (mkR 0 5) (mkR 0 3) = Some (mkR 0 3) /\
  r_intersect Z.compare (mkR 0 3) (mkR 0 5) = Some (mkR 0 3) /\
  r_intersect Z.compare (mkR 0 3) (mkR 3 3) = None.
Proof. vm_compute. repeat split. Qed.
