{
 "claims": [
  {
   "property": "C01",
   "status": "proved",
   "theorems": [
    "C01_last_writer_wins",
    "C01_last_writer_wins_exact",
    "C01_insert_read_back"
   ],
   "note": ""
  },
  {
   "property": "C02",
   "status": "proved",
   "theorems": [
    "C02_insert_outcome"
   ],
   "note": ""
  },
  {
   "property": "C03",
   "status": "proved",
   "theorems": [
    "C03_remove_outcome"
   ],
   "note": ""
  },
  {
   "property": "C04",
   "status": "proved",
   "theorems": [
    "C04_iter_valid_ascending",
    "C04_iter_describes"
   ],
   "note": ""
  },
  {
   "property": "C05",
   "status": "proved",
   "theorems": [
    "C05_iter_coalesced",
    "C05_between_equal_values"
   ],
   "note": ""
  },
  {
   "property": "C06",
   "status": "proved",
   "theorems": [
    "C06_lookup_iff_iter",
    "C06_lookup_none",
    "C06_lookups_agree",
    "C06_unique"
   ],
   "note": ""
  },
  {
   "property": "C07",
   "status": "proved",
   "theorems": [
    "C07_maximal_run",
    "C07_run_constant"
   ],
   "note": ""
  },
  {
   "property": "C08",
   "status": "proved",
   "theorems": [
    "C08_eq_extensional",
    "C08_eq_observational"
   ],
   "note": ""
  },
  {
   "property": "C09",
   "status": "proved",
   "theorems": [
    "C09_insert_idempotent",
    "C09_remove_idempotent",
    "C09_insert_then_remove",
    "C09_remove_then_insert",
    "C09_covered_insert_invisible",
    "C09_disjoint_inserts_commute",
    "C09_disjoint_insert_remove_commute",
    "C09_removes_commute",
    "C09_laws_observed"
   ],
   "note": ""
  },
  {
   "property": "C10",
   "status": "proved",
   "theorems": [
    "C10_gaps_exact",
    "C10_gaps_maximal"
   ],
   "note": ""
  },
  {
   "property": "C11",
   "status": "proved",
   "theorems": [
    "C11_gaps_of_empty",
    "C11_doc_single_empty_gap_refuted"
   ],
   "note": "The documented 'single empty gap' is false; refuted by a witness."
  },
  {
   "property": "C12",
   "status": "proved",
   "theorems": [
    "C12_overlapping_exact",
    "C12_overlaps_exact"
   ],
   "note": ""
  },
  {
   "property": "C13",
   "status": "proved",
   "theorems": [
    "C13_overlapping_schedules"
   ],
   "note": ""
  },
  {
   "property": "C14",
   "status": "proved",
   "theorems": [
    "C14_overlaps_any_query",
    "C14_empty_query_refuted",
    "C13_overlapping_schedules"
   ],
   "note": "Exact characterisation for every query (with C13_overlapping_schedules); the naive claim for empty queries is refuted."
  },
  {
   "property": "C15",
   "status": "proved",
   "theorems": [
    "C15_first_last"
   ],
   "note": ""
  },
  {
   "property": "C16",
   "status": "proved",
   "theorems": [
    "C16_iter_schedules",
    "C16_len_empty"
   ],
   "note": ""
  },
  {
   "property": "C17",
   "status": "proved",
   "theorems": [
    "C17_extend_is_inserts",
    "C17_from_iter_is_inserts",
    "C17_from_array_is_inserts"
   ],
   "note": ""
  },
  {
   "property": "C18",
   "status": "proved",
   "theorems": [
    "C18_round_trip"
   ],
   "note": ""
  },
  {
   "property": "C19",
   "status": "proved",
   "theorems": [
    "C19_deserialize_any_input"
   ],
   "note": ""
  },
  {
   "property": "C20",
   "status": "proved",
   "theorems": [
    "C20_hash_consistent",
    "C20_hash_separates"
   ],
   "note": ""
  },
  {
   "property": "C21",
   "status": "proved",
   "theorems": [
    "C21_ord_lawful",
    "C21_partial_cmp"
   ],
   "note": ""
  },
  {
   "property": "C22",
   "status": "proved",
   "theorems": [
    "C22_isorted_by_both_ends",
    "C22_iany_tree_shape",
    "C22_sorted_by_both_ends",
    "C22_any_tree_shape"
   ],
   "note": ""
  },
  {
   "property": "C23",
   "status": "proved",
   "theorems": [
    "C23_minimal",
    "C23_growth"
   ],
   "note": ""
  },
  {
   "property": "C24",
   "status": "proved",
   "theorems": [
    "C24_insert_frame",
    "C24_remove_frame"
   ],
   "note": ""
  },
  {
   "property": "C25",
   "status": "proved",
   "theorems": [
    "C25_last_writer_wins",
    "C25_last_writer_wins_exact",
    "C25_insert_read_back"
   ],
   "note": ""
  },
  {
   "property": "C26",
   "status": "proved",
   "theorems": [
    "C26_insert_outcome",
    "C26_insert_outcome_any_range"
   ],
   "note": ""
  },
  {
   "property": "C27",
   "status": "proved",
   "theorems": [
    "C27_remove_outcome",
    "C27_remove_outcome_any_range"
   ],
   "note": ""
  },
  {
   "property": "C28",
   "status": "proved",
   "theorems": [
    "C28_iter_valid_ascending",
    "C28_iter_describes"
   ],
   "note": ""
  },
  {
   "property": "C29",
   "status": "proved",
   "theorems": [
    "C29_iter_coalesced",
    "C29_between_equal_values"
   ],
   "note": ""
  },
  {
   "property": "C30",
   "status": "proved",
   "theorems": [
    "C30_lookup_iff_iter",
    "C30_lookup_none",
    "C30_lookup_iff_iter_any_range",
    "C30_lookup_none_any_range",
    "C30_lookups_agree",
    "C30_unique"
   ],
   "note": ""
  },
  {
   "property": "C31",
   "status": "proved",
   "theorems": [
    "C31_maximal_run",
    "C31_run_constant"
   ],
   "note": ""
  },
  {
   "property": "C32",
   "status": "proved",
   "theorems": [
    "C32_eq_extensional",
    "C32_eq_observational"
   ],
   "note": ""
  },
  {
   "property": "C33",
   "status": "proved",
   "theorems": [
    "C33_insert_idempotent",
    "C33_remove_idempotent",
    "C33_insert_then_remove",
    "C33_remove_then_insert",
    "C33_covered_insert_invisible",
    "C33_disjoint_inserts_commute",
    "C33_disjoint_insert_remove_commute",
    "C33_removes_commute",
    "C33_laws_observed"
   ],
   "note": ""
  },
  {
   "property": "C34",
   "status": "proved",
   "theorems": [
    "C34_gaps_exact",
    "C34_gaps_maximal"
   ],
   "note": ""
  },
  {
   "property": "C35",
   "status": "proved",
   "theorems": [
    "C35_gaps_never_step_out",
    "C35_gaps_of_backward"
   ],
   "note": ""
  },
  {
   "property": "C36",
   "status": "proved",
   "theorems": [
    "C36_overlapping_schedules",
    "C36_meets_is_sharing_a_key",
    "C36_overlaps_exact"
   ],
   "note": ""
  },
  {
   "property": "C37",
   "status": "proved",
   "theorems": [
    "C37_overlaps_any_query",
    "C37_backward_query_refuted",
    "C36_overlapping_schedules"
   ],
   "note": "Exact for every query (with C36_overlapping_schedules); 'a backward query overlaps nothing' is refuted."
  },
  {
   "property": "C38",
   "status": "proved",
   "theorems": [
    "C38_interrupted_ignores_flag",
    "C38_round_trip_drops_flag",
    "C38_exhausted_insert_refuted",
    "C38_exhausted_eq_ord_refuted",
    "C38_exhausted_remove_refuted",
    "C38_updates_ignore_flag",
    "C38_queries_ignore_flag",
    "C38_cmp_ignores_flag",
    "C38_lookup"
   ],
   "note": "Refutations with the range 5..=5 after iteration; all other C25-C44 theorems assume non-exhausted inserted ranges."
  },
  {
   "property": "C39",
   "status": "proved",
   "theorems": [
    "C39_first_last",
    "C39_iter_schedules",
    "C39_len_empty"
   ],
   "note": ""
  },
  {
   "property": "C40",
   "status": "proved",
   "theorems": [
    "C40_extend_is_inserts",
    "C40_from_iter_is_inserts",
    "C40_from_array_is_inserts"
   ],
   "note": ""
  },
  {
   "property": "C41",
   "status": "proved",
   "theorems": [
    "C41_round_trip",
    "C41_deserialize_any_input"
   ],
   "note": ""
  },
  {
   "property": "C42",
   "status": "proved",
   "theorems": [
    "C42_hash_consistent",
    "C42_hash_separates",
    "C42_ord_lawful",
    "C42_partial_cmp"
   ],
   "note": ""
  },
  {
   "property": "C43",
   "status": "proved",
   "theorems": [
    "C43_updates_step_independent",
    "C43_gaps_step_independent",
    "C43_debug_release"
   ],
   "note": ""
  },
  {
   "property": "C44",
   "status": "proved",
   "theorems": [
    "C44_minimal",
    "C44_growth"
   ],
   "note": ""
  },
  {
   "property": "C45",
   "status": "proved",
   "theorems": [
    "C45_membership",
    "C45_insert_outcome",
    "C45_remove_outcome"
   ],
   "note": ""
  },
  {
   "property": "C46",
   "status": "proved",
   "theorems": [
    "C46_iter_maximal_runs",
    "C46_get_iff",
    "C46_get_none",
    "C46_get_maximal",
    "C46_eq_iff_same_members",
    "C46_ord_consistent",
    "C46_hash_consistent",
    "C46_hash_separates"
   ],
   "note": ""
  },
  {
   "property": "C47",
   "status": "proved",
   "theorems": [
    "C47_union_iterator"
   ],
   "note": ""
  },
  {
   "property": "C48",
   "status": "proved",
   "theorems": [
    "C48_intersection_iterator"
   ],
   "note": ""
  },
  {
   "property": "C49",
   "status": "proved",
   "theorems": [
    "C49_bitor",
    "C49_bitand",
    "C49_closed"
   ],
   "note": ""
  },
  {
   "property": "C50",
   "status": "proved",
   "theorems": [
    "C50_eq_iff_boolean_identity",
    "C50_commutative",
    "C50_associative",
    "C50_idempotent",
    "C50_absorptive",
    "C50_distributive",
    "C50_empty_unit_zero",
    "C50_updates"
   ],
   "note": ""
  },
  {
   "property": "C51",
   "status": "proved",
   "theorems": [
    "C51_union_coalesces_refuted"
   ],
   "note": ""
  },
  {
   "property": "C52",
   "status": "proved",
   "theorems": [
    "C52_gaps_exact",
    "C52_gaps_complement",
    "C52_overlapping_schedules",
    "C52_overlaps_exact",
    "C52_first_last",
    "C52_len_empty_clear",
    "C52_iter_schedules",
    "C52_extend",
    "C52_from_iter",
    "C52_serde_round_trip",
    "C52_deserialize_any"
   ],
   "note": ""
  },
  {
   "property": "C53",
   "status": "proved",
   "theorems": [
    "C53_membership",
    "C53_insert_outcome",
    "C53_remove_outcome"
   ],
   "note": ""
  },
  {
   "property": "C54",
   "status": "proved",
   "theorems": [
    "C54_iter_maximal_runs",
    "C54_get_iff",
    "C54_get_none",
    "C54_get_maximal",
    "C54_maximal",
    "C54_eq_iff_same_members",
    "C54_eq_same_members",
    "C54_ord_consistent",
    "C54_hash_consistent",
    "C54_hash_separates"
   ],
   "note": ""
  },
  {
   "property": "C55",
   "status": "proved",
   "theorems": [
    "C55_union_iterator",
    "C55_intersection_iterator",
    "C55_union_coalesces_refuted"
   ],
   "note": ""
  },
  {
   "property": "C56",
   "status": "proved",
   "theorems": [
    "C56_bitor",
    "C56_bitand",
    "C56_closed",
    "C56_eq_iff_boolean_identity",
    "C56_commutative",
    "C56_associative",
    "C56_idempotent",
    "C56_absorptive",
    "C56_distributive",
    "C56_empty_unit_zero",
    "C56_updates"
   ],
   "note": ""
  },
  {
   "property": "C57",
   "status": "proved",
   "theorems": [
    "C57_gaps_exact",
    "C57_gaps_complement",
    "C57_overlapping_schedules",
    "C57_overlaps_exact",
    "C57_first_last",
    "C57_len_empty_clear",
    "C57_iter_schedules",
    "C57_extend",
    "C57_from_iter",
    "C57_serde_round_trip",
    "C57_deserialize_any"
   ],
   "note": ""
  },
  {
   "property": "C58",
   "status": "proved",
   "theorems": [
    "C58_add_one",
    "C58_sub_one",
    "C58_extremes",
    "C58_contract"
   ],
   "note": ""
  },
  {
   "property": "C59",
   "status": "proved",
   "theorems": [
    "C59_order_is_value_order",
    "C59_decode",
    "C59_add_one",
    "C59_sub_one",
    "C59_reversible",
    "C59_contract_f32",
    "C59_contract_f64",
    "C59_zeros"
   ],
   "note": ""
  },
  {
   "property": "C60",
   "status": "proved",
   "theorems": [
    "C60_same_lookups",
    "C60_same_entries",
    "C60_same_outcomes",
    "C60_integer_types"
   ],
   "note": ""
  },
  {
   "property": "C61",
   "status": "proved",
   "theorems": [
    "C61_map_arbitrary",
    "C61_inclusive_map_arbitrary",
    "C61_set_arbitrary",
    "C61_inclusive_set_arbitrary"
   ],
   "note": ""
  },
  {
   "property": "C62",
   "status": "proved",
   "theorems": [
    "C62_record_faithful",
    "C62_record_complete",
    "C62_interrupted_reachable",
    "C62_interrupted_valid",
    "C62_insert_interrupted",
    "C62_remove_interrupted",
    "C62_extend_interrupted",
    "C62_only_own_range_refuted"
   ],
   "note": ""
  },
  {
   "property": "C63",
   "status": "proved",
   "theorems": [
    "C63_record_faithful",
    "C63_record_complete",
    "C63_interrupted_reachable",
    "C63_interrupted_valid",
    "C63_interrupted_valid_exhausted",
    "C63_interrupted_reachable_exhausted",
    "C63_insert_interrupted",
    "C63_remove_interrupted",
    "C63_insert_interrupted_exhausted",
    "C63_remove_interrupted_exhausted",
    "C63_extend_interrupted",
    "C63_only_own_range_refuted"
   ],
   "note": ""
  },
  {
   "property": "C64",
   "status": "proved",
   "theorems": [
    "C64_eq_reflexive_refuted",
    "C64_nan_not_coalesced_refuted",
    "C01_last_writer_wins",
    "C04_iter_valid_ascending",
    "C05_iter_coalesced",
    "C06_lookup_iff_iter",
    "C07_maximal_run"
   ],
   "note": "C01-C07 theorems assume only a symmetric and transitive ==; refutations of reflexivity and coalescing for such values."
  },
  {
   "property": "C65",
   "status": "proved",
   "theorems": [
    "C65_inclusive_oracle",
    "C65_oracle",
    "C65_to_vec",
    "C65_to_end_exclusive_vec",
    "C65_from_inclusive_map",
    "C65_from_map",
    "C65_dense_eq",
    "C65_dense_eq_half_open",
    "C65_dense_eq_iff",
    "C65_oracle_exhausted_refuted",
    "C65_oracle_nan_refuted"
   ],
   "note": ""
  },
  {
   "property": "C66",
   "status": "proved",
   "theorems": [
    "C66_insert_frame",
    "C66_remove_frame"
   ],
   "note": ""
  },
  {
   "property": "C67",
   "status": "proved",
   "theorems": [
    "C67_relabel_run",
    "C67_relabel_outcome",
    "C67_relabel_get",
    "C67_relabel_overlapping",
    "C67_relabel_gaps",
    "C67_relabel_eq",
    "C67_inclusive_relabel_run",
    "C67_inclusive_relabel_outcome",
    "C67_inclusive_relabel_get",
    "C67_inclusive_relabel_overlapping",
    "C67_inclusive_relabel_gaps",
    "C67_inclusive_relabel_eq",
    "C67_set_relabel_run",
    "C67_set_relabel_union",
    "C67_set_relabel_intersection",
    "C67_set_relabel_expressions",
    "C67_inclusive_set_relabel_union",
    "C67_inclusive_set_relabel_intersection",
    "C67_inclusive_set_relabel_run",
    "C67_inclusive_set_relabel_expressions",
    "C67_relabel_map_programs",
    "C67_relabel_set_programs",
    "C67_inclusive_relabel_map_programs",
    "C67_inclusive_relabel_set_programs"
   ],
   "note": ""
  },
  {
   "property": "C68",
   "status": "proved",
   "theorems": [
    "C68_map_cmp",
    "C68_map_partial_cmp",
    "C68_inclusive_map_cmp",
    "C68_inclusive_map_partial_cmp",
    "C68_set_cmp",
    "C68_set_partial_cmp",
    "C68_inclusive_set_cmp",
    "C68_inclusive_set_partial_cmp"
   ],
   "note": ""
  },
  {
   "property": "C69",
   "status": "proved",
   "theorems": [
    "C69_map_text",
    "C69_inclusive_map_text",
    "C69_set_text",
    "C69_inclusive_set_text",
    "C69_map_separates",
    "C69_inclusive_map_separates",
    "C69_set_separates",
    "C69_inclusive_set_separates",
    "C69_map_consistent",
    "C69_inclusive_map_consistent",
    "C69_set_consistent",
    "C69_inclusive_set_consistent",
    "C69_integers"
   ],
   "note": ""
  },
  {
   "property": "C70",
   "status": "proved",
   "theorems": [
    "C70_map_tiles",
    "C70_map_empty_query",
    "C70_inclusive_map_tiles",
    "C70_inclusive_map_backward_query",
    "C70_set_tiles",
    "C70_set_empty_query",
    "C70_inclusive_set_tiles",
    "C70_inclusive_set_backward_query"
   ],
   "note": ""
  },
  {
   "property": "C71",
   "status": "proved",
   "theorems": [
    "C71_call_budget",
    "C71_history_budget",
    "C71_at_least",
    "C71_bounded_call_refuted"
   ],
   "note": ""
  },
  {
   "property": "C72",
   "status": "proved",
   "theorems": [
    "C72_call_budget",
    "C72_history_budget",
    "C72_at_least",
    "C72_bounded_call_refuted"
   ],
   "note": ""
  },
  {
   "property": "C73",
   "status": "proved",
   "theorems": [
    "C73_same_entries",
    "C73_same_outcomes",
    "C73_last_writer_wins",
    "C73_overlapping",
    "C73_gaps",
    "C73_clone_of_map",
    "C73_identity",
    "C73_unlawful_clone_refuted"
   ],
   "note": ""
  },
  {
   "property": "C74",
   "status": "proved",
   "theorems": [
    "C74_same_entries",
    "C74_same_outcomes",
    "C74_last_writer_wins",
    "C74_get_same",
    "C74_overlapping",
    "C74_gaps",
    "C74_clone_of_map",
    "C74_identity",
    "C74_unlawful_clone_refuted"
   ],
   "note": ""
  },
  {
   "property": "C75",
   "status": "proved",
   "theorems": [
    "C75_ord_contract",
    "C75_borrow_law_refuted",
    "C75_borrow_law_at_every_moment",
    "C75_search_at_every_moment"
   ],
   "note": ""
  },
  {
   "property": "C76",
   "status": "proved",
   "theorems": [
    "C76_ord_contract",
    "C76_borrow_law_refuted",
    "C76_borrow_law_at_every_moment",
    "C76_search_at_every_moment"
   ],
   "note": ""
  },
  {
   "property": "C77",
   "status": "proved",
   "theorems": [
    "C77_overlaps",
    "C77_touches",
    "C77_symmetric",
    "C77_touches_empty_refuted"
   ],
   "note": ""
  },
  {
   "property": "C78",
   "status": "proved",
   "theorems": [
    "C78_overlaps",
    "C78_touches_returns",
    "C78_touches",
    "C78_symmetric",
    "C78_overlaps_exhausted_refuted"
   ],
   "note": ""
  },
  {
   "property": "C79",
   "status": "proved",
   "theorems": [
    "C79_histories",
    "C79_same_outcomes",
    "C79_contains",
    "C79_union",
    "C79_intersection",
    "C79_expressions",
    "C79_identity",
    "C79_unlawful_clone_refuted"
   ],
   "note": ""
  },
  {
   "property": "C80",
   "status": "proved",
   "theorems": [
    "C80_histories",
    "C80_same_outcomes",
    "C80_contains",
    "C80_union",
    "C80_intersection",
    "C80_expressions",
    "C80_same_ranges",
    "C80_contains_same",
    "C80_union_exhausted",
    "C80_expressions_exhausted",
    "C80_identity",
    "C80_unlawful_clone_refuted"
   ],
   "note": ""
  },
  {
   "property": "C81",
   "status": "proved",
   "theorems": [
    "C81_updates_ignore_flag",
    "C81_maximal_runs",
    "C81_contains",
    "C81_get",
    "C81_gaps",
    "C81_overlapping",
    "C81_overlaps",
    "C81_intersection",
    "C81_union",
    "C81_closed",
    "C81_cmp_iff_boolean_identity",
    "C81_round_trip",
    "C81_union_disjoint_refuted",
    "C81_bitor_contains_refuted",
    "C81_bitand_contains_refuted",
    "C81_bitor_commutes_refuted"
   ],
   "note": ""
  },
  {
   "property": "C82",
   "status": "proved",
   "theorems": [
    "C82_rest",
    "C82_union_new",
    "C82_intersection_new",
    "C82_rest_inclusive",
    "C82_union_new_inclusive",
    "C82_intersection_new_inclusive"
   ],
   "note": ""
  },
  {
   "property": "C83",
   "status": "proved",
   "theorems": [
    "C83_record_faithful",
    "C83_insert",
    "C83_remove",
    "C83_call_work",
    "C83_history_work"
   ],
   "note": ""
  },
  {
   "property": "C84",
   "status": "proved",
   "theorems": [
    "C84_record_faithful",
    "C84_insert",
    "C84_remove",
    "C84_call_work",
    "C84_history_work"
   ],
   "note": ""
  },
  {
   "property": "C85",
   "status": "proved",
   "theorems": [
    "C85_map_text",
    "C85_inclusive_map_text",
    "C85_set_text",
    "C85_inclusive_set_text",
    "C85_map_separates",
    "C85_inclusive_map_separates",
    "C85_set_separates",
    "C85_inclusive_set_separates",
    "C85_map_consistent",
    "C85_inclusive_map_consistent",
    "C85_set_consistent",
    "C85_inclusive_set_consistent",
    "C85_integers"
   ],
   "note": ""
  },
  {
   "property": "C86",
   "status": "proved",
   "theorems": [
    "C86_overlapping",
    "C86_gaps",
    "C86_bounded_next_back_refuted"
   ],
   "note": ""
  },
  {
   "property": "C87",
   "status": "proved",
   "theorems": [
    "C87_overlapping",
    "C87_gaps",
    "C87_bounded_next_back_refuted"
   ],
   "note": ""
  },
  {
   "property": "C88",
   "status": "proved",
   "theorems": [
    "C88_linked_to_last_writer",
    "C88_contains_key_exact",
    "C88_insert_outcome",
    "C88_remove_outcome",
    "C88_iter_and_lookup",
    "C88_gaps_exact",
    "C88_overlapping_schedules",
    "C88_overlaps",
    "C88_reachable_lawfully",
    "C88_linked_lawful",
    "C88_last_writer_wins_refuted",
    "C88_coalesced_refuted"
   ],
   "note": ""
  },
  {
   "property": "C89",
   "status": "proved",
   "theorems": [
    "C89_linked_to_last_writer",
    "C89_contains_key_exact",
    "C89_insert_outcome",
    "C89_remove_outcome",
    "C89_iter_and_lookup",
    "C89_linked_by_bounds",
    "C89_contains_key_exhausted",
    "C89_insert_by_bounds",
    "C89_remove_by_bounds",
    "C89_gaps_exact",
    "C89_overlapping_schedules",
    "C89_overlaps",
    "C89_reachable_lawfully",
    "C89_last_writer_wins_refuted",
    "C89_coalesced_refuted"
   ],
   "note": ""
  },
  {
   "property": "C90",
   "status": "proved",
   "theorems": [
    "C90_laws_exact",
    "C90_laws_necessary",
    "C90_set_laws_exact",
    "C90_dense_keys_never",
    "C90_total_steps_enough_refuted"
   ],
   "note": ""
  },
  {
   "property": "C91",
   "status": "proved",
   "theorems": [
    "C91_gaps",
    "C91_overlapping",
    "C91_overlaps",
    "C91_get_key_value",
    "C91_first_last_len",
    "C91_set_ranges",
    "C91_set_contains",
    "C91_set_gaps",
    "C91_set_overlapping",
    "C91_set_overlaps",
    "C91_set_get",
    "C91_set_first_last_len",
    "C91_set_union",
    "C91_set_intersection",
    "C91_set_programs",
    "C91_programs",
    "C91_programs_sets",
    "C91_integer_types",
    "C91_integer_programs"
   ],
   "note": ""
  },
  {
   "property": "C92",
   "status": "proved",
   "theorems": [
    "C92_coalesce",
    "C92_gaps",
    "C92_inclusive_coalesce",
    "C92_inclusive_gaps",
    "C92_u8",
    "C92_symmetry_needed_refuted"
   ],
   "note": ""
  },
  {
   "property": "C93",
   "status": "proved",
   "theorems": [
    "C93_map",
    "C93_map_arbitrary",
    "C93_map_hash",
    "C93_map_ord",
    "C93_map_quickcheck",
    "C93_inclusive_map",
    "C93_inclusive_map_arbitrary",
    "C93_inclusive_map_hash",
    "C93_inclusive_map_ord",
    "C93_inclusive_map_quickcheck",
    "C93_set",
    "C93_set_arbitrary",
    "C93_set_hash",
    "C93_set_ord",
    "C93_set_quickcheck",
    "C93_set_overlaps",
    "C93_set_contains",
    "C93_inclusive_set",
    "C93_inclusive_set_arbitrary",
    "C93_inclusive_set_hash",
    "C93_inclusive_set_ord",
    "C93_inclusive_set_quickcheck",
    "C93_inclusive_set_overlaps",
    "C93_inclusive_set_contains",
    "C93_floats"
   ],
   "note": ""
  },
  {
   "property": "C94",
   "status": "proved",
   "theorems": [
    "C94_insert",
    "C94_remove",
    "C94_history",
    "C94_rebuild",
    "C94_set_insert",
    "C94_set_remove"
   ],
   "note": ""
  },
  {
   "property": "C95",
   "status": "proved",
   "theorems": [
    "C95_insert",
    "C95_remove",
    "C95_history",
    "C95_rebuild",
    "C95_set_insert",
    "C95_set_remove"
   ],
   "note": ""
  },
  {
   "property": "C96",
   "status": "proved",
   "theorems": [
    "C96_map_programs",
    "C96_set_programs",
    "C96_map_equality",
    "C96_set_equality",
    "C96_gap_count",
    "C96_map_programs_any_closure",
    "C96_set_programs_any_closure",
    "C96_apply_any_closure",
    "C96_where_any_closure",
    "C96_extend",
    "C96_minus",
    "C96_partition",
    "C96_fill",
    "C96_values",
    "C96_complement",
    "C96_difference"
   ],
   "note": ""
  },
  {
   "property": "C97",
   "status": "proved",
   "theorems": [
    "C97_map_programs",
    "C97_set_programs",
    "C97_map_equality",
    "C97_set_equality",
    "C97_map_programs_any",
    "C97_set_programs_any",
    "C97_map_cmp",
    "C97_set_cmp",
    "C97_gap_count",
    "C97_map_programs_any_closure",
    "C97_set_programs_any_closure",
    "C97_apply_any_closure",
    "C97_where_any_closure",
    "C97_extend",
    "C97_minus",
    "C97_partition",
    "C97_fill",
    "C97_values",
    "C97_complement",
    "C97_difference",
    "C97_lawless_steps_refuted"
   ],
   "note": ""
  },
  {
   "property": "C98",
   "status": "proved",
   "theorems": [
    "C98_union_fused",
    "C98_intersection_fused",
    "C98_union_no_panic",
    "C98_union",
    "C98_intersection",
    "C98_union_lazy",
    "C98_intersection_lazy",
    "C98_unsorted_intersection_refuted",
    "C98_unsorted_union_refuted",
    "C98_overlapping_intersection_refuted"
   ],
   "note": ""
  },
  {
   "property": "C99",
   "status": "proved",
   "theorems": [
    "C99_union",
    "C99_intersection",
    "C99_union_lazy",
    "C99_intersection_lazy",
    "C99_exhausted_union_refuted",
    "C99_unsorted_intersection_refuted",
    "C99_unsorted_union_refuted",
    "C99_overlapping_intersection_refuted"
   ],
   "note": ""
  },
  {
   "property": "C100",
   "status": "proved",
   "theorems": [
    "C100_insert",
    "C100_remove",
    "C100_call",
    "C100_clear",
    "C100_history",
    "C100_queries",
    "C100_bounded_call_refuted"
   ],
   "note": ""
  },
  {
   "property": "C101",
   "status": "proved",
   "theorems": [
    "C101_insert",
    "C101_remove",
    "C101_call",
    "C101_clear",
    "C101_history",
    "C101_queries",
    "C101_bounded_call_refuted"
   ],
   "note": ""
  },
  {
   "property": "C102",
   "status": "proved",
   "theorems": [
    "C102_half_open_model",
    "C102_half_open_union_next",
    "C102_half_open_intersection_next",
    "C102_half_open_union",
    "C102_half_open_intersection",
    "C102_inclusive_model",
    "C102_inclusive_union_next",
    "C102_inclusive_intersection_next",
    "C102_inclusive_union",
    "C102_inclusive_intersection"
   ],
   "note": ""
  },
  {
   "property": "C103",
   "status": "proved",
   "theorems": [
    "C103_next",
    "C103_clones",
    "C103_calls"
   ],
   "note": ""
  },
  {
   "property": "C104",
   "status": "proved",
   "theorems": [
    "C104_next",
    "C104_clones",
    "C104_calls"
   ],
   "note": ""
  },
  {
   "property": "C105",
   "status": "proved",
   "theorems": [
    "C105_record_faithful",
    "C105_record_complete",
    "C105_interrupted_reachable",
    "C105_interrupted_runs",
    "C105_insert_interrupted",
    "C105_remove_interrupted",
    "C105_extend_interrupted",
    "C105_no_loss_refuted"
   ],
   "note": ""
  },
  {
   "property": "C106",
   "status": "proved",
   "theorems": [
    "C106_record_faithful",
    "C106_record_complete",
    "C106_interrupted_reachable",
    "C106_interrupted_covers",
    "C106_insert_interrupted",
    "C106_remove_interrupted",
    "C106_extend_interrupted",
    "C106_no_loss_refuted"
   ],
   "note": ""
  },
  {
   "property": "C107",
   "status": "proved",
   "theorems": [
    "C107_iter_and_lookup",
    "C107_insert_outcome",
    "C107_remove_outcome",
    "C107_insert_interrupted",
    "C107_remove_interrupted",
    "C107_interrupted_reachable",
    "C107_only_touching_refuted"
   ],
   "note": ""
  },
  {
   "property": "C108",
   "status": "proved",
   "theorems": [
    "C108_iter_and_lookup",
    "C108_insert_outcome",
    "C108_remove_outcome",
    "C108_insert_interrupted",
    "C108_remove_interrupted",
    "C108_interrupted_reachable",
    "C108_only_touching_refuted"
   ],
   "note": ""
  },
  {
   "property": "C109",
   "status": "proved",
   "theorems": [
    "C109_iter_and_lookup",
    "C109_reachable",
    "C109_insert_outcome",
    "C109_insert_returns",
    "C109_insert_interrupted",
    "C109_remove_outcome",
    "C109_function",
    "C109_insert_always_returns_refuted"
   ],
   "note": ""
  },
  {
   "property": "C110",
   "status": "proved",
   "theorems": [
    "C110_iter_and_lookup",
    "C110_reachable",
    "C110_insert_outcome",
    "C110_insert_returns",
    "C110_insert_interrupted",
    "C110_remove_outcome",
    "C110_function",
    "C110_insert_always_returns_refuted"
   ],
   "note": ""
  },
  {
   "property": "C111",
   "status": "proved",
   "theorems": [
    "C111_erase",
    "C111_calls",
    "C111_overlapping",
    "C111_gaps",
    "C111_gaps_unmapped",
    "C111_set_gaps",
    "C111_overlapping_retry_refuted",
    "C111_gaps_unmapped_refuted"
   ],
   "note": ""
  },
  {
   "property": "C112",
   "status": "proved",
   "theorems": [
    "C112_erase",
    "C112_calls",
    "C112_overlapping",
    "C112_gaps",
    "C112_gaps_unmapped",
    "C112_set_gaps",
    "C112_overlapping_retry_refuted",
    "C112_gaps_unmapped_refuted"
   ],
   "note": ""
  },
  {
   "property": "C113",
   "status": "proved",
   "theorems": [
    "C113_erase",
    "C113_calls",
    "C113_union",
    "C113_intersection",
    "C113_set_union",
    "C113_set_intersection",
    "C113_union_covers_refuted"
   ],
   "note": ""
  },
  {
   "property": "C114",
   "status": "proved",
   "theorems": [
    "C114_erase",
    "C114_calls",
    "C114_union",
    "C114_intersection",
    "C114_set_union",
    "C114_set_intersection",
    "C114_union_covers_refuted"
   ],
   "note": ""
  },
  {
   "property": "C115",
   "status": "proved",
   "theorems": [
    "C115_model",
    "C115_overlapping",
    "C115_gaps_next",
    "C115_gaps_run",
    "C115_borrow",
    "C115_fused_refuted",
    "C115_gaps_ends_refuted"
   ],
   "note": ""
  },
  {
   "property": "C116",
   "status": "proved",
   "theorems": [
    "C116_model",
    "C116_overlapping",
    "C116_gaps_next",
    "C116_gaps_run",
    "C116_borrow",
    "C116_fused_refuted",
    "C116_gaps_ends_refuted"
   ],
   "note": ""
  },
  {
   "property": "C117",
   "status": "proved",
   "theorems": [
    "C117_call",
    "C117_gaps",
    "C117_quiet",
    "C117_valid",
    "C117_reachable",
    "C117_outcome",
    "C117_insert",
    "C117_remove",
    "C117_set_call",
    "C117_set_quiet",
    "C117_set_bitor_bitand",
    "C117_set_expressions_quiet",
    "C117_set_reachable",
    "C117_set_valid",
    "C117_set_outcome",
    "C117_set_insert",
    "C117_set_remove",
    "C117_set_expressions",
    "C117_set_expressions_gain_nothing",
    "C117_set_gain_nothing_refuted",
    "C117_programs_quiet",
    "C117_map_programs",
    "C117_set_programs"
   ],
   "note": ""
  },
  {
   "property": "C118",
   "status": "proved",
   "theorems": [
    "C118_rounds",
    "C118_hangs_exact",
    "C118_honest_bound",
    "C118_honest_forward",
    "C118_lawful_honest",
    "C118_set_hangs_exact",
    "C118_set_insert_returns",
    "C118_honest_never_back"
   ],
   "note": ""
  },
  {
   "property": "C119",
   "status": "proved",
   "theorems": [
    "C119_shape",
    "C119_outcome",
    "C119_last_writer_wins",
    "C119_lookup",
    "C119_lookup_none",
    "C119_overlapping",
    "C119_overlaps",
    "C119_coalesced",
    "C119_eq_extensional",
    "C119_gaps",
    "C119_exact",
    "C119_set_contains",
    "C119_set_exact",
    "C119_set_expressions",
    "C119_set_contains_expressions",
    "C119_set_eq",
    "C119_map_programs",
    "C119_set_programs",
    "C119_programs_any_closure",
    "C119_apply_any_closure",
    "C119_where_any_closure",
    "C119_programs_lookup",
    "C119_map_programs_eq",
    "C119_set_programs_eq",
    "C119_all_keys",
    "C119_unaligned_refuted",
    "C119_holes_refuted"
   ],
   "note": ""
  }
 ]
}
