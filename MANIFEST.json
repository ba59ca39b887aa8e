{
 "claims": [
  {
   "property": "C01",
   "status": "proved",
   "theorems": [
    "C01_one_level",
    "C01_no_sender_with_receiver"
   ],
   "note": ""
  },
  {
   "property": "C02",
   "status": "proved",
   "theorems": [
    "C02_levels_increase",
    "C02_once_per_pass",
    "C02_senders_first"
   ],
   "note": ""
  },
  {
   "property": "C03",
   "status": "proved",
   "theorems": [
    "C03_sound"
   ],
   "note": ""
  },
  {
   "property": "C04",
   "status": "proved",
   "theorems": [
    "C04_maximal",
    "C04_skipped_levels",
    "C04_without_side_effects",
    "C04_plain_conditions",
    "C04_terminates"
   ],
   "note": ""
  },
  {
   "property": "C05",
   "status": "proved",
   "theorems": [
    "C05_consideration_set",
    "C05_resume",
    "C05_run",
    "C05_scheduler",
    "C05_lower_bounds",
    "C05_termination_conditions",
    "C05_upper_bound_refuted",
    "C05_same_set_refuted",
    "C05_nwhen_refuted",
    "C05_exception_refuted",
    "C05_exact_mode_refuted"
   ],
   "note": ""
  },
  {
   "property": "C06",
   "status": "proved",
   "theorems": [
    "C06_counts",
    "C06_counts_on_return",
    "C06_agreement_kept",
    "C06_agreement_on_return"
   ],
   "note": ""
  },
  {
   "property": "C07",
   "status": "proved",
   "theorems": [
    "C07_useable"
   ],
   "note": ""
  },
  {
   "property": "C08",
   "status": "proved",
   "theorems": [
    "C08_spacing",
    "C08_rate"
   ],
   "note": ""
  },
  {
   "property": "C09",
   "status": "proved",
   "theorems": [
    "C09_yield_only_while_false",
    "C09_stops_at_start",
    "C09_stops_at_yield",
    "C09_returns_only_when_true",
    "C09_true_once_ends_run_refuted"
   ],
   "note": ""
  },
  {
   "property": "C10",
   "status": "proved",
   "theorems": [
    "C10_progress",
    "C10_progress_absolute",
    "C10_empty_graph_refuted"
   ],
   "note": ""
  },
  {
   "property": "C11",
   "status": "proved",
   "theorems": [
    "C11_every_pass_yields",
    "C11_empty_set_alone",
    "C11_empty_set_means_idle"
   ],
   "note": ""
  },
  {
   "property": "C12",
   "status": "proved",
   "theorems": [
    "C12_clock_counts",
    "C12_clock_history",
    "C12_clock_on_return"
   ],
   "note": ""
  },
  {
   "property": "C13",
   "status": "proved",
   "theorems": [
    "C13_default_run"
   ],
   "note": ""
  },
  {
   "property": "C14",
   "status": "proved",
   "theorems": [
    "C14_execution_list",
    "C14_returned_list"
   ],
   "note": ""
  },
  {
   "property": "C15",
   "status": "proved",
   "theorems": [
    "C15_isolation",
    "C15_others_untouched",
    "C15_side_effects_refuted"
   ],
   "note": ""
  },
  {
   "property": "C16",
   "status": "proved",
   "theorems": [
    "C16_default_id_ignored",
    "C16_default_id_used_refuted"
   ],
   "note": ""
  },
  {
   "property": "C17",
   "status": "proved",
   "theorems": [
    "C17_copied_from_base",
    "C17_unknown_base",
    "C17_unknown_base_error",
    "C17_absolute_never_yields",
    "C17_absolute_refuted",
    "C17_deleted"
   ],
   "note": ""
  },
  {
   "property": "C18",
   "status": "proved",
   "theorems": [
    "C18_consideration_set_executions",
    "C18_passes",
    "C18_environment_state_updates",
    "C18_environment_sequences"
   ],
   "note": ""
  },
  {
   "property": "C19",
   "status": "proved",
   "theorems": [
    "C19_call_counts",
    "C19_combined",
    "C19_all_have_run",
    "C19_just_ran",
    "C19_counts_are_calls"
   ],
   "note": ""
  },
  {
   "property": "C20",
   "status": "proved",
   "theorems": [
    "C20_nwhen",
    "C20_counter_frame"
   ],
   "note": ""
  },
  {
   "property": "C21",
   "status": "proved",
   "theorems": [
    "C21_connectives",
    "C21_composites_observe",
    "C21_short_circuit"
   ],
   "note": ""
  },
  {
   "property": "C22",
   "status": "proved",
   "theorems": [
    "C22_start",
    "C22_senders_since",
    "C22_default_state_kept",
    "C22_follows_graph_refuted"
   ],
   "note": ""
  },
  {
   "property": "C23",
   "status": "proved",
   "theorems": [
    "C23_queue_partition"
   ],
   "note": ""
  },
  {
   "property": "C24",
   "status": "proved",
   "theorems": [
    "C24_longest_path",
    "C24_senders_earlier",
    "C24_same_senders_same_level"
   ],
   "note": ""
  },
  {
   "property": "C25",
   "status": "proved",
   "theorems": [
    "C25_self_loop_refuted",
    "C25_cycle_reported_iff",
    "C25_queue_exists_iff",
    "C25_cycle_raises",
    "C25_acyclic_starts"
   ],
   "note": ""
  },
  {
   "property": "C26",
   "status": "proved",
   "theorems": [
    "C26_operations",
    "C26_sets"
   ],
   "note": ""
  },
  {
   "property": "C27",
   "status": "proved",
   "theorems": [
    "C27_no_mutation",
    "C27_same_keys",
    "C27_errors"
   ],
   "note": ""
  },
  {
   "property": "C28",
   "status": "proved",
   "theorems": [
    "C28_add_edge",
    "C28_remove_edge",
    "C28_missing_nodes"
   ],
   "note": ""
  },
  {
   "property": "C29",
   "status": "proved",
   "theorems": [
    "C29_before",
    "C29_after",
    "C29_before_any_operations",
    "C29_after_any_operations",
    "C29_aliasing_refuted"
   ],
   "note": ""
  },
  {
   "property": "C30",
   "status": "proved",
   "theorems": [
    "C30_with"
   ],
   "note": ""
  },
  {
   "property": "C31",
   "status": "proved",
   "theorems": [
    "C31_terminates",
    "C31_keeps_needed"
   ],
   "note": ""
  },
  {
   "property": "C32",
   "status": "proved",
   "theorems": [
    "C32_operations"
   ],
   "note": ""
  },
  {
   "property": "C33",
   "status": "proved",
   "theorems": [
    "C33_queue",
    "C33_cyclic_idle",
    "C33_graph",
    "C33_runs",
    "C33_remove_undoes",
    "C33_moved_condition_refuted"
   ],
   "note": ""
  },
  {
   "property": "C34",
   "status": "proved",
   "theorems": [
    "C34_recover",
    "C34_failure_atomic_refuted",
    "C34_failed_set"
   ],
   "note": ""
  },
  {
   "property": "C35",
   "status": "proved",
   "theorems": [
    "C35_new",
    "C35_setitem",
    "C35_setitem_refuted",
    "C35_condition_set"
   ],
   "note": ""
  },
  {
   "property": "C36",
   "status": "proved",
   "theorems": [
    "C36_remove_condition",
    "C36_by_owner",
    "C36_no_owner",
    "C36_by_owner_refuted",
    "C36_structural_by_owner_refuted",
    "C36_not_registered_refuted"
   ],
   "note": ""
  },
  {
   "property": "C37",
   "status": "proved",
   "theorems": [
    "C37_owners",
    "C37_every_n_calls",
    "C37_shared_object_refuted"
   ],
   "note": ""
  },
  {
   "property": "C38",
   "status": "proved",
   "theorems": [
    "C38_relative_total",
    "C38_root_total",
    "C38_too_fine",
    "C38_coarse_query",
    "C38_histories",
    "C38_no_life",
    "C38_max_depth_refuted"
   ],
   "note": ""
  },
  {
   "property": "C39",
   "status": "proved",
   "theorems": [
    "C39_time_component",
    "C39_previous_time",
    "C39_new_clock"
   ],
   "note": ""
  },
  {
   "property": "C40",
   "status": "proved",
   "theorems": [
    "C40_past_scope",
    "C40_past_sequence",
    "C40_indices",
    "C40_clock"
   ],
   "note": ""
  },
  {
   "property": "C41",
   "status": "proved",
   "theorems": [
    "C41_roundtrip",
    "C41_strings",
    "C41_two",
    "C41_names",
    "C41_attributes",
    "C41_time_constructor",
    "C41_scales",
    "C41_new_absolute",
    "C41_absolute_arguments_refuted",
    "C41_taken",
    "C41_no_such_scale",
    "C41_no_such_alias",
    "C41_substring_refuted",
    "C41_second_refuted",
    "C41_not_atomic_refuted",
    "C41_property_refuted",
    "C41_simple_time_refuted"
   ],
   "note": ""
  },
  {
   "property": "C42",
   "status": "proved",
   "theorems": [
    "C42_divides",
    "C42_longest",
    "C42_positive",
    "C42_default",
    "C42_parse_value",
    "C42_parse_unit",
    "C42_binary_prefix_refuted"
   ],
   "note": ""
  },
  {
   "property": "C43",
   "status": "proved",
   "theorems": [
    "C43_executed",
    "C43_visited",
    "C43_fixed_points",
    "C43_exclusive_start_refuted",
    "C43_end_refuted",
    "C43_termination_refuted"
   ],
   "note": ""
  },
  {
   "property": "C44",
   "status": "proved",
   "theorems": [
    "C44_before",
    "C44_bounded",
    "C44_ends",
    "C44_count",
    "C44_alone_refuted"
   ],
   "note": ""
  },
  {
   "property": "C45",
   "status": "proved",
   "theorems": [
    "C45_timestamps"
   ],
   "note": ""
  },
  {
   "property": "C46",
   "status": "proved",
   "theorems": [
    "C46_constructor",
    "C46_no_graph",
    "C46_clone",
    "C46_clone_input",
    "C46_base_graph",
    "C46_string_value_refuted",
    "C46_atom_value_refuted"
   ],
   "note": ""
  },
  {
   "property": "C47",
   "status": "proved",
   "theorems": [
    "C47_receivers",
    "C47_twice"
   ],
   "note": ""
  },
  {
   "property": "C48",
   "status": "proved",
   "theorems": [
    "C48_ancestors",
    "C48_descendants"
   ],
   "note": ""
  },
  {
   "property": "C49",
   "status": "proved",
   "theorems": [
    "C49_constructor",
    "C49_to_digraph",
    "C49_from_digraph",
    "C49_round_trip"
   ],
   "note": ""
  },
  {
   "property": "C50",
   "status": "proved",
   "theorems": [
    "C50_keywords",
    "C50_positional",
    "C50_received",
    "C50_condition",
    "C50_default_refuted",
    "C50_kinds_refuted",
    "C50_execution_id_refuted"
   ],
   "note": ""
  },
  {
   "property": "C51",
   "status": "proved",
   "theorems": [
    "C51_value",
    "C51_frame",
    "C51_bounded",
    "C51_shared_refuted",
    "C51_collision_refuted"
   ],
   "note": ""
  },
  {
   "property": "C52",
   "status": "proved",
   "theorems": [
    "C52_parse",
    "C52_parse_conditions",
    "C52_assignments",
    "C52_assignment_errors",
    "C52_constructor",
    "C52_run",
    "C52_constructor_dict",
    "C52_run_dict",
    "C52_string_keys_refuted"
   ],
   "note": ""
  },
  {
   "property": "C53",
   "status": "proved",
   "theorems": [
    "C53_passes_go_on",
    "C53_not_counted",
    "C53_after_completed_run",
    "C53_fresh_start_refuted"
   ],
   "note": ""
  },
  {
   "property": "C54",
   "status": "proved",
   "theorems": [
    "C54_after_exception",
    "C54_counts_agree_refuted"
   ],
   "note": ""
  },
  {
   "property": "C55",
   "status": "proved",
   "theorems": [
    "C55_threshold",
    "C55_accepts",
    "C55_rejects",
    "C55_constructed",
    "C55_errors"
   ],
   "note": ""
  },
  {
   "property": "C56",
   "status": "proved",
   "theorems": [
    "C56_calls_allowed",
    "C56_one_level",
    "C56_no_sender_with_receiver",
    "C56_sound",
    "C56_maximal",
    "C56_empty_set",
    "C56_progress",
    "C56_execution_list",
    "C56_counts",
    "C56_agreement_kept",
    "C56_useable",
    "C56_clock",
    "C56_timestamps",
    "C56_passes",
    "C56_every_pass_yields",
    "C56_returned",
    "C56_once_per_pass_refuted",
    "C56_passed_over_refuted",
    "C56_removed_condition_refuted",
    "C56_unusable",
    "C56_unusable_records",
    "C56_unusable_new",
    "C56_unusable_after_set",
    "C56_unusable_after_idle"
   ],
   "note": ""
  },
  {
   "property": "C57",
   "status": "proved",
   "theorems": [
    "C57_add_structural",
    "C57_add_structural_raises",
    "C57_add_graph_edge",
    "C57_remove_graph_edge",
    "C57_missing_nodes",
    "C57_self_edge"
   ],
   "note": ""
  },
  {
   "property": "C58",
   "status": "proved",
   "theorems": [
    "C58_when_finished",
    "C58_when_finished_any",
    "C58_when_finished_all",
    "C58_only_world",
    "C58_no_is_finished",
    "C58_while",
    "C58_starts"
   ],
   "note": ""
  },
  {
   "property": "C59",
   "status": "proved",
   "theorems": [
    "C59_exact_rate",
    "C59_at_most_one_behind",
    "C59_when_b_runs",
    "C59_senders",
    "C59_termination_conditions",
    "C59_cut_pass_refuted"
   ],
   "note": ""
  },
  {
   "property": "C60",
   "status": "proved",
   "theorems": [
    "C60_complete_passes",
    "C60_no_other_pass",
    "C60_pass_conditions",
    "C60_conditions_by_pass",
    "C60_termination_conditions",
    "C60_cut_pass_refuted"
   ],
   "note": ""
  },
  {
   "property": "C61",
   "status": "proved",
   "theorems": [
    "C61_names",
    "C61_other_objects",
    "C61_same_condition",
    "C61_dicts_reusable",
    "C61_accepts",
    "C61_rejects",
    "C61_misspelt_refuted",
    "C61_missing_refuted",
    "C61_caller_dict_refuted"
   ],
   "note": ""
  },
  {
   "property": "C62",
   "status": "proved",
   "theorems": [
    "C62_never_raises",
    "C62_run",
    "C62_new_scheduler",
    "C62_any_condition_refuted"
   ],
   "note": ""
  },
  {
   "property": "C63",
   "status": "proved",
   "theorems": [
    "C63_run_returns",
    "C63_new_scheduler",
    "C63_conditions"
   ],
   "note": ""
  },
  {
   "property": "C64",
   "status": "proved",
   "theorems": [
    "C64_runs_or_false_at_its_turn",
    "C64_runs_when_due",
    "C64_conditions"
   ],
   "note": ""
  },
  {
   "property": "C65",
   "status": "proved",
   "theorems": [
    "C65_due_nodes_run",
    "C65_run_returns",
    "C65_new_scheduler",
    "C65_default_termination"
   ],
   "note": ""
  },
  {
   "property": "C66",
   "status": "proved",
   "theorems": [
    "C66_numbers",
    "C66_past",
    "C66_execution_list",
    "C66_counts",
    "C66_conditions",
    "C66_node",
    "C66_at_update",
    "C66_sequence_counts_refuted"
   ],
   "note": ""
  },
  {
   "property": "C67",
   "status": "proved",
   "theorems": [
    "C67_steps",
    "C67_interval",
    "C67_single",
    "C67_repeat",
    "C67_lasts",
    "C67_start_refuted"
   ],
   "note": ""
  },
  {
   "property": "C68",
   "status": "proved",
   "theorems": [
    "C68_interval",
    "C68_window",
    "C68_backwards",
    "C68_string_refuted",
    "C68_mixed",
    "C68_termination"
   ],
   "note": ""
  },
  {
   "property": "C69",
   "status": "proved",
   "theorems": [
    "C69_complete",
    "C69_cuts",
    "C69_before",
    "C69_before_node",
    "C69_after",
    "C69_with",
    "C69_before_refuted",
    "C69_after_refuted",
    "C69_with_refuted"
   ],
   "note": ""
  },
  {
   "property": "C70",
   "status": "proved",
   "theorems": [
    "C70_received",
    "C70_clash_refuted",
    "C70_override_refuted"
   ],
   "note": ""
  },
  {
   "property": "C71",
   "status": "proved",
   "theorems": [
    "C71_created",
    "C71_attributes_refuted",
    "C71_composite",
    "C71_composite_refuted"
   ],
   "note": ""
  },
  {
   "property": "C72",
   "status": "proved",
   "theorems": [
    "C72_chain",
    "C72_passes",
    "C72_schedule"
   ],
   "note": ""
  },
  {
   "property": "C73",
   "status": "proved",
   "theorems": [
    "C73_displayed",
    "C73_root",
    "C73_undone_refuted",
    "C73_configured_refuted"
   ],
   "note": ""
  },
  {
   "property": "C74",
   "status": "proved",
   "theorems": [
    "C74_frozen",
    "C74_frozen_on_return",
    "C74_negation",
    "C74_mode_refuted"
   ],
   "note": ""
  },
  {
   "property": "C75",
   "status": "proved",
   "theorems": [
    "C75_receives",
    "C75_untouched",
    "C75_scheduler",
    "C75_only_nodes",
    "C75_validated_refuted"
   ],
   "note": ""
  },
  {
   "property": "C76",
   "status": "proved",
   "theorems": [
    "C76_all_have_run",
    "C76_returns_at_once",
    "C76_scheduler",
    "C76_shut_out",
    "C76_unsatisfiable"
   ],
   "note": ""
  },
  {
   "property": "C77",
   "status": "proved",
   "theorems": [
    "C77_schedule",
    "C77_built_in",
    "C77_yielded_set",
    "C77_execution_list_refuted",
    "C77_just_ran_refuted"
   ],
   "note": ""
  },
  {
   "property": "C78",
   "status": "proved",
   "theorems": [
    "C78_registered",
    "C78_order"
   ],
   "note": ""
  },
  {
   "property": "C79",
   "status": "proved",
   "theorems": [
    "C79_part",
    "C79_ruled",
    "C79_conditions",
    "C79_sets",
    "C79_beside_refuted"
   ],
   "note": ""
  },
  {
   "property": "C80",
   "status": "proved",
   "theorems": [
    "C80_again",
    "C80_every_time",
    "C80_two_runs",
    "C80_conditions",
    "C80_new_scheduler",
    "C80_nwhen_refuted",
    "C80_skip_refuted"
   ],
   "note": ""
  },
  {
   "property": "C81",
   "status": "proved",
   "theorems": [
    "C81_compare",
    "C81_same",
    "C81_any",
    "C81_all",
    "C81_scale",
    "C81_conditions",
    "C81_new_scheduler",
    "C81_mid_pass_refuted"
   ],
   "note": ""
  },
  {
   "property": "C82",
   "status": "proved",
   "theorems": [
    "C82_new",
    "C82_step",
    "C82_run",
    "C82_add_condition",
    "C82_add_condition_set",
    "C82_remove_condition",
    "C82_remove_condition_owner",
    "C82_graph",
    "C82_queue",
    "C82_termination_conds",
    "C82_end_sequence",
    "C82_modify_graph"
   ],
   "note": ""
  },
  {
   "property": "C83",
   "status": "proved",
   "theorems": [
    "C83_node_at_most",
    "C83_node_at_least",
    "C83_node_endless",
    "C83_node_alone",
    "C83_node_return",
    "C83_end_at_most",
    "C83_end_exactly",
    "C83_counters",
    "C83_once_refuted"
   ],
   "note": ""
  },
  {
   "property": "C84",
   "status": "proved",
   "theorems": [
    "C84_reconnects",
    "C84_default",
    "C84_order",
    "C84_errors",
    "C84_keeps",
    "C84_adds",
    "C84_path_refuted",
    "C84_self_refuted"
   ],
   "note": ""
  },
  {
   "property": "C85",
   "status": "proved",
   "theorems": [
    "C85_replacing",
    "C85_set",
    "C85_removing",
    "C85_removing_by_owner",
    "C85_raising",
    "C85_scheduler",
    "C85_own_dependency",
    "C85_first_dependency",
    "C85_own_dependency_refuted",
    "C85_self_senders",
    "C85_no_edge",
    "C85_already",
    "C85_base_graph",
    "C85_cycle",
    "C85_blames_refuted",
    "C85_creates_refuted",
    "C85_exact_time",
    "C85_no_effect_refuted",
    "C85_tolerances",
    "C85_tolerances_ignored"
   ],
   "note": ""
  },
  {
   "property": "C86",
   "status": "proved",
   "theorems": [
    "C86_atomic",
    "C86_all",
    "C86_any",
    "C86_not",
    "C86_nwhen"
   ],
   "note": ""
  },
  {
   "property": "C87",
   "status": "proved",
   "theorems": [
    "C87_list",
    "C87_counts",
    "C87_exact",
    "C87_returns",
    "C87_new",
    "C87_independent_refuted",
    "C87_untimed_refuted"
   ],
   "note": ""
  },
  {
   "property": "C88",
   "status": "proved",
   "theorems": [
    "C88_forward",
    "C88_apart",
    "C88_history",
    "C88_absolute",
    "C88_timestamps",
    "C88_apart_refuted"
   ],
   "note": ""
  },
  {
   "property": "C89",
   "status": "proved",
   "theorems": [
    "C89_copy",
    "C89_owners",
    "C89_order",
    "C89_order_refuted",
    "C89_itself",
    "C89_itself_endless"
   ],
   "note": ""
  },
  {
   "property": "C90",
   "status": "proved",
   "theorems": [
    "C90_lasting",
    "C90_answers",
    "C90_own",
    "C90_time_over",
    "C90_over",
    "C90_as_left",
    "C90_finer_refuted",
    "C90_exact_refuted"
   ],
   "note": ""
  },
  {
   "property": "C91",
   "status": "proved",
   "theorems": [
    "C91_within",
    "C91_own",
    "C91_id",
    "C91_finer_refuted",
    "C91_other_node_refuted"
   ],
   "note": ""
  }
 ]
}