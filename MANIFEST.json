{
 "claims": [
  {
   "property": "C01",
   "status": "proved",
   "theorems": [
    "prerequisites_first",
    "prerequisites_first_partial",
    "inputs_before_rule",
    "prerequisites_first_refuted"
   ],
   "note": "prerequisites_first for graphs in which the outputs of a rule application agree on their dependencies; prerequisites_first_refuted shows the premise is needed (a job starts as soon as one of its outputs is ready)."
  },
  {
   "property": "C02",
   "status": "proved",
   "theorems": [
    "max_jobs"
   ],
   "note": "For every reachable state; running jobs are read off the event log."
  },
  {
   "property": "C03",
   "status": "proved",
   "theorems": [
    "pool_limits"
   ],
   "note": "For every reachable state and every job whose commands execute."
  },
  {
   "property": "C04",
   "status": "proved",
   "theorems": [
    "job_once",
    "command_once",
    "commands_in_order"
   ],
   "note": ""
  },
  {
   "property": "C05",
   "status": "proved",
   "theorems": [
    "failure_stops"
   ],
   "note": ""
  },
  {
   "property": "C06",
   "status": "proved",
   "theorems": [
    "failed_not_consumed",
    "failed_not_needed",
    "keep_going_complete",
    "keep_going_reports",
    "failure_reported_refuted"
   ],
   "note": "failure_reported_refuted: a failed command whose outputs no requested root depends on goes unreported with keep-going."
  },
  {
   "property": "C07",
   "status": "proved",
   "theorems": [
    "success_complete",
    "success_complete_deep",
    "no_failure_success",
    "build_ends",
    "one_report"
   ],
   "note": "build_ends holds without any condition on the graph; no_failure_success needs acyclicity and rule applications that do not remove what other nodes wait for (tracking)."
  },
  {
   "property": "C08",
   "status": "proved",
   "theorems": [
    "cancel_accepted",
    "cancel_stops",
    "build_ends",
    "one_report",
    "keep_going_reports",
    "cancel_reported",
    "cancel_reported_refuted"
   ],
   "note": "cancel_reported_refuted: a cancellation noticed by the periodic check is not recorded, so with keep-going and nothing requested left unbuilt a cancelled build reports success."
  },
  {
   "property": "C09",
   "status": "proved",
   "theorems": [
    "rebuild_decision",
    "directory_time",
    "no_check_failure"
   ],
   "note": "Exact characterisation for every state. In builds restricted to files, tags or rules an internal check can fail instead (check_failure_restricted_refuted)."
  },
  {
   "property": "C10",
   "status": "proved",
   "theorems": [
    "null_build",
    "null_build_nothing"
   ],
   "note": "For every state reachable by a fair history, with forced time stamp checks off."
  },
  {
   "property": "C11",
   "status": "proved",
   "theorems": [
    "incremental_is_clean",
    "affected_regenerated",
    "unrestricted_builds_are_clean"
   ],
   "note": "For histories of file and dependency changes and unrestricted builds nothing is assumed about failed jobs; changed commands and restricted builds can be forgotten (failed_job_lost_refuted, rules_only_lost_refuted, mark_lost_refuted)."
  },
  {
   "property": "C12",
   "status": "proved",
   "theorems": [
    "product_selection"
   ],
   "note": "For every acyclic product graph; the recursion is modelled with fuel and shown never to run out."
  },
  {
   "property": "C13",
   "status": "proved",
   "theorems": [
    "job_limit_precedence",
    "asked_total"
   ],
   "note": ""
  },
  {
   "property": "C14",
   "status": "proved",
   "theorems": [
    "edges_mirrored",
    "safe_histories_acyclic",
    "safe_connect_exact",
    "safe_connect_terminates",
    "connect_cycle",
    "connect_refused",
    "destroyed_edges"
   ],
   "note": "Plain connect makes a cycle exactly if the child already reaches the parent (connect_cycle)."
  },
  {
   "property": "C15",
   "status": "proved",
   "theorems": [
    "detect_exact",
    "detect_terminates",
    "cycle_report_partial",
    "find_path_sound"
   ],
   "note": ""
  },
  {
   "property": "C16",
   "status": "proved",
   "theorems": [
    "rule_nodes_exact",
    "rule_nodes_cycle",
    "rule_nodes_total",
    "rule_nodes_ok_iff",
    "project_exact",
    "project_acyclic",
    "project_failed",
    "project_total",
    "waits_for_inputs_refuted"
   ],
   "note": "Also proved for rules of different products, and for the graph of all rules of a project. waits_for_inputs_refuted shows a consequence of the rule for excluded tags."
  },
  {
   "property": "C17",
   "status": "proved",
   "theorems": [
    "one_generated",
    "insertion_outcome",
    "table_exact",
    "registered_exists",
    "lookup_exact",
    "reload_outcome",
    "source_after_generated_refuted",
    "reload_refuted"
   ],
   "note": ""
  },
  {
   "property": "C18",
   "status": "proved",
   "theorems": [
    "tag_index_exact",
    "set_tags_exact",
    "roots_exact",
    "source_roots_refuted"
   ],
   "note": "Tags are not changed after an artifact has been removed from the product."
  },
  {
   "property": "C19",
   "status": "proved",
   "theorems": [
    "removal_exact",
    "removal_terminates",
    "removal_forgets",
    "removal_keeps",
    "removal_marks",
    "explicit_dependency_refuted",
    "no_inputs_refuted"
   ],
   "note": ""
  },
  {
   "property": "C20",
   "status": "proved",
   "theorems": [
    "output_inside",
    "rule_output_inside",
    "output_accepted"
   ],
   "note": "For an absolute build directory without double dots; symbolic links are not modelled."
  },
  {
   "property": "C21",
   "status": "proved",
   "theorems": [
    "values_roundtrip",
    "graph_roundtrip",
    "null_in_list_refuted",
    "optional_not_reset_refuted"
   ],
   "note": "values_roundtrip is exact for lists without null strings; graph_roundtrip with strict = false covers the others."
  },
  {
   "property": "C22",
   "status": "proved",
   "theorems": [
    "graph_roundtrip",
    "sharing_preserved",
    "store_terminates",
    "mixed_pointers_refuted"
   ],
   "note": ""
  },
  {
   "property": "C23",
   "status": "proved",
   "theorems": [
    "interrupted_save",
    "load_after_save",
    "old_graph_kept_refuted"
   ],
   "note": ""
  },
  {
   "property": "C24",
   "status": "proved",
   "theorems": [
    "saver_never_mixes",
    "saver_result",
    "saver_creates_refuted"
   ],
   "note": ""
  },
  {
   "property": "C25",
   "status": "proved",
   "theorems": [
    "set_operations_agree_with_sets",
    "set_queries_agree_with_sets",
    "set_size_is_cardinality",
    "set_iteration_increasing",
    "set_of_pointers_survives_relocation",
    "set_range_constructor_refuted"
   ],
   "note": "Proved for every program of operations whose range constructors get distinct elements; set_range_constructor_refuted shows that the range constructor does not remove duplicates."
  },
  {
   "property": "C26",
   "status": "proved",
   "theorems": [
    "version_order",
    "version_parse",
    "version_roundtrip",
    "parsed_natural"
   ],
   "note": ""
  },
  {
   "property": "C27",
   "status": "partial",
   "theorems": [
    "range_check",
    "narrow_down_intersection_partial",
    "narrow_down_narrows",
    "narrow_down_intersection_refuted"
   ],
   "note": "False of the code as it is: narrowing a range without maximum by one with a maximum does not take over the maximum (narrow_down_intersection_refuted). Proved for all other pairs (narrow_down_intersection_partial)."
  },
  {
   "property": "C28",
   "status": "proved",
   "theorems": [
    "split_recomposes",
    "path_and_name",
    "path_usable",
    "names_recompose",
    "clean_same_place",
    "clean_has_no_detours",
    "clean_idempotent",
    "resolve_absolute",
    "resolve_walks",
    "resolve_is_absolute",
    "resolve_drive",
    "join_walks",
    "resolve_root_refuted",
    "resolve_untidy_refuted",
    "suffix_without_dot_refuted"
   ],
   "note": "Relative paths and base directories written without detours, as the code requires. The refuted statements are the exceptions found."
  },
  {
   "property": "C29",
   "status": "partial",
   "theorems": [
    "install_inside_partial",
    "install_inside_refuted",
    "install_base_inside_refuted",
    "install_beside_base_refuted"
   ],
   "note": "False as stated, by three counterexamples; proved when neither prefix nor directory steps upwards."
  },
  {
   "property": "C49",
   "status": "proved",
   "theorems": [
    "install_layout",
    "install_below_base"
   ],
   "note": ""
  },
  {
   "property": "C30",
   "status": "proved",
   "theorems": [
    "clean_removes_only",
    "clean_complete",
    "clean_succeeds",
    "clean_terminates",
    "clean_broken_link_refuted",
    "clean_keep_going_refuted"
   ],
   "note": "Outputs are inside the build directory (C20)."
  },
  {
   "property": "C31",
   "status": "proved",
   "theorems": [
    "empty_directories_exact",
    "empty_directories_terminates"
   ],
   "note": "The removed files are inside the build directory (C20)."
  },
  {
   "property": "C32",
   "status": "proved",
   "theorems": [
    "unix_list_exact",
    "unix_command_exact",
    "unix_command_line_exact",
    "unix_command_run_partial",
    "unix_command_run_refuted"
   ],
   "note": "Word splitting is exact for all strings. Beyond the property: which program is run, where a name with an equals sign is the exception."
  },
  {
   "property": "C33",
   "status": "proved",
   "theorems": [
    "win_list_exact",
    "win_command_exact",
    "win_percent_refuted",
    "win_newline_refuted"
   ],
   "note": "The two refuted statements show that percent signs and line breaks have to be excluded."
  },
  {
   "property": "C34",
   "status": "proved",
   "theorems": [
    "session_framing",
    "session_reusable",
    "session_chunks_irrelevant",
    "session_bad_size",
    "session_no_assert"
   ],
   "note": "Payloads are byte strings; Base64 and JSON are Qt's. Text without the packet marker between packets is allowed for."
  },
  {
   "property": "C35",
   "status": "proved",
   "theorems": [
    "launcher_framing",
    "packet_roundtrip",
    "launcher_reusable",
    "launcher_shutdown",
    "launcher_chunks_irrelevant",
    "launcher_refuses"
   ],
   "note": "For both ends of the connection, including all fields of all packet types."
  },
  {
   "property": "C36",
   "status": "proved",
   "theorems": [
    "lsp_framing",
    "lsp_reusable",
    "lsp_whole_messages",
    "lsp_own_messages",
    "lsp_no_error_response_refuted"
   ],
   "note": "All messages are decoded; lsp_no_error_response_refuted shows that an additional parse error can be sent for a header that has arrived only partially."
  },
  {
   "property": "C37",
   "status": "proved",
   "theorems": [
    "clashes_reported",
    "clash_result",
    "edits_exact",
    "edits_exact_refuted",
    "edits_after_removal_refuted"
   ],
   "note": "The two refuted statements show that insertions at the start of a range replaced earlier have to be excluded."
  },
  {
   "property": "C38",
   "status": "proved",
   "theorems": [
    "profile_value_exact",
    "profile_exists_exact",
    "value_spec_unique",
    "profile_keys_exact",
    "whole_not_broken",
    "listed_keys_have_values",
    "values_are_listed",
    "configuration_exact",
    "keys_with_values_refuted"
   ],
   "note": "Not every key with a value is listed if the project redefines a profile (keys_with_values_refuted)."
  },
  {
   "property": "C39",
   "status": "proved",
   "theorems": [
    "settings_exact",
    "settings_clean",
    "all_keys_exact",
    "keys_with_prefix_exact",
    "profile_names_exact",
    "reserved_name_refuted"
   ],
   "note": ""
  },
  {
   "property": "C40",
   "status": "proved",
   "theorems": [
    "extract_exact",
    "extract_errors",
    "combinations_exact",
    "instances_exact",
    "instances_none",
    "row_id_injective",
    "row_id_any_order",
    "json_injective",
    "id_of_injective",
    "aggregate_without_axes_refuted"
   ],
   "note": "All numbers of axes and values."
  },
  {
   "property": "C41",
   "status": "partial",
   "theorems": [
    "prepare_sound",
    "prepare_precise",
    "prepare_check_once",
    "commands_sound",
    "commands_precise",
    "commands_check_once",
    "mixed_kinds_refuted",
    "module_artifacts_refuted",
    "module_presence_refuted",
    "product_of_artifact_refuted",
    "added_property_refuted",
    "dependency_order_refuted",
    "empty_list_refuted",
    "new_target_refuted",
    "same_name_parameters_refuted",
    "same_name_parameters_needless_refuted",
    "renamed_project_needless_refuted",
    "enumerated_later_refuted",
    "no_tags_refuted",
    "artifact_in_two_commands_refuted"
   ],
   "note": "Proved for all scripts and projects under good, steady and compatible, which exclude accesses that are not recorded or are confused with others; the refutations show that the property is false there."
  },
  {
   "property": "C42",
   "status": "partial",
   "theorems": [
    "located_is_resolved",
    "refers_is_resolved",
    "update_exact",
    "update_time",
    "update_known",
    "update_known_state",
    "start_right",
    "scans_stay_right",
    "no_scan_when_older",
    "raw_round_trip",
    "root_include_refuted",
    "later_artifact_refuted",
    "child_change_refuted",
    "unclean_search_path_refuted",
    "same_tick_refuted",
    "shared_search_paths_refuted"
   ],
   "note": "For all projects, contents of files (cyclic or not), search paths, scanners and remembered data that are right: an include is resolved by precedence, the scan ends within an explicit bound, and exactly the directly or indirectly included files and artifacts become dependencies. Partial: artifacts that are created later in the same build, and search paths that are not clean, are not covered because the statement is false for them (witnesses)."
  },
  {
   "property": "C43",
   "status": "proved",
   "theorems": [
    "lines_exact",
    "lines_backslash_end",
    "environment_name",
    "variable_precedence",
    "carriage_returns",
    "words_exact",
    "words_escaped",
    "words_error",
    "words_empty_refuted",
    "substitution_exact",
    "substitution_doubled",
    "substitution_app",
    "line_says",
    "variable_value",
    "variable_once",
    "field_values",
    "prefix_located",
    "prefix_relocated",
    "prefix_other",
    "prefix_relocated_refuted"
   ],
   "note": "Empty quoted words are lost (words_empty_refuted)."
  },
  {
   "property": "C44",
   "status": "partial",
   "theorems": [
    "js_string_exact",
    "js_literal_exact",
    "js_integer_exact",
    "js_strs_same",
    "js_text_is_string",
    "js_literal_refuted",
    "js_number_refuted",
    "js_proto_refuted"
   ],
   "note": "False for strings with line breaks (js_literal_refuted); js_string_exact and js_literal_exact say exactly for which values it is true."
  },
  {
   "property": "C45",
   "status": "partial",
   "theorems": [
    "single_applied",
    "single_skipped",
    "single_skipped_keeps",
    "single_succeeds",
    "history_settled",
    "deleted_input_outdates",
    "incremental",
    "incremental_as_clean",
    "null_application",
    "multi_applied",
    "multi_gone",
    "multi_skipped",
    "multi_skipped_keeps",
    "inputs_exact",
    "crossing_refuted",
    "no_outputs_refuted",
    "leftover_refuted",
    "replaced_refuted",
    "former_input_refuted",
    "explicit_without_inputs_refuted",
    "named_twice_refuted"
   ],
   "note": "Proved under the hypothesis that no input is a child of another input's output (rules without multiplex), and that some input stayed (multiplex rules). Outside of these the property is false, see the refutations."
  },
  {
   "property": "C46",
   "status": "partial",
   "theorems": [
    "priority_levels",
    "merged_result",
    "order_independent",
    "merged_sorted",
    "order_independent_sorted",
    "no_check_fails",
    "absolute_override",
    "internal_wins",
    "list_value",
    "order_refuted"
   ],
   "note": "Independence of the order is refuted if distances change and two modules end up at the same distance (order_refuted); it is proved in the other cases."
  },
  {
   "property": "C47",
   "status": "proved",
   "theorems": [
    "history_legal",
    "one_report_per_start",
    "no_assertion_fails",
    "nothing_lost",
    "waiting_is_told",
    "exit_reported",
    "process_cancel_reported",
    "loss_reported",
    "grace_period_refuted"
   ],
   "note": "The time between the signals is not guaranteed if a process is stopped repeatedly (grace_period_refuted)."
  },
  {
   "property": "C48",
   "status": "partial",
   "theorems": [
    "recorded",
    "older_kept",
    "rescue_same",
    "rescue_other",
    "rescue_checks",
    "skipped_same",
    "skipped_unchanged",
    "same_skipped",
    "left_over_removed",
    "other_files_kept",
    "removal_reported",
    "reported_only",
    "outdated_runs",
    "not_made_again",
    "inputs_differ_refuted",
    "child_unreported_refuted",
    "childless_refuted",
    "accesses_lost_refuted",
    "deleted_not_made_refuted",
    "files_without_rescue_refuted"
   ],
   "note": "For one product set up anew, all sequences of rule outputs, all recorded data: the results are taken over if and only if commands, children and file dependencies are the recorded ones; a rule application that is skipped is the recorded one with unchanged tracked values, and one that is the same is skipped. Partial: the statement is false for an input that was a scanned child before, for outputs from different former applications, and for outputs that are not always updated (witnesses)."
  },
  {
   "property": "C50",
   "status": "partial",
   "theorems": [
    "cycle_report_partial",
    "cycle_report_refuted"
   ],
   "note": "False of the code as it is (cycle_report_refuted); all steps but the last are dependencies and the first node is on a cycle (cycle_report_partial)."
  },
  {
   "property": "C51",
   "status": "partial",
   "theorems": [
    "clean_dry_run_partial",
    "clean_dry_run_refuted",
    "clean_dry_run_rescuable_refuted"
   ],
   "note": "False of the code as it is (clean_dry_run_refuted, clean_dry_run_rescuable_refuted); only directories without files disappear and no artifact counts as not built (clean_dry_run_partial)."
  },
  {
   "property": "C52",
   "status": "proved",
   "theorems": [
    "preference_exact",
    "preference_contents",
    "general_limits_exact",
    "pref_limits_exact"
   ],
   "note": ""
  },
  {
   "property": "C53",
   "status": "partial",
   "theorems": [
    "set_takes_effect_partial",
    "stored_value",
    "numeric_preference_refuted"
   ],
   "note": "False of the code as it is for general preferences that are numbers or truth values (numeric_preference_refuted); true for profiles and for other values (set_takes_effect_partial)."
  },
  {
   "property": "C54",
   "status": "proved",
   "theorems": [
    "export_import",
    "export_import_same",
    "export_import_refuted",
    "import_scopes_refuted",
    "json_children_refuted",
    "json_number_refuted"
   ],
   "note": "Names and values on one line, integers of 32 bits; for JSON files there are only counterexamples."
  },
  {
   "property": "C55",
   "status": "proved",
   "theorems": [
    "depends_plain",
    "depends_same_id",
    "depends_best",
    "depends_unmultiplexed",
    "depends_profiles",
    "depends_on_instance"
   ],
   "note": ""
  },
  {
   "property": "C56",
   "status": "proved",
   "theorems": [
    "modules_exact",
    "modules_none",
    "modules_comma_refuted"
   ],
   "note": "Separators at the end of the list are an error (modules_comma_refuted)."
  },
  {
   "property": "C57",
   "status": "proved",
   "theorems": [
    "libs_read",
    "libs_meaning",
    "cflags_read",
    "cflags_meaning",
    "sysroot_prepended",
    "sysroot_directory_refuted",
    "system_paths_removed"
   ],
   "note": "Below the system root in the sense of text (sysroot_directory_refuted)."
  },
  {
   "property": "C58",
   "status": "partial",
   "theorems": [
    "package_found",
    "package_unique",
    "package_precedence_refuted"
   ],
   "note": "Which of several packages of one name is found is not determined (package_precedence_refuted)."
  },
  {
   "property": "C59",
   "status": "partial",
   "theorems": [
    "alternatives_ordered",
    "list_value",
    "override_value",
    "scalar_value",
    "fallback_after_undefined_refuted",
    "override_sticks_refuted"
   ],
   "note": "The rule for undefined conditions does not hold if a matching item has an undefined value, and overrideListProperties is not taken back."
  },
  {
   "property": "C60",
   "status": "partial",
   "theorems": [
    "origin_known",
    "marks_kept",
    "command_line_bool_refuted",
    "internal_bool_refuted"
   ],
   "note": "Proved for all values but bools and invalid ones; refuted for bools. No mark is ever lost."
  },
  {
   "property": "C61",
   "status": "proved",
   "theorems": [
    "load_terminates",
    "load_fuel",
    "load_error",
    "modules_once",
    "modules_complete",
    "modules_reachable",
    "module_origin",
    "modules_sorted",
    "modules_acyclic",
    "modules_no_prefix"
   ],
   "note": "For all Depends graphs, cyclic or not, and all orders of Depends items."
  },
  {
   "property": "C62",
   "status": "partial",
   "theorems": [
    "direct_not_disabled",
    "required_reason",
    "required_direct",
    "minimal_iff",
    "setup_error_iff",
    "setup_present",
    "required_present",
    "present_sound",
    "late_required_refuted",
    "late_required_module_refuted",
    "disabled_dependency_refuted",
    "optional_range_refuted"
   ],
   "note": "For all Depends graphs: exactly when the setup fails, exactly which modules are present. Partial: a required Depends item that comes after an optional one on the same missing module, and disabled products behind optional chains, are not covered because the statement is false for them (witnesses)."
  },
  {
   "property": "C63",
   "status": "partial",
   "theorems": [
    "version_minima",
    "version_ranges_partial",
    "choose_iff",
    "choose_none",
    "choose_order",
    "version_maximum_refuted",
    "optional_range_refuted"
   ],
   "note": "All minima are respected; all ranges are if all of them have a maximum or none has one. The general statement is false (witness). The choice between module files is characterised completely."
  },
  {
   "property": "C64",
   "status": "partial",
   "theorems": [
    "chain_path",
    "chain_grows_partial",
    "chain_order_refuted"
   ],
   "note": "The length used for the precedence is the length of a chain to the module; if all chains to a module have the same length, the module has precedence over those that it needs. The general statement is false (witness)."
  },
  {
   "property": "C65",
   "status": "partial",
   "theorems": [
    "scan_ends",
    "includes_exact",
    "include_after_null_directive_refuted",
    "include_after_splice_refuted",
    "include_in_comment_refuted",
    "include_after_digit_separator_refuted",
    "include_after_latin1_refuted",
    "include_spliced_word_refuted",
    "include_unterminated_refuted",
    "include_after_import_word_refuted"
   ],
   "note": "For all files that are lists of lines of the grammar, of any length. Partial: the texts in the witnesses, where the scanner is wrong, are outside the grammar."
  },
  {
   "property": "C66",
   "status": "partial",
   "theorems": [
    "modules_exact",
    "import_header_path_refuted",
    "import_quoted_header_refuted",
    "module_dotted_partition_refuted"
   ],
   "note": "For all files that are lists of lines of the grammar, of any length. Partial: header units with a path or quotes and partitions with dots are outside the grammar because the scanner is wrong there (witnesses)."
  },
  {
   "property": "C67",
   "status": "partial",
   "theorems": [
    "wildcards_exact",
    "wildcards_defined",
    "wildcards_outside",
    "unchanged_same",
    "wildcards_sibling_refuted",
    "wildcards_hidden_refuted",
    "wildcards_defined_refuted"
   ],
   "note": "For all trees and patterns. Partial: directories whose path starts like that of the build directory are left out too, hidden directories are searched in one case, an empty pattern is undefined; the exact conditions are part of the theorems."
  },
  {
   "property": "C68",
   "status": "partial",
   "theorems": [
    "sources_exact",
    "source_origin",
    "excluded_stays_refuted"
   ],
   "note": "For all trees of groups. Partial: files to exclude stay if they are named."
  },
  {
   "property": "C69",
   "status": "partial",
   "theorems": [
    "taggers_exact",
    "tagged_exact",
    "tagged_nonempty",
    "filtered_exact",
    "filtered_unordered",
    "final_tags_exact",
    "taggers_never_with_tags_refuted",
    "filters_unordered_refuted"
   ],
   "note": "For all taggers in all orders. Partial: without overriding, taggers apply to files with tags as well; filters depend on their order if they build on each other."
  },
  {
   "property": "C70",
   "status": "proved",
   "theorems": [
    "resolver_safe",
    "resolver_progress",
    "resolver_ends",
    "resolver_resolves_all",
    "resolver_complete"
   ],
   "note": "For all projects, with or without cycles, all numbers of jobs and all interleavings."
  },
  {
   "property": "C71",
   "status": "partial",
   "theorems": [
    "resolver_once",
    "resolver_no_repeat",
    "resolver_safe",
    "resolver_once_refuted"
   ],
   "note": "For all projects without dependency cycles. Partial: with a cycle, products are resolved twice."
  },
  {
   "property": "C72",
   "status": "proved",
   "theorems": [
    "resolver_order",
    "resolver_cycle_found",
    "resolver_no_false_cycle"
   ],
   "note": "For all projects and interleavings."
  },
  {
   "property": "C73",
   "status": "partial",
   "theorems": [
    "restore_sound",
    "restore_answers",
    "restore_canonical_refuted",
    "restore_source_refuted",
    "restore_old_file_refuted",
    "restore_content_refuted"
   ],
   "note": "For all resolvers and worlds, under the conditions that files newer than the resolving are the ones that have changed, that source files are still there, and that no canonical paths or contents are asked for. Partial: each of these conditions is needed."
  },
  {
   "property": "C74",
   "status": "proved",
   "theorems": [
    "restore_idle",
    "restore_rejects",
    "restore_forced",
    "restore_overrides"
   ],
   "note": "For all resolvers, worlds and parameters."
  },
  {
   "property": "C75",
   "status": "proved",
   "theorems": [
    "reload_changed",
    "reload_kept",
    "reload_found",
    "reload_updates",
    "reload_same"
   ],
   "note": "For all lists of products with acyclic dependencies, rules with distinct keys and source files with distinct paths."
  },
  {
   "property": "C76",
   "status": "partial",
   "theorems": [
    "reload_data",
    "reload_removed",
    "reload_lost_partial",
    "reload_lost_refuted"
   ],
   "note": "For all lists of products. Partial: the data of a product that was disabled and stays so is lost."
  },
  {
   "property": "C77",
   "status": "partial",
   "theorems": [
    "reload_artifacts_partial",
    "reload_rules_partial",
    "reload_rules_refuted",
    "reload_order_refuted",
    "reload_tagger_refuted"
   ],
   "note": "With distinct keys of rules and filters, the same tagger, and the same order of filters or only one that fits. Partial: false otherwise."
  },
  {
   "property": "C78",
   "status": "partial",
   "theorems": [
    "probes_fresh",
    "probes_all",
    "probes_forced",
    "probes_world_refuted",
    "probes_import_refuted",
    "probes_mixed_refuted"
   ],
   "note": "For all histories in which nothing but imported files changes for scripts, and equal texts in a product have equal imports. Partial: false otherwise."
  },
  {
   "property": "C79",
   "status": "proved",
   "theorems": [
    "probes_once",
    "probes_idle"
   ],
   "note": "For all sets of probes and stored results."
  },
  {
   "property": "C80",
   "status": "partial",
   "theorems": [
    "evaluate_ends",
    "evaluate_sound",
    "evaluate_complete_partial",
    "self_reference_refuted"
   ],
   "note": "For all items and scripts. Partial: that a property with a meaning is evaluated to it holds if no script depends on the item it is reached through, and is false otherwise."
  },
  {
   "property": "C81",
   "status": "partial",
   "theorems": [
    "history_sound",
    "history_complete_partial",
    "error_spoils_refuted"
   ],
   "note": "For all series of evaluations without errors, with the cache switched on and off at will. Partial: false after errors."
  },
  {
   "property": "C82",
   "status": "partial",
   "theorems": [
    "purge_right",
    "set_property_seen",
    "purge_refuted"
   ],
   "note": "What is meant to be purged suffices, for all acyclic dependencies of modules. Partial: what is purged does not."
  },
  {
   "property": "C83",
   "status": "partial",
   "theorems": [
    "to_evaluate_exact",
    "group_values_partial",
    "group_variant_refuted",
    "group_cached_refuted"
   ],
   "note": "For all products and series of groups. Partial: false if the group sets a property whose value in the product is not a script, or if values were cached before; nested groups are not covered."
  },
  {
   "property": "C84",
   "status": "partial",
   "theorems": [
    "answers_right",
    "order_free",
    "history_right_partial",
    "scoped_providers",
    "execute_right",
    "own_search_path_refuted",
    "changed_provider_refuted"
   ],
   "note": "For all products, providers and histories of runs. Partial: all products must find the same file for a provider, and the file must not have changed since its result was stored; false otherwise."
  },
  {
   "property": "C85",
   "status": "proved",
   "theorems": [
    "runs_once",
    "runs_asked"
   ],
   "note": "For all requests and stored results."
  },
  {
   "property": "C86",
   "status": "partial",
   "theorems": [
    "paths_exist_partial",
    "dry_run_keeps",
    "dry_run_removes_refuted"
   ],
   "note": "For all histories of runs without dry ones; exactly what a dry run removes. Partial: false with dry runs."
  },
  {
   "property": "C87",
   "status": "proved",
   "theorems": [
    "parse_exact",
    "names_distinct",
    "options_as_documented"
   ],
   "note": "For all commands, command lines and accepted arguments: a grammar is accepted exactly; parsing ends; no option hides another."
  },
  {
   "property": "C88",
   "status": "partial",
   "theorems": [
    "configurations_right",
    "parts_exist",
    "unqualified_name_refuted",
    "repeated_section_refuted"
   ],
   "note": "For all series of assignments. Partial: false for an unqualified configurationName and for properties of a repeated configuration."
  },
  {
   "property": "C89",
   "status": "partial",
   "theorems": [
    "line_right_partial",
    "line_default",
    "line_switches",
    "help_taken_refuted"
   ],
   "note": "For all lines without a switch for help behind the command. Partial: false with one, even behind the two dashes of run."
  },
  {
   "property": "C90",
   "status": "partial",
   "theorems": [
    "command_verdict_partial",
    "process_success_partial",
    "timeout_sticks_refuted",
    "start_error_sticks_refuted",
    "script_timeout_sticks_refuted",
    "crash_succeeds_refuted",
    "watchdog_stays_refuted"
   ],
   "note": "for commands such that no earlier one of the job took too long, was cancelled or could not be started; false otherwise, and false for crashes"
  },
  {
   "property": "C91",
   "status": "partial",
   "theorems": [
    "command_once",
    "command_ends_partial",
    "results_reported_partial",
    "command_hangs_refuted",
    "unstarted_hangs_refuted"
   ],
   "note": "reported at most once for all histories; ends and results reported if no time was over (and nothing cancelled); false otherwise"
  },
  {
   "property": "C92",
   "status": "proved",
   "theorems": [
    "commands_in_order"
   ],
   "note": ""
  },
  {
   "property": "C93",
   "status": "partial",
   "theorems": [
    "scripts_once_in_order",
    "no_scripts_no_change",
    "same_name_script_lost_refuted"
   ],
   "note": "for all sets of modules with different names; false for modules of the same name"
  },
  {
   "property": "C94",
   "status": "partial",
   "theorems": [
    "command_environment_partial",
    "command_environment_refuted"
   ],
   "note": "for all lists whose entries have values; false for an empty value"
  },
  {
   "property": "C95",
   "status": "partial",
   "theorems": [
    "right_programs_partial",
    "other_working_directory_refuted",
    "installed_later_refuted"
   ],
   "note": "Unix, files that do not change, and one working directory per program or none in PATH; false otherwise"
  },
  {
   "property": "C96",
   "status": "partial",
   "theorems": [
    "response_file_used",
    "response_file_partial",
    "response_file_windows_partial",
    "response_file_backslash_refuted",
    "response_file_caret_refuted",
    "response_file_prefix_refuted"
   ],
   "note": "Unix: no backslashes, or a tool that reads single quotes like a shell; Windows: no double quotes; false otherwise"
  },
  {
   "property": "C97",
   "status": "partial",
   "theorems": [
    "parameters_right",
    "parameters_conflict_reported",
    "parameters_message",
    "parameters_merged_partial",
    "parameters_of_one_place",
    "parameters_merged_refuted",
    "parameters_undefined_refuted",
    "parameters_clash_refuted"
   ],
   "note": "if merging succeeds the values are right and all conflicts are found, for all places; no false conflicts if overriding places are alone at their distance; false otherwise"
  },
  {
   "property": "C98",
   "status": "partial",
   "theorems": [
    "toolchains_exact",
    "toolchains_order",
    "toolchains_idempotent",
    "toolchains_documented",
    "toolchains_special_first_partial",
    "toolchains_special_first_refuted"
   ],
   "note": "for all lists of names; that a toolchain comes before its family is false for emscripten"
  },
  {
   "property": "C99",
   "status": "partial",
   "theorems": [
    "session_conversation",
    "session_no_extra_replies",
    "job_accepted",
    "job_undisturbed",
    "run_environment_reply",
    "one_reply_each_refuted",
    "released_job_refuted"
   ],
   "note": "proved for all sequences with clients that wait for replies, and no extra replies for any client; that each request is answered is false for clients that do not wait"
  },
  {
   "property": "C100",
   "status": "partial",
   "theorems": [
    "add_files_exact",
    "remove_files_exact",
    "rename_file_partial",
    "only_updates_change_files",
    "dependencies_error_refuted",
    "rename_failed_refuted"
   ],
   "note": "adding and removing for all lists of files; false for failed renamings and for dependencies"
  },
  {
   "property": "C101",
   "status": "partial",
   "theorems": [
    "selection_partial",
    "unknown_products_refuted",
    "no_products_refuted"
   ],
   "note": "for all trees of projects if some named product exists; otherwise false"
  },
  {
   "property": "C102",
   "status": "partial",
   "theorems": [
    "client_data_partial",
    "same_up_to_prefixes",
    "failed_build_data_refuted",
    "prefix_data_refuted",
    "properties_data_refuted"
   ],
   "note": "for all sequences if failed jobs do not change data, properties stay the same and data that compares equal is equal; each condition is needed"
  },
  {
   "property": "C103",
   "status": "partial",
   "theorems": [
    "array_unique",
    "files_added_to_array",
    "texts_kept",
    "files_added_to_string",
    "files_added_to_expression",
    "files_removed_if_there",
    "files_removed_partial",
    "string_removed",
    "add_then_remove",
    "files_removed_refuted",
    "file_with_line_break_refuted"
   ],
   "note": "for all lists of string literals in any layout; what remains after a removal only for names without quotes and backslashes, otherwise false"
  },
  {
   "property": "C104",
   "status": "partial",
   "theorems": [
    "only_binding_changed",
    "guess_windows",
    "guess_unix",
    "rest_of_file_kept",
    "endings_kept",
    "endings_of_host",
    "rest_of_file_refuted",
    "stale_place_refuted"
   ],
   "note": "for all files with one kind of line endings and current places; otherwise false"
  },
  {
   "property": "C105",
   "status": "partial",
   "theorems": [
    "new_names_partial",
    "new_names_refuted"
   ],
   "note": "for all names without quotes, backslashes and line breaks; otherwise false"
  },
  {
   "property": "C106",
   "status": "partial",
   "theorems": [
    "overrides_exact",
    "only_conversion_fails",
    "one_property_refuted",
    "top_level_only_refuted",
    "top_level_property_refuted"
   ],
   "note": "exact description of the values for all projects, products and modules; that a key is for one property and that project is for the top-level project only is false"
  },
  {
   "property": "C107",
   "status": "partial",
   "theorems": [
    "wrong_overrides_reported",
    "wrong_names_reported",
    "right_overrides_accepted_partial",
    "dotted_product_refuted",
    "renamed_product_refuted",
    "wrong_overrides_refuted"
   ],
   "note": "accepted: for product names without dots, by their final names; unknown modules and keys without property are not reported"
  },
  {
   "property": "C108",
   "status": "partial",
   "theorems": [
    "trees_read_current",
    "final_read_current_partial",
    "final_values_exact",
    "final_read_refuted"
   ],
   "note": "the final configuration only if it was not read before a later expansion, otherwise false"
  },
  {
   "property": "C109",
   "status": "partial",
   "theorems": [
    "canonical_exact",
    "canonical_idempotent",
    "canonical_apart",
    "target_same_partial",
    "target_endianness",
    "target_names",
    "capitals_refuted",
    "target_same_refuted"
   ],
   "note": "names in capitals are not recognised, and target names of armv7a are names of other architectures"
  },
  {
   "property": "C110",
   "status": "partial",
   "theorems": [
    "native_compilers_exact",
    "cross_compilers_refuted",
    "compilers_found_refuted"
   ],
   "note": "for native compilers; false for cross compilers"
  },
  {
   "property": "C111",
   "status": "proved",
   "theorems": [
    "os_identifiers_end",
    "os_identifiers_closed",
    "os_families",
    "os_simulators"
   ],
   "note": "for all names"
  },
  {
   "property": "C112",
   "status": "partial",
   "theorems": [
    "identifier_exact",
    "identifier_idempotent",
    "rfc1034_partial",
    "rfc1034_refuted"
   ],
   "note": "compliant only for texts with a letter at the begin, a letter or digit at the end, and no dots; otherwise false"
  },
  {
   "property": "C113",
   "status": "partial",
   "theorems": [
    "quoted_denotes_cpp",
    "quoted_denotes_c_partial",
    "reading_unique",
    "quoted_injective",
    "quoted_one_line",
    "quoted_unchanged_exact",
    "quoted_trigraphs_partial",
    "quoted_not_printable_refuted",
    "quoted_trigraph_refuted"
   ],
   "note": "holds for C++11 and later without trigraphs; in C false for control characters, and with trigraphs for two question marks"
  },
  {
   "property": "C114",
   "status": "partial",
   "theorems": [
    "combined_includes_partial",
    "includes_unique",
    "combined_backslash_refuted"
   ],
   "note": "for paths without backslashes, quotes and characters that are not printable; otherwise false"
  },
  {
   "property": "C115",
   "status": "partial",
   "theorems": [
    "hash_shape",
    "hash_same_exact",
    "hash_latin1",
    "object_files_partial",
    "object_files_refuted"
   ],
   "note": "for Latin-1 input; false for other characters"
  },
  {
   "property": "C116",
   "status": "partial",
   "theorems": [
    "transfer_exact",
    "transfer_stable",
    "rules_see_values_partial",
    "rules_see_undefined",
    "long_exact",
    "rules_see_numbers_refuted",
    "rules_see_null_refuted",
    "rules_see_texts_refuted"
   ],
   "note": "exactly for values without floating point numbers, null and null characters; otherwise false"
  },
  {
   "property": "C117",
   "status": "partial",
   "theorems": [
    "single_value_exact",
    "list_value_exact",
    "list_error_exact",
    "bool_value_exact",
    "value_has_type_partial",
    "convert_idempotent",
    "parts_converted",
    "paths_resolved",
    "undefined_stays",
    "undefined_variant",
    "int_values_refuted"
   ],
   "note": "for all types but int, where numbers with a fraction are accepted"
  },
  {
   "property": "C118",
   "status": "partial",
   "theorems": [
    "allowed_values_exact",
    "allowed_undefined",
    "allowed_paths_refuted",
    "allowed_none_refuted"
   ],
   "note": "for texts and lists of texts and a list that is not empty; otherwise nothing is checked"
  },
  {
   "property": "C119",
   "status": "partial",
   "theorems": [
    "definitions_read",
    "make_runs_command_partial",
    "unrelated_commands_same",
    "make_runs_references_refuted",
    "make_runs_quote_refuted",
    "make_runs_dollar_refuted",
    "make_runs_flags_refuted",
    "make_runs_newline_refuted",
    "moved_sources_refuted"
   ],
   "note": "proved for arguments without line breaks and texts like references, and directories without quotes, dollar and number signs; the full statement is false of the code"
  },
  {
   "property": "C120",
   "status": "partial",
   "theorems": [
    "product_targets_partial",
    "product_variants_exact",
    "product_target_kept",
    "product_target_good",
    "product_read_partial",
    "product_targets_refuted",
    "product_variants_refuted",
    "product_named_all_refuted",
    "product_line_refuted"
   ],
   "note": "proved for names of letters, digits, dots and underscores; the full statement is false of the code"
  },
  {
   "property": "C121",
   "status": "partial",
   "theorems": [
    "rule_names_exact",
    "rule_files_moved",
    "rule_read_partial",
    "rule_read_refuted"
   ],
   "note": "names are unique; they are read back for paths without characters with a meaning to make other than spaces; the full statement is false of the code"
  },
  {
   "property": "C122",
   "status": "partial",
   "theorems": [
    "clean_runs_partial",
    "mkdir_runs_partial",
    "install_runs_partial",
    "clean_runs_refuted",
    "install_runs_refuted"
   ],
   "note": "proved for directories without characters with a meaning to the shell; the full statement is false of the code"
  },
  {
   "property": "C123",
   "status": "proved",
   "theorems": [
    "lock_is_exclusive",
    "held_directory_stays",
    "lock_refused",
    "lock_other_host_refuted",
    "lock_removal_race_refuted"
   ],
   "note": "for file systems where locks of open files work; refuted for others"
  },
  {
   "property": "C124",
   "status": "partial",
   "theorems": [
    "lock_available",
    "lock_race_refuted",
    "lock_own_pid_refuted",
    "lock_wait_refuted"
   ],
   "note": "proved if the process is undisturbed, the id of the process in the lock file is not in use by one of the same name, and for waiting processes the lock file is of this host; the full statement is false of the code"
  },
  {
   "property": "C125",
   "status": "partial",
   "theorems": [
    "cleanup_only_created",
    "cleanup_removes_empty",
    "cleanup_restores",
    "cleanup_warning_partial",
    "cleanup_warning_refuted"
   ],
   "note": "all proved; warnings are proved to be about directories without files that are not hidden, and refuted for hidden files"
  },
  {
   "property": "C126",
   "status": "partial",
   "theorems": [
    "gives_total",
    "product_job_limits_partial",
    "product_job_limits_errors",
    "product_job_limits_refuted"
   ],
   "note": "proved unless a zero comes after a positive number for the same pool in one product, project or module; the full statement is false of the code"
  },
  {
   "property": "C127",
   "status": "partial",
   "theorems": [
    "limits_option_exact",
    "limits_option_negative_refuted"
   ],
   "note": "proved except for the rejection of negative numbers, which is false of the code"
  },
  {
   "property": "C128",
   "status": "partial",
   "theorems": [
    "text_mapped",
    "becomes_unique",
    "texts_mapped",
    "lists_mapped",
    "names_kept",
    "values_unchanged",
    "prefix_never_applied",
    "nested_prefix_refuted",
    "variant_list_refuted",
    "single_text_refuted"
   ],
   "note": "the mapping is proved with the shortest prefix; the full statement is false of the code"
  },
  {
   "property": "C129",
   "status": "partial",
   "theorems": [
    "sub_names_unique",
    "all_sub_names_unique",
    "sub_names_order_refuted"
   ],
   "note": "all proved except that the result depends on the order of addresses"
  },
  {
   "property": "C130",
   "status": "proved",
   "theorems": [
    "inherited_value",
    "base_is_not_initial_refuted"
   ],
   "note": "for names of which no file sets a beginning or a continuation; what happens otherwise is in C131"
  },
  {
   "property": "C131",
   "status": "partial",
   "theorems": [
    "second_value_refused_partial",
    "written_value_lost_refuted",
    "value_lost_to_properties_refuted",
    "inherited_parts_lost_refuted",
    "two_otherwise_refuted"
   ],
   "note": "a second value with a right-hand side for the same name is refused; the full statement is false of the code, with three ways to lose a value"
  },
  {
   "property": "C132",
   "status": "partial",
   "theorems": [
    "read_only_kept_partial",
    "read_only_forgotten_refuted"
   ],
   "note": "proved if no file farther up and no built-in type declares the property too; false otherwise"
  },
  {
   "property": "C133",
   "status": "proved",
   "theorems": [
    "declaration_farthest_up_wins",
    "children_of_the_base_first"
   ],
   "note": ""
  },
  {
   "property": "C134",
   "status": "partial",
   "theorems": [
    "all_libraries_linked",
    "only_those_libraries",
    "libraries_once",
    "variants_not_linked",
    "object_library_dropped_refuted"
   ],
   "note": "proved for static, shared and external libraries; the last sentence, on object libraries, is false of the code"
  },
  {
   "property": "C135",
   "status": "proved",
   "theorems": [
    "libraries_in_order",
    "externals_come_last"
   ],
   "note": ""
  },
  {
   "property": "C136",
   "status": "partial",
   "theorems": [
    "whole_archive_from_dependency",
    "whole_archive_agreed",
    "whole_archive_flags_exact",
    "whole_archive_flags_any_list",
    "whole_archive_ignored_refuted"
   ],
   "note": "proved if all dependencies on the library agree; false of the code otherwise"
  },
  {
   "property": "C137",
   "status": "partial",
   "theorems": [
    "msvc_all_libraries",
    "msvc_only_those",
    "msvc_objects_once",
    "msvc_variants_not_linked",
    "msvc_whole_archive_agreed",
    "msvc_whole_archive_ignored_refuted"
   ],
   "note": "all but the last sentence is proved; whole archives if all dependencies on the library agree, false of the code otherwise"
  },
  {
   "property": "C138",
   "status": "proved",
   "theorems": [
    "indirect_libraries_found",
    "indirect_libraries_only",
    "linked_not_indirect"
   ],
   "note": ""
  },
  {
   "property": "C139",
   "status": "partial",
   "theorems": [
    "progress_shown",
    "next_progress_shown",
    "bar_not_too_long",
    "build_progress_waits",
    "build_progress_shown",
    "progress_of_nothing_refuted",
    "progress_growing_maximum_refuted"
   ],
   "note": "proved for a maximum that is positive and stays the same; false of the code for an effort of zero and for a growing maximum"
  },
  {
   "property": "C140",
   "status": "partial",
   "theorems": [
    "positions_in_reading_order",
    "goto_finds",
    "goto_independent_of_order",
    "goto_order_matters_refuted"
   ],
   "note": "proved for positions where ranges do not overlap; false of the code for nested ranges"
  }
 ]
}