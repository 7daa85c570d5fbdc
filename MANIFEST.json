{
 "claims": [
  {
   "property": "C01",
   "status": "proved",
   "theorems": [
    "C01_find_first_layer",
    "C01_items_exact",
    "C01_empty_exact",
    "C01_layering_unobservable",
    "C01_equality_exact"
   ],
   "note": ""
  },
  {
   "property": "C02",
   "status": "proved",
   "theorems": [
    "C02_conflict_reported_is_conflict",
    "C02_conflict_exact"
   ],
   "note": ""
  },
  {
   "property": "C03",
   "status": "proved",
   "theorems": [
    "C03_map_union_right_biased",
    "C03_union_rejects_non_maps"
   ],
   "note": ""
  },
  {
   "property": "C04",
   "status": "proved",
   "theorems": [
    "C04_disjoint_union_exact",
    "C04_disjoint_union_entries",
    "C04_disjoint_union_order"
   ],
   "note": ""
  },
  {
   "property": "C05",
   "status": "partial",
   "theorems": [
    "C05_hash_equality_plain_partial",
    "C05_hash_equality_partial",
    "C05_equal_operator",
    "C05_infinite_numbers_refuted",
    "C05_results_refuted"
   ],
   "note": "Proved for values with finite numbers, results compared by JSON form, nodes by description; the unrestricted claim is refuted (infinity and NaN equal null; results do not tag their payload)."
  },
  {
   "property": "C06",
   "status": "proved",
   "theorems": [
    "C06_only_mentioned_variables",
    "C06_pruned_configuration"
   ],
   "note": ""
  },
  {
   "property": "C07",
   "status": "proved",
   "theorems": [
    "C07_prune_values",
    "C07_prune_prune",
    "C07_prune_idempotent",
    "C07_update_values"
   ],
   "note": ""
  },
  {
   "property": "C08",
   "status": "proved",
   "theorems": [
    "C08_nub_right",
    "C08_nub_left"
   ],
   "note": ""
  },
  {
   "property": "C09",
   "status": "proved",
   "theorems": [
    "C09_enumerate_values"
   ],
   "note": ""
  },
  {
   "property": "C10",
   "status": "proved",
   "theorems": [
    "C10_join_cmd_posix"
   ],
   "note": ""
  },
  {
   "property": "C11",
   "status": "proved",
   "theorems": [
    "C11_escape_reversible"
   ],
   "note": ""
  },
  {
   "property": "C12",
   "status": "proved",
   "theorems": [
    "C12_to_subdir_exact"
   ],
   "note": ""
  },
  {
   "property": "C13",
   "status": "partial",
   "theorems": [
    "C13_quasi_literal_partial",
    "C13_map_in_list_refuted"
   ],
   "note": "Exact: literal structure is unchanged iff no list contains a map as element, otherwise evaluation fails (a defect of the code); both directions proved."
  },
  {
   "property": "C14",
   "status": "proved",
   "theorems": [
    "C14_normal_path_idempotent",
    "C14_normal_path_same_place",
    "C14_normal_path_canonical",
    "C14_normal_path_shape"
   ],
   "note": ""
  },
  {
   "property": "C15",
   "status": "proved",
   "theorems": [
    "C15_non_upwards_exact",
    "C15_confined_exact",
    "C15_confined_toplevel",
    "C15_confined_absolute_link"
   ],
   "note": ""
  },
  {
   "property": "C16",
   "status": "partial",
   "theorems": [
    "C16_valid_file_name_partial",
    "C16_valid_file_name_nul_refuted"
   ],
   "note": "Everything except the absence of NUL is proved as an equivalence; the NUL part is false of the code (find_first_of on the C string literal \"/\\0\" only searches for '/') and refuted by a witness."
  },
  {
   "property": "C17",
   "status": "proved",
   "theorems": [
    "C17_hex_decode_encode",
    "C17_hex_encode_injective",
    "C17_hex_encode_shape",
    "C17_hex_decode_valid",
    "C17_is_hex_exact"
   ],
   "note": ""
  },
  {
   "property": "C18",
   "status": "partial",
   "theorems": [
    "C18_normal_module_names",
    "C18_normal_module_same",
    "C18_relative_module_partial",
    "C18_relative_module_complete",
    "C18_relative_module_refuted"
   ],
   "note": "The acceptance test only looks for the prefix '../', so a relative module that normalises to exactly '..' is accepted and becomes the root module: refuted with a witness. Every other accepted relative module is proved to stay inside and to be the module reached by following the path; completeness and canonicity are proved in full."
  },
  {
   "property": "C19",
   "status": "proved",
   "theorems": [
    "C19_tree_object",
    "C19_order_and_grouping_irrelevant",
    "C19_injective",
    "C19_read_back",
    "C19_read_tree_data",
    "C19_id_determines_entries"
   ],
   "note": ""
  },
  {
   "property": "C20",
   "status": "partial",
   "theorems": [
    "C20_overlay_partial",
    "C20_disjoint_overlay_partial",
    "C20_types_refuted"
   ],
   "note": "Proved for trees in which entries of the same directory with equal content id have equal type; without that the claim is false: reading a tree gives all names with the same content the type of the first one (tree_operations_utils.cpp:137), see C20_types_refuted."
  },
  {
   "property": "C21",
   "status": "proved",
   "theorems": [
    "C21_structure",
    "C21_same_structure"
   ],
   "note": ""
  },
  {
   "property": "C22",
   "status": "proved",
   "theorems": [
    "C22_lossless",
    "C22_read_error",
    "C22_sizes",
    "C22_content_defined"
   ],
   "note": ""
  },
  {
   "property": "C23",
   "status": "proved",
   "theorems": [
    "C23_rechunk",
    "C23_common_rest",
    "C23_append"
   ],
   "note": ""
  },
  {
   "property": "C24",
   "status": "proved",
   "theorems": [
    "C24_split_splice",
    "C24_split_splice_tree",
    "C24_split_succeeds",
    "C24_splice_checked"
   ],
   "note": ""
  },
  {
   "property": "C25",
   "status": "proved",
   "theorems": [
    "C25_content_addressed",
    "C25_immutable"
   ],
   "note": ""
  },
  {
   "property": "C26",
   "status": "proved",
   "theorems": [
    "C26_returns",
    "C26_survives",
    "C26_same_bytes"
   ],
   "note": "Holds for histories without I/O errors in which callers store only complete trees and results (contract in Storage/Spec.v); crashes anywhere are included."
  },
  {
   "property": "C27",
   "status": "proved",
   "theorems": [
    "C27_removed",
    "C27_removed_entries",
    "C27_drop_all"
   ],
   "note": "The hypothesis is that the object is never in the youngest generation; that storing, looking up or referring to it puts it there is C26/C28."
  },
  {
   "property": "C28",
   "status": "proved",
   "theorems": [
    "C28_closed",
    "C28_closed_deep",
    "C28_checked"
   ],
   "note": "For histories without I/O errors; unchecked tree stores have the documented precondition as contract."
  },
  {
   "property": "C29",
   "status": "proved",
   "theorems": [
    "C29_compactification"
   ],
   "note": "Crashes anywhere are included, I/O errors are not: Storage/Examples.v write_failure_loses_object shows that an ignored failure to write the large entry loses the object."
  },
  {
   "property": "C30",
   "status": "proved",
   "theorems": [
    "C30_complete",
    "C30_found",
    "C30_found_target"
   ],
   "note": ""
  },
  {
   "property": "C31",
   "status": "proved",
   "theorems": [
    "C31_started_once",
    "C31_value_seen",
    "C31_same_value"
   ],
   "note": ""
  },
  {
   "property": "C32",
   "status": "proved",
   "theorems": [
    "C32_at_most_once",
    "C32_run_when_set",
    "C32_fail_when_failed",
    "C32_not_forgotten",
    "C32_settles"
   ],
   "note": ""
  },
  {
   "property": "C33",
   "status": "proved",
   "theorems": [
    "C33_exact",
    "C33_requests_real",
    "C33_stuck_reported"
   ],
   "note": ""
  },
  {
   "property": "C34",
   "status": "proved",
   "theorems": [
    "C34_started_once",
    "C34_finish_waits",
    "C34_skipped_only_after_shutdown",
    "C34_comes_to_rest",
    "C34_no_lost_wakeup",
    "C34_all_completed",
    "C34_shutdown_ends",
    "C34_nothing_starts_after_shutdown",
    "C34_counter_positive"
   ],
   "note": ""
  },
  {
   "property": "C35",
   "status": "proved",
   "theorems": [
    "C35_at_most_once",
    "C35_inputs_first",
    "C35_only_needed",
    "C35_ends_once"
   ],
   "note": ""
  },
  {
   "property": "C36",
   "status": "proved",
   "theorems": [
    "C36_build",
    "C36_all_built",
    "C36_available_provided",
    "C36_result",
    "C36_ends",
    "C36_cyclic_silent"
   ],
   "note": ""
  },
  {
   "property": "C37",
   "status": "proved",
   "theorems": [
    "C37_single_builder",
    "C37_linked_both_ways",
    "C37_consistent",
    "C37_accepted",
    "C37_nodes",
    "C37_links",
    "C37_traversable",
    "C37_counters"
   ],
   "note": ""
  },
  {
   "property": "C38",
   "status": "proved",
   "theorems": [
    "C38_returns",
    "C38_exact",
    "C38_representative",
    "C38_complete",
    "C38_order_irrelevant"
   ],
   "note": ""
  },
  {
   "property": "C39",
   "status": "proved",
   "theorems": [
    "C39_exists",
    "C39_equivalent_same_key",
    "C39_same_key_equivalent",
    "C39_deterministic"
   ],
   "note": ""
  },
  {
   "property": "C40",
   "status": "proved",
   "theorems": [
    "C40_info_roundtrip",
    "C40_info_parsed_valid",
    "C40_info_text_unambiguous",
    "C40_artifact_roundtrip",
    "C40_artifact_parsed_valid",
    "C40_artifact_id"
   ],
   "note": ""
  },
  {
   "property": "C41",
   "status": "partial",
   "theorems": [
    "C41_hex_decode_strict_refuted",
    "C41_hex_decode_odd_refuted"
   ],
   "note": "The full statement is false of the code (std::stoul leniency): refuted with witnesses; see DESIGN.md findings. What holds instead is C17_hex_decode_valid."
  },
  {
   "property": "C42",
   "status": "proved",
   "theorems": [
    "C42_evaluation_terminates"
   ],
   "note": ""
  },
  {
   "property": "C43",
   "status": "proved",
   "theorems": [
    "C43_json_encode_injective",
    "C43_json_text_injective"
   ],
   "note": ""
  },
  {
   "property": "C44",
   "status": "proved",
   "theorems": [
    "C44_digest_determines_directory",
    "C44_directory_determines_digest"
   ],
   "note": ""
  },
  {
   "property": "C45",
   "status": "partial",
   "theorems": [
    "C45_stale_key_refuted",
    "C45_missing_key_refuted",
    "C45_answers_current_refuted",
    "C45_filling_partial",
    "C45_set_then_ask_partial"
   ],
   "note": "False of the code: SetInfo resets the cached key of the repository that is set only, not of those bound to it (C45_stale_key_refuted, C45_missing_key_refuted). Proved for histories that only fill in repositories that were not content-fixed (a returned key is right, though a cached absence may be outdated) and for histories that set everything before the first request (every answer is right)."
  },
  {
   "property": "C46",
   "status": "proved",
   "theorems": [
    "C46_action_roundtrip",
    "C46_action_parsed_valid",
    "C46_action_json_unambiguous"
   ],
   "note": ""
  },
  {
   "property": "C47",
   "status": "partial",
   "theorems": [
    "C47_result_roundtrip_partial",
    "C47_distinct_hashes",
    "C47_same_value",
    "C47_artifacts_replaced",
    "C47_imitation_refuted"
   ],
   "note": "Proved for values in which no two different parts have the same hash; this follows (C47_distinct_hashes) if the hash function does not collide and no two different results or nodes inside have the same JSON form. Refuted in general: the JSON form of a result is not tagged, so a result providing an artifact and one providing a map that looks like it are merged (C47_imitation_refuted)."
  },
  {
   "property": "C48",
   "status": "proved",
   "theorems": [
    "C48_artifacts_listed",
    "C48_entry_exact"
   ],
   "note": ""
  },
  {
   "property": "C49",
   "status": "partial",
   "theorems": [
    "C49_value_nodes_partial",
    "C49_abstract_nodes_refuted"
   ],
   "note": "Proved for value nodes. Refuted for abstract nodes: the comparison mixes up target fields and string fields, so an abstract node is in general not equal to itself."
  },
  {
   "property": "C50",
   "status": "partial",
   "theorems": [
    "C50_input_root_partial",
    "C50_order_partial",
    "C50_trailing_slash_refuted"
   ],
   "note": "Proved for paths that end in a name or are in normal form. A path with a trailing slash is accepted and gives a tree object with an entry without name (C50_trailing_slash_refuted)."
  },
  {
   "property": "C51",
   "status": "proved",
   "theorems": [
    "C51_upload_tree",
    "C51_succeeds"
   ],
   "note": ""
  },
  {
   "property": "C52",
   "status": "proved",
   "theorems": [
    "C52_batches"
   ],
   "note": ""
  },
  {
   "property": "C53",
   "status": "proved",
   "theorems": [
    "C53_git_artifact",
    "C53_retrieve",
    "C53_succeeds"
   ],
   "note": ""
  },
  {
   "property": "C54",
   "status": "partial",
   "theorems": [
    "C54_local_refuted",
    "C54_local_partial",
    "C54_succeeds_partial"
   ],
   "note": "False of the code: a tree of the local store that cannot be read as a tree, e.g. because it contains an upward symlink, counts as empty, so that the tree is stored remotely without its content (C54_local_refuted). Proved if all trees of the source are readable."
  },
  {
   "property": "C55",
   "status": "proved",
   "theorems": [
    "C55_id_determines_action",
    "C55_order_of_outputs"
   ],
   "note": ""
  },
  {
   "property": "C56",
   "status": "partial",
   "theorems": [
    "C56_hits_are_real",
    "C56_runs_are_real",
    "C56_flags",
    "C56_served_later_partial",
    "C56_served_later_refuted",
    "C56_served_later_paths_refuted"
   ],
   "note": "That a stored successful run is not repeated holds when declared directories are not symlinks and, for actions declaring output paths, no output is a symlink (C56_served_later_partial); otherwise the check on the cached result rejects it and the action is run each time (C56_served_later_refuted, C56_served_later_paths_refuted). All other parts are proved in full."
  },
  {
   "property": "C57",
   "status": "partial",
   "theorems": [
    "C57_command",
    "C57_tree",
    "C57_overlay",
    "C57_output_paths_partial",
    "C57_output_paths_refuted"
   ],
   "note": "Output paths are proved to be the declared places if no component of the working directory is \"..\"; for working directories like a/../b, which are accepted, it is false (C57_output_paths_refuted). The rest is proved in full."
  },
  {
   "property": "C58",
   "status": "proved",
   "theorems": [
    "C58_inputs_known",
    "C58_values",
    "C58_value_unique",
    "C58_schedule_independent",
    "C58_same_outcome",
    "C58_tainted"
   ],
   "note": ""
  },
  {
   "property": "C59",
   "status": "proved",
   "theorems": [
    "C59_rebuild"
   ],
   "note": ""
  },
  {
   "property": "C60",
   "status": "proved",
   "theorems": [
    "C60_one_result",
    "C60_only_reported_variables",
    "C60_sharing",
    "C60_graph_node",
    "C60_result_map"
   ],
   "note": ""
  },
  {
   "property": "C61",
   "status": "proved",
   "theorems": [
    "C61_taints_propagate",
    "C61_unreliable_actions_taint",
    "C61_exports_reliable",
    "C61_implied_exports",
    "C61_implied_propagate"
   ],
   "note": ""
  },
  {
   "property": "C65",
   "status": "proved",
   "theorems": [
    "C65_export",
    "C65_export_from_cache",
    "C65_configure"
   ],
   "note": ""
  },
  {
   "property": "C66",
   "status": "partial",
   "theorems": [
    "C66_no_undefined_behaviour_refuted",
    "C66_no_undefined_behaviour_partial"
   ],
   "note": "False as stated: a generic target whose deps field cannot be evaluated makes the code dereference a null pointer after having reported the error (C66_no_undefined_behaviour_refuted). Proved for all worlds in which deps of generic targets can be evaluated."
  },
  {
   "property": "C62",
   "status": "partial",
   "theorems": [
    "C62_result",
    "C62_result_complete",
    "C62_conflict_detection",
    "C62_all_targets_partial",
    "C62_all_targets_refuted",
    "C62_tree_partial",
    "C62_tree_refuted",
    "C62_working_directory_partial",
    "C62_working_directory_refuted"
   ],
   "note": "False in general: names of generated files, symlinks and trees, paths of install targets, keys of TREE and the working directory of an action are used without normalising them before the check for conflicts (C62_all_targets_refuted, C62_tree_refuted, C62_working_directory_refuted). Proved for RESULT without restriction (C62_result, C62_result_complete), and for all targets, TREE and working directories under the hypothesis that such names are in normal form and inside. Evaluation of expressions is assumed not to make up results, artifacts or nodes that neither the expression, nor the environment, nor its functions gave it, and definitions and configurations are assumed to contain none (they are read from JSON)."
  },
  {
   "property": "C63",
   "status": "proved",
   "theorems": [
    "C63_action_identifier",
    "C63_action_content",
    "C63_tree_identifier",
    "C63_overlay_identifier"
   ],
   "note": ""
  },
  {
   "property": "C64",
   "status": "proved",
   "theorems": [
    "C64_action",
    "C64_outputs_may_be_outside"
   ],
   "note": ""
  },
  {
   "property": "C67",
   "status": "proved",
   "theorems": [
    "C67_result",
    "C67_recipes"
   ],
   "note": "Evaluation of expressions is assumed not to make up artifacts, results or nodes; definitions and the configuration contain none. Artifacts of sources and of targets in the target-level cache are given. That a value node records what its result consists of is not part of the code, so those artifacts count as given."
  },
  {
   "property": "C68",
   "status": "proved",
   "theorems": [
    "C68_gathered",
    "C68_sorted",
    "C68_order"
   ],
   "note": "Origins, statistics and progress are not modelled. Which of several elements with the same identifier is kept is modelled as the first; the statements hold for any choice up to identifiers."
  },
  {
   "property": "C69",
   "status": "proved",
   "theorems": [
    "C69_identifiers",
    "C69_targets",
    "C69_graph",
    "C69_build",
    "C69_determined",
    "C69_more"
   ],
   "note": "Assumes, as C67 does, that evaluation makes up no artifacts. That identifiers determine what was recorded is proved up to a collision of the hash function on named strings (C69_identifiers). The upload of blobs and the check that known and local artifacts are available are a parameter (what the storage has for a source). The rebuild and the staging that follow the build are not part of it."
  },
  {
   "property": "C70",
   "status": "proved",
   "theorems": [
    "C70_complete_view",
    "C70_complete_unique",
    "C70_broken_links_rejected"
   ],
   "note": "Git objects are values (see C19 for identifiers); source and target repository are taken to have the same objects. A schedule is any choice of the request that creates a key; every value any schedule can compute is covered. Link targets are read as the code does, as paths relative to the directory of the link, normalised (see C72)."
  },
  {
   "property": "C71",
   "status": "partial",
   "theorems": [
    "C71_resolvable_partial",
    "C71_resolvable_refuted"
   ],
   "note": "Proved for trees whose links name objects without passing through another link. Refuted in general: x/l -> ../y/f with y -> x is reported as a cycle, since y is resolved as a whole."
  },
  {
   "property": "C72",
   "status": "partial",
   "theorems": [
    "C72_as_the_system_partial",
    "C72_as_the_system_refuted"
   ],
   "note": "Proved if every link target is some steps up followed by names. Refuted for a target like d/../x with d a link to a directory: it is normalised to x."
  },
  {
   "property": "C73",
   "status": "partial",
   "theorems": [
    "C73_links_left",
    "C73_same_meaning_partial",
    "C73_resolved_partial",
    "C73_same_meaning_refuted"
   ],
   "note": "That only downward links are left is proved without restriction. The meaning is kept, and resolution succeeds, if the links that leave their directory name objects without links in them; refuted in general: a/l -> ../b/m with b/m -> c becomes a/l -> c."
  },
  {
   "property": "C74",
   "status": "proved",
   "theorems": [
    "C74_ignore"
   ],
   "note": "Model as for C70."
  },
  {
   "property": "C75",
   "status": "partial",
   "theorems": [
    "C75_resolution_partial",
    "C75_resolution_refuted",
    "C75_modules_normal",
    "C75_json_or_expression",
    "C75_reported_names",
    "C75_reported_names_read",
    "C75_order"
   ],
   "note": "Proved except for relative references that lead to the parent of the workspace or are absolute, which are accepted (refuted with witness). Reported names: injective; read back as targets up to repository bindings; reported file references are not read back (their order of parts differs from the one read). Anonymous names are compared and printed only."
  },
  {
   "property": "C76",
   "status": "partial",
   "theorems": [
    "C76_never_outside",
    "C76_git_source",
    "C76_git_source_ignoring_partial",
    "C76_file_source",
    "C76_file_source_content",
    "C76_same_partial",
    "C76_ignoring_refuted",
    "C76_same_refuted"
   ],
   "note": "Proved for Git roots with valid trees after any questions, for file-system roots, and for their agreement when the name ends in a file name. Refuted: ignoring roots with special entries from the third level on; names like \"f/\", where Git and file-system roots differ. File-system statements are for paths without symlinked directories, which the operating system follows."
  },
  {
   "property": "C77",
   "status": "partial",
   "theorems": [
    "C77_independent",
    "C77_answers_partial",
    "C77_ignoring_refuted"
   ],
   "note": "Proved for all roots that do not ignore special entries (any tree). For ignoring roots only if special entries are in the first two levels; refuted otherwise, since the lookup drops the flag at its second step and the first reader decides what is cached."
  },
  {
   "property": "C78",
   "status": "proved",
   "theorems": [
    "C78_checked_trees_valid",
    "C78_read_trees_valid",
    "C78_valid_trees_accepted",
    "C78_listed_trees_valid"
   ],
   "note": "Up to collisions of tree identifiers among the directories considered. Completeness for histories in which markers can be written."
  },
  {
   "property": "C79",
   "status": "partial",
   "theorems": [
    "C79_git_tree",
    "C79_git_tree_ignoring_partial",
    "C79_file_tree_partial",
    "C79_ignoring_refuted",
    "C79_outside_refuted",
    "C79_top_refuted"
   ],
   "note": "Proved for Git roots (valid, or special entries near the top only when ignoring) and file-system roots. Refuted: deep special entries in ignoring roots; file-system roots for names leading above the root; \"./\" in the top module of a Git root."
  },
  {
   "property": "C80",
   "status": "partial",
   "theorems": [
    "C80_git_glob",
    "C80_git_glob_ignoring_partial",
    "C80_file_glob",
    "C80_ignoring_refuted"
   ],
   "note": "Proved for Git roots and file-system roots; refuted for ignoring Git roots with special entries from the third level on. fnmatch is an arbitrary function."
  },
  {
   "property": "C81",
   "status": "proved",
   "theorems": [
    "C81_digest",
    "C81_read_name",
    "C81_write_name",
    "C81_distinct"
   ],
   "note": "Instance names ending in a slash are refused by the server (example beside the theorem)."
  },
  {
   "property": "C82",
   "status": "proved",
   "theorems": [
    "C82_download",
    "C82_download_complete",
    "C82_offset",
    "C82_positions",
    "C82_upload",
    "C82_upload_complete"
   ],
   "note": "An upload reported as successful means an object with the announced digest was accepted, also if the file does not match the digest; it is the content sent if it does. For servers that report partial uploads the object accepted is the content up to a named collision of hashes. gRPC itself is trusted: it delivers a prefix of the messages in order, and an error status if not all arrived. Offsets are natural numbers."
  },
  {
   "property": "C83",
   "status": "proved",
   "theorems": [
    "C83_missing",
    "C83_exact"
   ],
   "note": "The remote side is any that loses nothing meanwhile and whose answers are true; any request can fail."
  },
  {
   "property": "C84",
   "status": "partial",
   "theorems": [
    "C84_uploaded",
    "C84_complete_partial",
    "C84_same_content_refuted",
    "C84_unasked_refuted"
   ],
   "note": "Soundness and termination are proved for all truthful remote sides that answer about what they were asked (C86 shows that the server is one); completeness holds unless two blobs have the same digest and the check for missing objects is skipped (C84_same_content_refuted). With a remote side that confirms what it was not asked for, success can be reported wrongly (C84_unasked_refuted)."
  },
  {
   "property": "C85",
   "status": "partial",
   "theorems": [
    "C85_read",
    "C85_read_single",
    "C85_complete",
    "C85_dump_refuted"
   ],
   "note": "Reading is proved for all remote sides; data written directly to an output are not compared with the digest (C85_dump_refuted)."
  },
  {
   "property": "C86",
   "status": "proved",
   "theorems": [
    "C86_confirmed",
    "C86_truthful",
    "C86_uploaded",
    "C86_accepts",
    "C86_content"
   ],
   "note": "Native mode (Git hashes). The storage is the model of C24-C30 with its histories: no I/O errors, no collisions among what was stored. Requests are sequences of storage operations that others can interrupt; a garbage collection kills servers."
  },
  {
   "property": "C87",
   "status": "proved",
   "theorems": [
    "C87_read",
    "C87_stream",
    "C87_found",
    "C87_split_splice",
    "C87_cached"
   ],
   "note": "As C86. Splitting and splicing need that all hashes are hexadecimal strings of the right length, as SHA-1 ones are. Sizes of chunks in the responses are not modelled."
  },
  {
   "property": "C88",
   "status": "partial",
   "theorems": [
    "C88_remembered",
    "C88_bounded",
    "C88_oldest_first",
    "C88_forgets_few",
    "C88_waited",
    "C88_wait_ends_partial",
    "C88_wait_ends_refuted"
   ],
   "note": "Waiting ends if no execution of the action failed (C88_wait_ends_partial); after one that failed it never ends, and its entry is never removed (C88_wait_ends_refuted). The order of entries with equal times is arbitrary."
  },
  {
   "property": "C89",
   "status": "partial",
   "theorems": [
    "C89_to_compatible",
    "C89_messages",
    "C89_to_native_partial",
    "C89_to_native_refuted",
    "C89_types_partial",
    "C89_types_refuted",
    "C89_succeeds"
   ],
   "note": "Proved in full from native to compatible (digests). To native: if no file or link has the bytes of a directory message as content (C89_to_native_partial); the empty file and the empty directory show that it is false otherwise (C89_to_native_refuted). Types are kept if contents do not occur with two types (C89_types_partial, C89_types_refuted). SHA1, SHA256, the UTF-8 check and the order of hash maps are parameters; no collisions among the objects involved."
  },
  {
   "property": "C90",
   "status": "partial",
   "theorems": [
    "C90_partial",
    "C90_refuted",
    "C90_stored_partial"
   ],
   "note": "Proved without garbage collection (C90_partial); with it false, as reading a cached conversion prolongs the life of the cache entry but not that of the object (C90_refuted). With it, the objects have at least been stored once (C90_stored_partial)."
  },
  {
   "property": "C91",
   "status": "partial",
   "theorems": [
    "C91_to_compatible",
    "C91_to_native_partial",
    "C91_to_native_refuted"
   ],
   "note": "Proved for conversions to compatible. To native only if nothing fails and the directories are expressible; a blob that is no Directory message, or a failing store of the tree, makes the program dereference an empty optional (C91_to_native_refuted)."
  },
  {
   "property": "C92",
   "status": "partial",
   "theorems": [
    "C92_partial",
    "C92_unique",
    "C92_known",
    "C92_refuted"
   ],
   "note": "Proved for normalised paths inside the directory that do not lie below each other (C92_partial, C92_unique, C92_known). False for others (C92_refuted): a directory spelled in two ways is entered twice and only the later part is kept; an upward path pops from an empty stack. The hash and the conversion are parameters."
  },
  {
   "property": "C93",
   "status": "proved",
   "theorems": [
    "C93_exactly_the_inputs",
    "C93_succeeds",
    "C93_native",
    "C93_compatible"
   ],
   "note": "C93_exactly_the_inputs and C93_succeeds for any reading of the storage whose answers are right; C93_native and C93_compatible for the storage holding the objects of a directory, without hash collisions. Names in trees must be names of directory entries (otherwise see C94_stays_inside_refuted); links need a nonempty target."
  },
  {
   "property": "C94",
   "status": "partial",
   "theorems": [
    "C94_installed",
    "C94_unharmed",
    "C94_succeeds",
    "C94_native",
    "C94_whole_tree_partial",
    "C94_whole_tree_refuted",
    "C94_stays_inside_refuted"
   ],
   "note": "Files and links: C94_installed, C94_unharmed, C94_succeeds, C94_native. The whole tree only without empty directories (C94_whole_tree_partial, C94_whole_tree_refuted): installing leaves them out. Entries named '..' in a tree lead out of the destination (C94_stays_inside_refuted)."
  },
  {
   "property": "C95",
   "status": "proved",
   "theorems": [
    "C95_git_tree",
    "C95_directory_message"
   ],
   "note": "Names of up to 65535 bytes (file systems allow 255). Sockets and devices, for which reading fails, are not modelled."
  },
  {
   "property": "C96",
   "status": "partial",
   "theorems": [
    "C96_outputs_as_inputs",
    "C96_outputs_as_inputs_compatible",
    "C96_inputs_as_outputs",
    "C96_install_and_import_partial",
    "C96_install_and_import_refuted"
   ],
   "note": "Outputs as inputs (native and compatible) and inputs as outputs in full. Installing and importing only for trees without empty directories (C96_install_and_import_partial, C96_install_and_import_refuted)."
  },
  {
   "property": "C97",
   "status": "partial",
   "theorems": [
    "C97_archive_roots",
    "C97_absent_roots",
    "C97_reproducible",
    "C97_no_collisions",
    "C97_never_crashes",
    "C97_directories_partial",
    "C97_directories_refuted"
   ],
   "note": "In full for what the root is, its reproducibility and the absence of crashes (for a Git cache in which no two objects have the same id: C97_no_collisions). That the root is a directory only if no subdirectory is given or links are resolved (C97_directories_partial): the subdirectory may be a file (C97_directories_refuted). Absent roots may be what the serve endpoint tells. Extraction of archives and resolving of links are parameters."
  },
  {
   "property": "C98",
   "status": "partial",
   "theorems": [
    "C98_pinned",
    "C98_available_partial",
    "C98_available_refuted"
   ],
   "note": "The id in full (C98_pinned). Availability only for trees without empty directories and without a serve endpoint (C98_available_partial); otherwise success may be reported for a tree that is not there (C98_available_refuted)."
  },
  {
   "property": "C99",
   "status": "partial",
   "theorems": [
    "C99_commit_roots",
    "C99_truthful_partial",
    "C99_absent_roots",
    "C99_refuted"
   ],
   "note": "In full up to trees named by the serve endpoint (C99_commit_roots, C99_absent_roots). These are not checked and remembered for later runs without the endpoint (C99_refuted); for a truthful endpoint C99_truthful_partial. FetchGit brings any set of commits with their trees."
  },
  {
   "property": "C100",
   "status": "proved",
   "theorems": [
    "C100_associations",
    "C100_usable",
    "C100_offline"
   ],
   "note": "Associations of commits belong to the description in so far as the serve endpoint has said so (see C99). C100_usable is for all but git trees (see C98)."
  },
  {
   "property": "C101",
   "status": "partial",
   "theorems": [
    "C101_nothing_fetched",
    "C101_as_wanted_partial",
    "C101_as_wanted_refuted"
   ],
   "note": "That nothing is fetched in full. Absent in the end for all but commits (C101_as_wanted_partial): a commit in an older generation of the Git cache becomes a present root (C101_as_wanted_refuted)."
  },
  {
   "property": "C102",
   "status": "partial",
   "theorems": [
    "C102_noted_native",
    "C102_conversions_partial",
    "C102_conversions_refuted"
   ],
   "note": "Refuted: the native digest is noted as the compatible one (C102_noted_native, C102_conversions_refuted). Holds where nothing is noted (C102_conversions_partial)."
  },
  {
   "property": "C103",
   "status": "proved",
   "theorems": [
    "C103_distdir",
    "C103_single_file",
    "C103_same_everywhere"
   ],
   "note": "proper: names are distinct (they are keys of a map) and valid names of entries; hashes have 20 bytes."
  },
  {
   "property": "C104",
   "status": "proved",
   "theorems": [
    "C104_as_from_scratch",
    "C104_same_outcome"
   ],
   "note": "tame: no two of the actions involved have colliding messages. Local execution; the calls to other endpoints are a fixed function. That objects named in the cache are still in the CAS is C24-C30."
  },
  {
   "property": "C105",
   "status": "proved",
   "theorems": [
    "C105_made"
   ],
   "note": "made: inductively, via an execution recorded in happens of an action with the same content."
  },
  {
   "property": "C106",
   "status": "proved",
   "theorems": [
    "C106_not_again",
    "C106_nothing_to_do"
   ],
   "note": "reliable: the command exits with zero, leaves its outputs (directories no symlinks), and they can be stored; without this C56_served_later_refuted shows that the command is run again."
  },
  {
   "property": "C107",
   "status": "proved",
   "theorems": [
    "C107_as_executed",
    "C107_cached_complete",
    "C107_never_cached"
   ],
   "note": "Native mode, RBEv2.0 requests of this client (the server also takes requests by paths). Messages are modelled to the byte, with parsers that invert them; the hash has no collision among the texts that occur; strings are valid UTF-8. Executions are local executions (C55, C56)."
  },
  {
   "property": "C108",
   "status": "proved",
   "theorems": [
    "C108_remote_as_local"
   ],
   "note": "Via C107 and the refinement of the remote build by the local build, then C58. UploadTree, overlays and other endpoints are the same fixed functions on both sides."
  },
  {
   "property": "C109",
   "status": "partial",
   "theorems": [
    "C109_properties_refuted"
   ],
   "note": "Refuted: the witness is a history of the service after which a request with properties and timeout was answered although only an execution without took place. What holds is same_work of C107."
  },
  {
   "property": "C110",
   "status": "proved",
   "theorems": [
    "C110_exactly",
    "C110_all",
    "C110_closed"
   ],
   "note": "Fetching of roots is a parameter (its contract is C97-C103); the asynchronous map of repositories is replaced by recursion (C31-C34 justify that)."
  },
  {
   "property": "C111",
   "status": "partial",
   "theorems": [
    "C111_roots_partial",
    "C111_other_target",
    "C111_layers_partial",
    "C111_taken_over",
    "C111_nothing_else",
    "C111_main_left_out",
    "C111_roots_refuted"
   ],
   "note": "Refuted for computed roots whose target has different module and name (C111_other_target: always wrong then). Layers: also not for layers that are the main repository in setup-env and unknown layers with --all."
  },
  {
   "property": "C112",
   "status": "partial",
   "theorems": [
    "C112_same_main",
    "C112_roots_partial",
    "C112_layers_partial",
    "C112_names",
    "C112_accepted_partial",
    "C112_parsed",
    "C112_options",
    "C112_roots_refuted",
    "C112_layers_refuted",
    "C112_accepted_refuted"
   ],
   "note": "Full statement refuted (three witnesses); proved apart from these cases, without command-line options for the main repository. C112_same_main and C112_names hold as stated."
  },
  {
   "property": "C113",
   "status": "partial",
   "theorems": [
    "C113_ends_partial",
    "C113_ends_refuted",
    "C113_reported",
    "C113_circles_reported",
    "C113_succeeds",
    "C113_circle_refuted"
   ],
   "note": "Termination refuted for circles of names, proved for all other configurations (C113_ends_partial). C113_reported, C113_circles_reported (circles of computed roots) and C113_succeeds (configurations in order are set up) hold in general."
  },
  {
   "property": "C114",
   "status": "partial",
   "theorems": [
    "C114_marked",
    "C114_absent_refuted"
   ],
   "note": "C114_marked: each description given in place gets the mark, all else is unchanged. Refuted for descriptions that are names."
  },
  {
   "property": "C115",
   "status": "proved",
   "theorems": [
    "C115_targets",
    "C115_actions"
   ],
   "note": "No assumption on callers, I/O errors or collisions; storage as in C24-C30."
  },
  {
   "property": "C116",
   "status": "proved",
   "theorems": [
    "C116_keeps_contract",
    "C116_order",
    "C116_readable"
   ],
   "note": "The downloader's success is taken to mean that the artifacts are in the youngest generation (C81-C88 treat it). The callers' contract assumed in C24-C30 for target cache entries is discharged here for the writer."
  },
  {
   "property": "C117",
   "status": "proved",
   "theorems": [
    "C117_keys",
    "C117_served"
   ],
   "note": "Configurations of JSON values without infinite or NaN numbers; number texts as in C43."
  },
  {
   "property": "C118",
   "status": "proved",
   "theorems": [
    "C118_default",
    "C118_ignore",
    "C118_file"
   ],
   "note": "Native mode. In the conclusion an object of the CAS may be another content of the same hash; success of directories assumes that the cache is on the same file system (see C120)."
  },
  {
   "property": "C119",
   "status": "partial",
   "theorems": [
    "C119_resolved_partial",
    "C119_succeeds_partial",
    "C119_lexical_refuted"
   ],
   "note": "Proved for links pointing to paths that do not go through other links. In general false of the code (C119_lexical_refuted): links are resolved relative to the name they were reached by."
  },
  {
   "property": "C120",
   "status": "partial",
   "theorems": [
    "C120_contents_partial",
    "C120_single_file_partial",
    "C120_untouched_refuted",
    "C120_independent_refuted",
    "C120_other_file_system_refuted"
   ],
   "note": "Contents and executable bits stay, the CAS stays in order, and single files are not touched. False of the code for directories: their files are hard-linked into the CAS (made read-only, time reset), later in-place changes corrupt the CAS, and directories on another file system are refused."
  },
  {
   "property": "C121",
   "status": "partial",
   "theorems": [
    "C121_existing_partial",
    "C121_missing_refuted"
   ],
   "note": "Proved for paths that are there. For others the code only warns and takes the object where following the path ended (C121_missing_refuted, for all trees and paths)."
  },
  {
   "property": "C122",
   "status": "partial",
   "theorems": [
    "C122_ssl_partial",
    "C122_user_refuted"
   ],
   "note": "Proved if keys with a user only come with URLs with a user; otherwise false of the code: every access fails (C122_user_refuted). URL parsing by libcurl and reading of booleans by libgit2 are parameters."
  },
  {
   "property": "C123",
   "status": "partial",
   "theorems": [
    "C123_no_proxy_partial",
    "C123_ipv6_refuted"
   ],
   "note": "Proved for host names and IPv4 addresses; false of the code for IPv6 addresses with port (C123_ipv6_refuted)."
  },
  {
   "property": "C124",
   "status": "partial",
   "theorems": [
    "C124_exempt",
    "C124_proxy_partial",
    "C124_empty_refuted",
    "C124_generic_empty_refuted"
   ],
   "note": "Proved if no entry that applies is empty. False of the code otherwise: an empty entry that is not the most specific one switches off the proxy (C124_empty_refuted), an empty http.proxy does not (C124_generic_empty_refuted)."
  },
  {
   "property": "C125",
   "status": "proved",
   "theorems": [
    "C125_accepted",
    "C125_overridden",
    "C125_accumulated",
    "C125_merged"
   ],
   "note": "JSON parsing, weakly_canonical and the file system are parameters."
  },
  {
   "property": "C126",
   "status": "proved",
   "theorems": [
    "C126_single",
    "C126_remote",
    "C126_lists",
    "C126_search",
    "C126_invocation_log"
   ],
   "note": "Numbers are the integers they round to; all errors are one outcome."
  },
  {
   "property": "C127",
   "status": "proved",
   "theorems": [
    "C127_dumped",
    "C127_same_settings"
   ],
   "note": "Assumes that the file can be written."
  },
  {
   "property": "C128",
   "status": "proved",
   "theorems": [
    "C128_do",
    "C128_order"
   ],
   "note": "The contents of the metadata file are not modelled."
  },
  {
   "property": "C129",
   "status": "partial",
   "theorems": [
    "C129_forwarded",
    "C129_invocation_log",
    "C129_accepted_partial",
    "C129_version_partial",
    "C129_version_refuted"
   ],
   "note": "What is forwarded is proved for all subcommands. That the options exist in just is proved for all known subcommands but version; for version, options for logging are passed which it does not have (C129_version_refuted)."
  },
  {
   "property": "C130",
   "status": "partial",
   "theorems": [
    "C130_reported_partial",
    "C130_overlay_refuted",
    "C130_root_refuted",
    "C130_absent_refuted",
    "C130_attempts_refuted"
   ],
   "note": "Proved for the keys that hold lists or objects, about the effective configuration. False of the code for: distdirs, just args etc. if another file is overlayed; unknown roots of locations; absent; negative numbers."
  },
  {
   "property": "C131",
   "status": "proved",
   "theorems": [
    "C131_order",
    "C131_determined",
    "C131_no_local",
    "C131_not_strings",
    "C131_inherit"
   ],
   "note": "For configurations given as object and lists; the order is shown to be the only one with these properties."
  },
  {
   "property": "C132",
   "status": "partial",
   "theorems": [
    "C132_stored",
    "C132_no_remote",
    "C132_available_partial",
    "C132_available_refuted",
    "C132_commit",
    "C132_commit_available_partial",
    "C132_commit_available_refuted"
   ],
   "note": "Soundness and the report of failure are proved. That one place having the content suffices is false of the code: the first place that answers is final (C132_available_refuted, C132_commit_available_refuted); proved if all places that answer have the right content."
  },
  {
   "property": "C133",
   "status": "partial",
   "theorems": [
    "C133_settings",
    "C133_calls_partial",
    "C133_calls_refuted",
    "C133_pauses_partial",
    "C133_first_pause_refuted",
    "C133_wrapped_pause_refuted"
   ],
   "note": "Proved for all settings with initial <= max < 2^30 and fewer than 2^32-1 attempts. Outside: first pause not limited, doubling wraps to 0, and 2^32-1 attempts are without end."
  },
  {
   "property": "C134",
   "status": "proved",
   "theorems": [
    "C134_accepted",
    "C134_taken",
    "C134_transitions",
    "C134_others",
    "C134_warned",
    "C134_fields"
   ],
   "note": "For JSON values with keys occurring once per object. Parsing of names and availability of imported expressions are parameters."
  },
  {
   "property": "C135",
   "status": "partial",
   "theorems": [
    "C135_anonymous_refuted",
    "C135_twice_refuted",
    "C135_fields_partial",
    "C135_kinds_partial"
   ],
   "note": "Kinds and reserved names are proved. False of the code: an anonymous field may refer to a field that does not exist (C135_anonymous_refuted), and a field may be listed twice in one list (C135_twice_refuted)."
  },
  {
   "property": "C136",
   "status": "partial",
   "theorems": [
    "C136_content_partial",
    "C136_reproducible_partial",
    "C136_success",
    "C136_result",
    "C136_complete_refuted",
    "C136_nothing_left_refuted"
   ],
   "note": "Content, order, reproducibility, success and failure are proved for trees with proper names that occur once, provided all writes work. False of the code: results of writing are not looked at (C136_complete_refuted), and an incomplete archive is left behind after a failure (C136_nothing_left_refuted)."
  },
  {
   "property": "C137",
   "status": "partial",
   "theorems": [
    "C137_printed",
    "C137_forms",
    "C137_accepted",
    "C137_checked_refuted"
   ],
   "note": "All but the last sentence is proved, for sizes below 2^63. Sizes and types are not checked (C137_checked_refuted)."
  },
  {
   "property": "C138",
   "status": "proved",
   "theorems": [
    "C138_only_declared",
    "C138_call",
    "C138_terminates",
    "C138_empty_transition",
    "C138_declared_not_mentioned"
   ],
   "note": "The statement about calls is for bodies that are calls; how bodies are evaluated is in C01 ff. Termination is for functions without further provided functions."
  },
  {
   "property": "C139",
   "status": "proved",
   "theorems": [
    "C139_read",
    "C139_unambiguous",
    "C139_cycles",
    "C139_imports_needed"
   ],
   "note": "Reading of files, names (see Names) and expressions are parameters; keys occur once in objects, as in everything nlohmann::json parses."
  },
  {
   "property": "C140",
   "status": "partial",
   "theorems": [
    "C140_outside",
    "C140_definitions_partial",
    "C140_same_module_partial",
    "C140_only_inside_partial",
    "C140_file_names_refuted"
   ],
   "note": "Proved for file names that are single components. Other names are not refused, and lead outside the root (C140_file_names_refuted). That answers of roots depend only on the place a path leads to is a hypothesis where stated."
  },
  {
   "property": "C141",
   "status": "partial",
   "theorems": [
    "C141_numbers",
    "C141_printed",
    "C141_accepted_partial",
    "C141_nothing_else_refuted",
    "C141_reported_refuted",
    "C141_property_partial",
    "C141_property_refuted",
    "C141_no_colon",
    "C141_dispatch",
    "C141_dispatch_reported_refuted"
   ],
   "note": "Printed addresses are read back and dispatch lists are exact relative to addresses. Text behind the number is ignored (C141_nothing_else_refuted), numbers from 2^31 on end the program (C141_reported_refuted, C141_dispatch_reported_refuted), and properties with empty or multi-line values are refused or cut (C141_property_refuted)."
  },
  {
   "property": "C142",
   "status": "proved",
   "theorems": [
    "C142_settings",
    "C142_accepted"
   ],
   "note": "Relative to what is an address, a property and a dispatch list, see C141."
  },
  {
   "property": "C143",
   "status": "partial",
   "theorems": [
    "C143_separate",
    "C143_settings",
    "C143_switch",
    "C143_default_refuted"
   ],
   "note": "Proved for descriptions made from settings, up to collisions of the hash or the text form (which replaces what is no UTF-8). Refuted for the description that is there by default: it has no hash, so that comparing it with any other uses a null pointer."
  },
  {
   "property": "C144",
   "status": "partial",
   "theorems": [
    "C144_accepted",
    "C144_encrypted",
    "C144_encrypted_just_mr",
    "C144_presented_partial",
    "C144_presented_refuted",
    "C144_authority_refuted",
    "C144_clients_refuted"
   ],
   "note": "Encryption and the use of the files are proved. Refuted: services do not ask clients for certificates, empty client files are accepted, and the certificate of the authority may be missing. That grpc::SslServerCredentialsOptions by default asks for no certificate is taken from gRPC."
  },
  {
   "property": "C145",
   "status": "proved",
   "theorems": [
    "C145_below",
    "C145_apart",
    "C145_settings"
   ],
   "note": "Paths are lists of components; symbolic links inside the build root are not modelled."
  }
 ]
}