{
 "claims": [
  {
   "property": "C01",
   "status": "proved",
   "theorems": [
    "C01_table",
    "C01_provide"
   ],
   "note": "Value level (iff with an independent relation) and provider level."
  },
  {
   "property": "C02",
   "status": "proved",
   "theorems": [
    "C02_merge_leaves",
    "C02_join_leaves"
   ],
   "note": ""
  },
  {
   "property": "C03",
   "status": "proved",
   "theorems": [
    "C03_join_merge_swap",
    "C03_idempotent",
    "C03_empty"
   ],
   "note": ""
  },
  {
   "property": "C04",
   "status": "proved",
   "theorems": [
    "C04_grouping",
    "C04_grouping_refuted"
   ],
   "note": "Proved under the no-clash condition the property names; without it false (refuted with a witness for each strategy)."
  },
  {
   "property": "C05",
   "status": "proved",
   "theorems": [
    "C05_precedence",
    "C05_leaves",
    "C05_others_irrelevant"
   ],
   "note": ""
  },
  {
   "property": "C06",
   "status": "proved",
   "theorems": [
    "C06_case_insensitive"
   ],
   "note": ""
  },
  {
   "property": "C07",
   "status": "proved",
   "theorems": [
    "C07_profile",
    "C07_figment"
   ],
   "note": ""
  },
  {
   "property": "C08",
   "status": "proved",
   "theorems": [
    "C08_sticky",
    "C08_never_recovers"
   ],
   "note": ""
  },
  {
   "property": "C09",
   "status": "partial",
   "theorems": [
    "C09_first_and_last_partial",
    "C09_at_most_two",
    "C09_all_reported_refuted"
   ],
   "note": "False of the code for three or more failing providers: Error::chain overwrites the previous error, so only the first and the last are kept. Exact content proved for every number of failures."
  },
  {
   "property": "C10",
   "status": "proved",
   "theorems": [
    "C10_names_provider",
    "C10_every_error"
   ],
   "note": ""
  },
  {
   "property": "C11",
   "status": "partial",
   "theorems": [
    "C11_unique",
    "C11_exhaustion_panics",
    "C11_unbounded_refuted"
   ],
   "note": "Proved for every schedule of fewer than 2^64 operations. Without that bound false: the 64-bit counter wraps and hands out the default tag."
  },
  {
   "property": "C12",
   "status": "proved",
   "theorems": [
    "C12_for_profile",
    "C12_profile",
    "C12_invisible"
   ],
   "note": ""
  },
  {
   "property": "C13",
   "status": "proved",
   "theorems": [
    "C13_traceable",
    "C13_tagged"
   ],
   "note": ""
  },
  {
   "property": "C14",
   "status": "proved",
   "theorems": [
    "C14_winner",
    "C14_find_metadata"
   ],
   "note": "All four strategies; arrays only when no operation concatenates arrays."
  },
  {
   "property": "C15",
   "status": "proved",
   "theorems": [
    "C15_composition"
   ],
   "note": ""
  },
  {
   "property": "C16",
   "status": "proved",
   "theorems": [
    "C16_metadata",
    "C16_composed",
    "C16_all"
   ],
   "note": "C16_metadata for histories without Figments as providers, C16_composed for all Figments that can be built."
  },
  {
   "property": "C17",
   "status": "proved",
   "theorems": [
    "C17_find",
    "C17_keys",
    "C17_contains"
   ],
   "note": ""
  },
  {
   "property": "C18",
   "status": "proved",
   "theorems": [
    "C18_nest_find",
    "C18_nest_only"
   ],
   "note": ""
  },
  {
   "property": "C19",
   "status": "partial",
   "theorems": [
    "C19_focus_partial",
    "C19_exact",
    "C19_twice",
    "C19_focus_refuted"
   ],
   "note": "False of the code when profiles disagree on whether the key is a dictionary; proved when every profile in play has dictionaries or nothing along the key. C19_exact says for every Figment what a focused one finds."
  },
  {
   "property": "C20",
   "status": "partial",
   "theorems": [
    "C20_pinpoints",
    "C20_names_provider",
    "C20_wide_refuted"
   ],
   "note": "Proved for every type built from scalars up to 64 bits, options, sequences, tuples, maps, structs, newtypes and enums. False for 128-bit integer targets: their error has no attribution."
  },
  {
   "property": "C21",
   "status": "partial",
   "theorems": [
    "C21_inner_partial",
    "C21_here_partial",
    "C21_full_path_refuted"
   ],
   "note": "False of the code: the requested path is appended after the inner path instead of being put before it. The exact path is proved; it is as documented only when the found value itself is at fault."
  },
  {
   "property": "C22",
   "status": "partial",
   "theorems": [
    "C22_integers",
    "C22_same_integer",
    "C22_wide_refuted"
   ],
   "note": "Same integer or error proved for all variants. The success condition is proved (iff) for stored integers up to 64 bits; 128-bit stored integers are refused even when in range."
  },
  {
   "property": "C23",
   "status": "partial",
   "theorems": [
    "C23_never_refuted",
    "C23_unusable",
    "C23_value_partial"
   ],
   "note": "False of the code for every 128-bit integer; they survive only when extracted as Value."
  },
  {
   "property": "C24",
   "status": "proved",
   "theorems": [
    "C24_lossy_extends",
    "C24_lossy_extends_inner"
   ],
   "note": ""
  },
  {
   "property": "C25",
   "status": "proved",
   "theorems": [
    "C25_lossy_bool"
   ],
   "note": ""
  },
  {
   "property": "C26",
   "status": "partial",
   "theorems": [
    "C26_lossy_num",
    "C26_others",
    "C26_rounding",
    "C26_exact",
    "C26_nearest_double_refuted"
   ],
   "note": "Integers, non-numbers and numbers proved (iff). The last clause is false of the code: fractions of at most 7 bytes are read in single precision."
  },
  {
   "property": "C27",
   "status": "partial",
   "theorems": [
    "C27_terminates",
    "C27_no_panic_partial",
    "C27_no_panic_refuted",
    "C27_clean_ascii",
    "C27_clean_unescaped"
   ],
   "note": "Termination proved for every string. Panic freedom is false of the code: a non-ASCII character before the first escape of a quoted string can panic; proved for all other strings."
  },
  {
   "property": "C28",
   "status": "proved",
   "theorems": [
    "C28_fallback",
    "C28_denotes_partial",
    "C28_denotes_refuted"
   ],
   "note": "Unconditional. The converse (grammatical text gets its meaning) holds except for the escape defect of C30."
  },
  {
   "property": "C29",
   "status": "proved",
   "theorems": [
    "C29_show_parse",
    "C29_show_denotes"
   ],
   "note": ""
  },
  {
   "property": "C30",
   "status": "partial",
   "theorems": [
    "C30_escapes_partial",
    "C30_invalid_partial",
    "C30_accepts",
    "C30_escapes_refuted"
   ],
   "note": "False of the code when a non-ASCII character precedes the first escape (byte/character index confusion); proved (iff) otherwise."
  },
  {
   "property": "C31",
   "status": "proved",
   "theorems": [
    "C31_iter",
    "C31_keys",
    "C31_prefix"
   ],
   "note": ""
  },
  {
   "property": "C32",
   "status": "proved",
   "theorems": [
    "C32_data",
    "C32_data_clean"
   ],
   "note": "The key expectation never fails; the only panics are those of value parsing (C27)."
  },
  {
   "property": "C33",
   "status": "proved",
   "theorems": [
    "C33_order",
    "C33_needs_distinct"
   ],
   "note": ""
  },
  {
   "property": "C34",
   "status": "partial",
   "theorems": [
    "C34_settings_partial",
    "C34_lowercase_exact",
    "C34_lowercase_refuted",
    "C34_lowercase_keys_refuted"
   ],
   "note": "False of the code for lower-casing: every filter or mapping switches it back on. Proved for profile and prefix; C34_lowercase_exact says exactly when lower-casing is off."
  },
  {
   "property": "C35",
   "status": "proved",
   "theorems": [
    "C35_exclusive",
    "C35_partition"
   ],
   "note": ""
  },
  {
   "property": "C36",
   "status": "proved",
   "theorems": [
    "C36_missing",
    "C36_required",
    "C36_found",
    "C36_string",
    "C36_builders"
   ],
   "note": "The file system is an arbitrary oracle for is_file, read and the working directory."
  },
  {
   "property": "C37",
   "status": "proved",
   "theorems": [
    "C37_resolve",
    "C37_nearest",
    "C37_only_itself",
    "C37_candidates",
    "C37_metadata"
   ],
   "note": "For working directories as the system reports them (absolute, no dots). metadata() and data() are assumed to see the same file system."
  },
  {
   "property": "C38",
   "status": "partial",
   "theorems": [
    "C38_round_trip",
    "C38_figment",
    "C38_nested",
    "C38_exact",
    "C38_iff",
    "C38_settles",
    "C38_option_refuted"
   ],
   "note": "Proved for all types built from the listed ones except options of types with empty values: Some(()) and Some(None) come back as None. C38_exact says what comes back for every value of every such type, options of any kind included, and C38_iff that exactly the values without a Some of nothing are restored."
  },
  {
   "property": "C39",
   "status": "partial",
   "theorems": [
    "C39_value",
    "C39_figment",
    "C39_exact",
    "C39_visits",
    "C39_plain_exact",
    "C39_pointer_sized_refuted"
   ],
   "note": "Proved for every Figment without the reserved keys (C40); pointer-sized integers come back as the smallest fixed-width integer holding them. C39_exact says what comes back for every value, reserved keys included."
  },
  {
   "property": "C40",
   "status": "partial",
   "theorems": [
    "C40_values_partial",
    "C40_fails",
    "C40_tags",
    "C40_forged_refuted",
    "C40_dropped_refuted"
   ],
   "note": "False of the code: the reserved keys ___figment_value_id and ___figment_value_value forge tags and drop keys. Proved without them; C40_fails and C40_tags say exactly when extraction fails and which tags can appear."
  },
  {
   "property": "C41",
   "status": "partial",
   "theorems": [
    "C41_tagged",
    "C41_exact",
    "C41_same_failure",
    "C41_error_path_refuted",
    "C41_forged_refuted"
   ],
   "note": "Proved (iff) for values that do not have the reserved keys of Tagged; C41_exact says what happens for every value. Errors of T get an internal key in their path."
  },
  {
   "property": "C42",
   "status": "proved",
   "theorems": [
    "C42_extract",
    "C42_any_value",
    "C42_exact",
    "C42_unchanged",
    "C42_file",
    "C42_file_text",
    "C42_directory",
    "C42_forged_refuted"
   ],
   "note": "For every value that is a path. A dictionary with the reserved keys (the serialized form) names its own source: C42_forged_refuted, C42_exact."
  },
  {
   "property": "C43",
   "status": "partial",
   "theorems": [
    "C43_diff",
    "C43_answers",
    "C43_shared",
    "C43_exact",
    "C43_display",
    "C43_dot_refuted",
    "C43_dotdot_refuted"
   ],
   "note": "False of the code for some bases with . or .. components; proved for every base whose own part has none, and every path. C43_exact says what is answered in every case."
  },
  {
   "property": "C44",
   "status": "partial",
   "theorems": [
    "C44_restored",
    "C44_exact",
    "C44_bad_name_refuted",
    "C44_directory_gone_refuted"
   ],
   "note": "Proved for every environment, operation sequence and restore order. Exceptions: set_env with an impossible name panics and then Drop panics too, and C44_exact says that this is the only case; a vanished original directory is not restored."
  },
  {
   "property": "C45",
   "status": "proved",
   "theorems": [
    "C45_inside",
    "C45_operations",
    "C45_absolute",
    "C45_relative",
    "C45_parent_refuted"
   ],
   "note": "Without symbolic links. C45_parent_refuted: relative paths that climb are clamped rather than followed, even when they would stay inside."
  },
  {
   "property": "C46",
   "status": "partial",
   "theorems": [
    "C46_iteration",
    "C46_iteration_total",
    "C46_chain_partial",
    "C46_chain_exact",
    "C46_chain_refuted"
   ],
   "note": "Counting and iteration proved. The chaining clause is false when the argument already has a predecessor; proved otherwise, and C46_chain_exact says what results in every case."
  },
  {
   "property": "C47",
   "status": "proved",
   "theorems": [
    "C47_equality"
   ],
   "note": ""
  },
  {
   "property": "C48",
   "status": "proved",
   "theorems": [
    "C48_data",
    "C48_error",
    "C48_pair",
    "C48_constructors",
    "C48_builder"
   ],
   "note": ""
  },
  {
   "property": "C49",
   "status": "partial",
   "theorems": [
    "C49_partial",
    "C49_wide_refuted"
   ],
   "note": "Proved (iff); the integers 0 and 1 stored in 128 bits are refused."
  },
  {
   "property": "C50",
   "status": "partial",
   "theorems": [
    "C50_pairs_partial",
    "C50_newtype_refuted",
    "C50_duplicates_refuted"
   ],
   "note": "Proved for key types written as strings (strings, paths, profiles, enums of units), up to order. Newtype keys serialize but cannot be read back."
  },
  {
   "property": "C51",
   "status": "proved",
   "theorems": [
    "C51_value",
    "C51_extract",
    "C51_inner"
   ],
   "note": "Types as in C20, with distinct field and variant names."
  },
  {
   "property": "C52",
   "status": "proved",
   "theorems": [
    "C52_profiles",
    "C52_order",
    "C52_select",
    "C52_failed"
   ],
   "note": ""
  },
  {
   "property": "C53",
   "status": "proved",
   "theorems": [
    "C53_var",
    "C53_var_none",
    "C53_var_or",
    "C53_profile",
    "C53_profile_or",
    "C53_profile_trimmed_refuted"
   ],
   "note": "C53_profile_trimmed_refuted: the two functions disagree about a value with surrounding whitespace."
  },
  {
   "property": "C54",
   "status": "proved",
   "theorems": [
    "C54_lines",
    "C54_report",
    "C54_extraction",
    "C54_providers",
    "C54_env",
    "C54_origin",
    "C54_quoted"
   ],
   "note": "The display of characters outside ASCII is simplified (Fmt.v); C09 says which errors a chain keeps."
  },
  {
   "property": "C55",
   "status": "partial",
   "theorems": [
    "C55_tagged",
    "C55_relative",
    "C55_figment",
    "C55_error",
    "C55_exact",
    "C55_lossy_exact",
    "C55_lossy_refuted"
   ],
   "note": "Proved for exact extraction. False of the code for lossy extraction: Either reads both sides exactly (C55_lossy_refuted, C55_lossy_exact). C55_exact covers every value, mode and pair of types."
  },
  {
   "property": "C56",
   "status": "proved",
   "theorems": [
    "C56_tagged",
    "C56_relative",
    "C56_original",
    "C56_resolved",
    "C56_resolved_refuted"
   ],
   "note": "Covers the three ways to write a RelativePathBuf. Written resolved against a file that was itself named by a relative path, it leads elsewhere when read back from that file (C56_resolved_refuted)."
  },
  {
   "property": "C57",
   "status": "proved",
   "theorems": [
    "C57_integers",
    "C57_casts",
    "C57_floats",
    "C57_values"
   ],
   "note": ""
  },
  {
   "property": "C58",
   "status": "proved",
   "theorems": [
    "C58_holds",
    "C58_serialize"
   ],
   "note": "usize and isize serialize as 64-bit integers, so the two results differ in that variant before serialization."
  },
  {
   "property": "C59",
   "status": "proved",
   "theorems": [
    "C59_reads",
    "C59_total",
    "C59_fails",
    "C59_found",
    "C59_dict",
    "C59_source",
    "C59_provider",
    "C59_figment",
    "C59_reserved_refuted"
   ],
   "note": "From the document on: the parsers that turn text into a document are not modelled. C59_reads is exact for all documents; the reserved keys are not treated as data (C59_reserved_refuted)."
  },
  {
   "property": "C60",
   "status": "partial",
   "theorems": [
    "C60_sections",
    "C60_source",
    "C60_provider",
    "C60_case_refuted"
   ],
   "note": "Exact characterisation proved. 'Every section has an effect' is false of the code: of two sections whose names differ in case only the last counts."
  },
  {
   "property": "C61",
   "status": "proved",
   "theorems": [
    "C61_float",
    "C61_shortest",
    "C61_integer",
    "C61_text",
    "C61_found",
    "C61_value",
    "C61_message",
    "C61_problem",
    "C61_subject",
    "C61_expected",
    "C61_words",
    "C61_called",
    "C61_special",
    "C61_other_refuted"
   ],
   "note": "Printing of floats is modelled after the standard library; C61_shortest says it has the fewest digits and is nearest among those. C61_expected: the names that were expected can be read off. The display of characters outside ASCII is simplified (Fmt.v). C61_other_refuted: free descriptions (Actual::Other) can look like anything."
  },
  {
   "property": "C62",
   "status": "proved",
   "theorems": [
    "C27_exact",
    "C28_exact",
    "C28_unique",
    "C28_read_not_stuck",
    "C28_same_without_escapes",
    "C30_exact",
    "C30_panics",
    "C30_errors"
   ],
   "note": "C27, C28 and C30 say what should hold; these say what does hold, for every text."
  },
  {
   "property": "C63",
   "status": "proved",
   "theorems": [
    "C63_leaves",
    "C63_found",
    "C63_assigned",
    "C63_panics",
    "C63_provider",
    "C63_figment"
   ],
   "note": "The environment is a list of variables in the order the operating system lists them."
  },
  {
   "property": "C64",
   "status": "proved",
   "theorems": [
    "C64_configured",
    "C64_value",
    "C64_extract",
    "C64_inner"
   ],
   "note": "For every type of the universe ty, also with reserved keys; distinct field and variant names assumed (the compiler demands it)."
  },
  {
   "property": "C65",
   "status": "proved",
   "theorems": [
    "C65_value",
    "C65_history",
    "C65_extract",
    "C65_inner",
    "C65_queries",
    "C65_figment",
    "C65_end_to_end",
    "C65_reserved_refuted",
    "C65_names"
   ],
   "note": "For all types that do not use one of the three reserved struct names; a user's own struct with such a name is shown the tag (C65_reserved_refuted C65_names). That Tagged and RelativePathBuf show the right source is C41, C42, C55."
  },
  {
   "property": "C66",
   "status": "proved",
   "theorems": [
    "C66_hash",
    "C66_exact",
    "C66_respelled",
    "C66_equivalence",
    "C66_reflexive",
    "C66_self_refuted",
    "C66_wrappers",
    "C66_shown_refuted",
    "C66_extracts_refuted"
   ],
   "note": "Not a number never equals itself, in values and in errors (C66_self_refuted). Equal errors may read differently (C66_shown_refuted) and equal values extract differently (C66_extracts_refuted)."
  },
  {
   "property": "C67",
   "status": "proved",
   "theorems": [
    "C67_value",
    "C67_extract",
    "C67_unrelated",
    "C67_deny_refuted"
   ],
   "note": "Equal results, errors and blame for equal tags (C67_value); equal up to sources otherwise. A struct that refuses unknown fields does look at them (C67_deny_refuted)."
  },
  {
   "property": "C68",
   "status": "proved",
   "theorems": [
    "C68_any_order",
    "C68_mixed_refuted",
    "C68_overlap_refuted"
   ],
   "note": "For providers that select no profile; all calls override (merge, admerge) or all give way (join, adjoin). C68_mixed_refuted shows that this is needed."
  },
  {
   "property": "C69",
   "status": "proved",
   "theorems": [
    "C69_no_trace",
    "C69_confined",
    "C69_start"
   ],
   "note": "For disks without symbolic links, with nothing else touching the disk (World.v). Improper variable names panic twice: C44_bad_name_refuted."
  },
  {
   "property": "C70",
   "status": "partial",
   "theorems": [
    "C70_create",
    "C70_mkdir",
    "C70_chdir",
    "C70_chdir_up_refuted",
    "C70_set_env",
    "C70_clear_env",
    "C70_seen",
    "C70_nearest",
    "C70_file",
    "C70_kept",
    "C70_dotdot_refuted",
    "C70_escape_refuted"
   ],
   "note": "Proved for the operations (exactly) and for paths made of names. False of the code in three ways: change_dir to . or .. always fails (C70_chdir_up_refuted), the jail tidies paths with .. but the provider does not (C70_dotdot_refuted), and the search for a file goes on above the jail (C70_escape_refuted)."
  },
  {
   "property": "C71",
   "status": "partial",
   "theorems": [
    "C71_serialized",
    "C71_merge",
    "C71_layers",
    "C71_config",
    "C71_untouched",
    "C71_replace",
    "C71_enum_refuted",
    "C71_map_refuted"
   ],
   "note": "Proved for all restorable types with the overriding relation given type by type. The last clause is false of the code for two kinds of type, and proved for all others: an override with another variant of an enum with data can be silently ignored, since both variants end up in one dictionary and the first in order is read (C71_enum_refuted), and a map keeps the keys of the default (C71_map_refuted)."
  },
  {
   "property": "C72",
   "status": "proved",
   "theorems": [
    "C72_coalesce",
    "C72_held",
    "C72_found",
    "C72_values",
    "C72_alike",
    "C72_last_word"
   ],
   "note": "Up to tags (C13 and C14 say where values come from)."
  },
  {
   "property": "C73",
   "status": "partial",
   "theorems": [
    "C73_resolved",
    "C73_fails",
    "C73_mergeless",
    "C73_provider",
    "C73_named",
    "C73_chain_refuted"
   ],
   "note": "Proved except for bases that have merge keys themselves, where the code does not do what the specification of merge keys (to which the documentation refers) says: what the base's own merge key brings in is missing, and a key << stays in the configuration (C73_chain_refuted). apply_merge is serde_yaml's, restated in Yaml.v."
  },
  {
   "property": "C74",
   "status": "proved",
   "theorems": [
    "C74_length",
    "C74_boundary",
    "C74_order",
    "C74_white",
    "C74_trim",
    "C74_lower",
    "C74_replace",
    "C74_replace_empty",
    "C74_split"
   ],
   "note": ""
  },
  {
   "property": "C75",
   "status": "proved",
   "theorems": [
    "C75_alone",
    "C75_schedule",
    "C75_exclusive",
    "C75_progress",
    "C75_finishes",
    "C75_nested",
    "C75_sees",
    "C75_set"
   ],
   "note": "For closures that name variables properly (C44 has the others), with nothing but jails touching the process."
  },
  {
   "property": "C76",
   "status": "proved",
   "theorems": [
    "C76_config"
   ],
   "note": "For structs that ignore unknown fields and whose fields are scalars, sequences, tuples, or options or newtypes of these (undivided); nested structs and maps are in C71."
  },
  {
   "property": "C77",
   "status": "proved",
   "theorems": [
    "C77_built",
    "C77_shortcut",
    "C77_provided",
    "C77_source",
    "C77_same",
    "C77_custom",
    "C77_begins",
    "C77_order",
    "C77_collect"
   ],
   "note": ""
  },
  {
   "property": "C78",
   "status": "proved",
   "theorems": [
    "C78_alone",
    "C78_answers",
    "C78_errors",
    "C78_only_tags",
    "C78_end_to_end",
    "C78_forged_refuted"
   ],
   "note": "The hypotheses on providers and target types are part of the property; C78_forged_refuted shows why."
  },
  {
   "property": "C79",
   "status": "proved",
   "theorems": [
    "C79_value",
    "C79_ends",
    "C79_form",
    "C79_float",
    "C79_one_line",
    "C79_equal",
    "C79_tag",
    "C79_tag_form"
   ],
   "note": "The formatting helpers of the standard library (debug_tuple, escape_debug, floats) are restated in Debug.v; the table of unprintable characters is arbitrary; NaNs are one value here. The alternate form ({:#?}) is not modelled."
  },
  {
   "property": "C80",
   "status": "proved",
   "theorems": [
    "C80_extract",
    "C80_fields",
    "C80_no_mask",
    "C80_error",
    "C80_unknown",
    "C80_twice",
    "C80_missing",
    "C80_short",
    "C80_element"
   ],
   "note": "C80_extract is exact for every type with attributes; the others spell out what it means for structs, and which errors they give and where these point."
  },
  {
   "property": "C81",
   "status": "proved",
   "theorems": [
    "C81_flatten",
    "C81_inline",
    "C81_no_place",
    "C81_as_plain",
    "C81_wrong_kind",
    "C81_unsourced",
    "C81_wide",
    "C81_lossy",
    "C81_place_lost",
    "C81_values_lost"
   ],
   "note": "Exact for all structs with flattened structs, options of structs, and maps. C81_inline is for flattened fields of the types of C39 without unit structs; C81_place_lost and C81_values_lost are concrete Figments where flattening loses an error's place, or a value."
  },
  {
   "property": "C82",
   "status": "proved",
   "theorems": [
    "C82_untagged",
    "C82_error",
    "C82_lossy",
    "C82_magic"
   ],
   "note": "For untagged enums of newtype variants over all types of the model, nested ones included."
  },
  {
   "property": "C83",
   "status": "proved",
   "theorems": [
    "C83_written",
    "C83_error",
    "C83_either",
    "C83_char"
   ],
   "note": "What the Serialize impls of Rust types do (derived, and serde's) is part of the trusted base; paths are text."
  },
  {
   "property": "C84",
   "status": "partial",
   "theorems": [
    "C84_configured",
    "C84_value",
    "C84_outcome",
    "C84_extract",
    "C84_inner",
    "C84_nothing",
    "C84_reserved_refuted"
   ],
   "note": "Exact in path and kind for every type of the model, Value, Either and the other special ones included; the clause that paths consist of keys and positions of the configuration is false for Value, Tagged and RelativePathBuf (C84_reserved_refuted). The expectation texts of serde's own and derived visitors are part of the trusted base."
  },
  {
   "property": "C85",
   "status": "proved",
   "theorems": [
    "C85_fault",
    "C85_source",
    "C85_text"
   ],
   "note": "Exact: which field, which path and kind (by the relation refuses of C84), whose metadata and what text. Examples C85_ex, C85_ex_text."
  },
  {
   "property": "C86",
   "status": "proved",
   "theorems": [
    "C86_saves",
    "C86_agree",
    "C86_underneath",
    "C86_on_top",
    "C86_on_top_refuted"
   ],
   "note": "The last sentence of the statement is C86_on_top_refuted: it shows that the condition about globals cannot be dropped. Examples C86_ex_underneath, C86_ex_on_top, C86_ex_agree."
  },
  {
   "property": "C87",
   "status": "proved",
   "theorems": [
    "C87_config",
    "C87_env_refuted"
   ],
   "note": "Exact (an equivalence), for any number of files. The last sentence of the statement is C87_env_refuted. Example C87_ex."
  },
  {
   "property": "C88",
   "status": "proved",
   "theorems": [
    "C88_last",
    "C88_first",
    "C88_join_between_refuted",
    "C88_merge_between_refuted",
    "C88_concatenate_refuted"
   ],
   "note": "For what extraction, find_value and contains give, in any profile. The refuted theorems show that the conditions stated are needed. Examples C88_last_ex, C88_first_ex."
  },
  {
   "property": "C89",
   "status": "proved",
   "theorems": [
    "C89_whole",
    "C89_struct",
    "C89_map",
    "C89_error",
    "C89_dotted_refuted"
   ],
   "note": "Equivalences, for plain field names (nonempty, no dots). The last sentence of the statement is C89_dotted_refuted. Examples C89_ex, C89_error_ex."
  },
  {
   "property": "C90",
   "status": "proved",
   "theorems": [
    "C90_leaves",
    "C90_untouched",
    "C90_struct"
   ],
   "note": "For all Env builders whose lowercase flag is set at the end (C34 says when that is). Examples C90_ex, C90_ex_untouched, C90_ex_kept."
  },
  {
   "property": "C91",
   "status": "proved",
   "theorems": [
    "C91_fault",
    "C91_source",
    "C91_text"
   ],
   "note": "C91_fault is an equivalence; for any number of files. Examples C91_ex, C91_ex_text."
  },
  {
   "property": "C92",
   "status": "proved",
   "theorems": [
    "C92_inner",
    "C92_extract",
    "C92_setting"
   ],
   "note": "Equivalences for every history without failing providers. Types: structs (with or without deny_unknown_fields), maps with string keys, options and newtypes around types that are not read from dictionaries. Examples C92_ex, C92_ex_hidden."
  },
  {
   "property": "C93",
   "status": "proved",
   "theorems": [
    "C93_text",
    "C93_valid",
    "C93_marked",
    "C93_segments",
    "C93_keys",
    "C93_collide_refuted"
   ],
   "note": "The last sentence of the statement is C93_collide_refuted. Bytes as on Unix. Examples C93_text_ex, C93_valid_ex, C93_marked_ex, C93_segments_ex, C93_keys_ex."
  },
  {
   "property": "C94",
   "status": "proved",
   "theorems": [
    "C94_ignored",
    "C94_config",
    "C94_fault",
    "C94_blank_refuted"
   ],
   "note": "Equivalences. The last sentence of the statement is C94_blank_refuted. Example C94_ex."
  },
  {
   "property": "C95",
   "status": "proved",
   "theorems": [
    "C95_deny",
    "C95_ignored"
   ],
   "note": "Equivalences, for any number of files. Example C95_ex."
  },
  {
   "property": "C96",
   "status": "proved",
   "theorems": [
    "C96_source",
    "C96_fault",
    "C96_whole",
    "C96_decided"
   ],
   "note": "C14 without its condition on shapes, for merges. Composed Figments as providers are C15's subject. Example C96_ex."
  }
 ]
}