{
 "claims": [
  {
   "property": "C01",
   "status": "proved",
   "theorems": [
    "hexString_roundtrip",
    "hexString_injective"
   ],
   "note": ""
  },
  {
   "property": "C02",
   "status": "partial",
   "theorems": [
    "fromHexString_rejects_refuted",
    "fromHexString_partial",
    "uint64_roundtrip"
   ],
   "note": "False of the code: stoul accepts blanks, signs and 0x inside a byte pair. Exact acceptance condition proved instead."
  },
  {
   "property": "C03",
   "status": "proved",
   "theorems": [
    "hashid_strict_total_order"
   ],
   "note": ""
  },
  {
   "property": "C04",
   "status": "proved",
   "theorems": [
    "hash_no_collision_shared_half",
    "hash_is_fnv"
   ],
   "note": ""
  },
  {
   "property": "C05",
   "status": "proved",
   "theorems": [
    "Id_semantics",
    "Id_increments_distinct",
    "Id_fresh_sequence"
   ],
   "note": ""
  },
  {
   "property": "C06",
   "status": "partial",
   "theorems": [
    "replace_terminates_refuted",
    "replace_partial"
   ],
   "note": "False of the code when target = replacement (infinite loop); exact characterisation of result and divergence proved."
  },
  {
   "property": "C07",
   "status": "partial",
   "theorems": [
    "replace_reverse_keeps_refuted",
    "replace_reverse_partial"
   ],
   "note": "False of the code when the string starts with target and skip >= number of occurrences (position wraps); exact characterisation proved."
  },
  {
   "property": "C08",
   "status": "proved",
   "theorems": [
    "padding_spec"
   ],
   "note": ""
  },
  {
   "property": "C09",
   "status": "proved",
   "theorems": [
    "substituteEnvVars_spec"
   ],
   "note": ""
  },
  {
   "property": "C10",
   "status": "proved",
   "theorems": [
    "ensureTrailingBackslash_spec"
   ],
   "note": ""
  },
  {
   "property": "C11",
   "status": "proved",
   "theorems": [
    "toStream_spec",
    "arrToString_injective"
   ],
   "note": ""
  },
  {
   "property": "C12",
   "status": "proved",
   "theorems": [
    "comparisons_trichotomy",
    "comparisons_symmetry",
    "comparisons_reject_epsilon",
    "comparisons_infinite_cases"
   ],
   "note": ""
  },
  {
   "property": "C13",
   "status": "partial",
   "theorems": [
    "asserts_throw_iff_partial",
    "assert_NEAR_spec",
    "range_asserts_reject_nan_refuted",
    "dbg_asserts"
   ],
   "note": "False for NaN: the range asserts negate the comparison the wrong way, so a NaN passes. Exact behaviour proved for every double; _refuted is the witness."
  },
  {
   "property": "C14",
   "status": "partial",
   "theorems": [
    "round_nearest_refuted",
    "round_partial",
    "rint_partial",
    "lrint_refuted"
   ],
   "note": "floor(x+0.5) is wrong for the double just below 0.5 and for odd values above 2^52; exact bound proved elsewhere."
  },
  {
   "property": "C15",
   "status": "partial",
   "theorems": [
    "sgn_spec",
    "solveQuadratic_partial",
    "solveQuadratic_double_zero_refuted",
    "solveQuadratic_accepts",
    "solveQuadratic_stable",
    "solveQuadratic_imaginary_refuted"
   ],
   "note": "Exact arithmetic: the roots with multiplicity, except b=c=0, which divides 0/0 (NaN root). IEEE doubles (magnitudes 0 or 2^-200..2^200): a polynomial with real roots is never refused, and the two numbers returned are within 7*2^-53 (relative) of the roots of the polynomial with c changed by at most 3*2^-53; refuted: slightly imaginary roots are not always refused."
  },
  {
   "property": "C16",
   "status": "partial",
   "theorems": [
    "conjunction_means_all_refuted",
    "check_macros_partial"
   ],
   "note": "The macros expand to an unparenthesised ?: so A && B parses as A ? .. ; proved exactly when the conjunction is still right."
  },
  {
   "property": "C17",
   "status": "proved",
   "theorems": [
    "isSame_pointers"
   ],
   "note": ""
  },
  {
   "property": "C18",
   "status": "proved",
   "theorems": [
    "sec_nsec_roundtrip",
    "sec_nsec_monotone",
    "sec_nsec_limits"
   ],
   "note": ""
  },
  {
   "property": "C19",
   "status": "partial",
   "theorems": [
    "isValid_refuted",
    "isValid_partial"
   ],
   "note": "isValid is inverted in the code."
  },
  {
   "property": "C20",
   "status": "proved",
   "theorems": [
    "chrono_roundtrip"
   ],
   "note": "The clock's tick is a parameter: 1 ns (libstdc++) is lossless."
  },
  {
   "property": "C75",
   "status": "partial",
   "theorems": [
    "pair_isBinaryEqual_refuted",
    "isBinaryEqual_partial",
    "cv_isBinaryEqual_refuted",
    "cv_isBinaryEqual_partial"
   ],
   "note": "Transformation::isBinaryEqual uses the macros of C16 and so ignores the translation; cv::Mat comparison has its own defects."
  },
  {
   "property": "C21",
   "status": "proved",
   "theorems": [
    "corrector_guard",
    "corrector_throw_unchanged",
    "double_nan_refuted"
   ],
   "note": "Exact arithmetic for the guard; unchanged-on-throw for every number type. The extra _refuted theorem shows NaN remote times (double) slip through."
  },
  {
   "property": "C22",
   "status": "proved",
   "theorems": [
    "corrector_hull",
    "corrector_strictly_convex_refuted"
   ],
   "note": "Exact rational arithmetic (int64: see C26)."
  },
  {
   "property": "C23",
   "status": "proved",
   "theorems": [
    "corrector_below_local"
   ],
   "note": "Exact rational arithmetic; the rounding of the interpolation is bounded in C124."
  },
  {
   "property": "C24",
   "status": "partial",
   "theorems": [
    "corrector_index_refuted",
    "corrector_index_partial",
    "corrector_midpoint"
   ],
   "note": "False of the code: a stale _midpointSegmentIndex is used out of bounds when the hull shrinks to two points. Proved with >= 3 points, and with 2 when the index is 0."
  },
  {
   "property": "C25",
   "status": "proved",
   "theorems": [
    "corrector_periodic",
    "periodic_negative_refuted"
   ],
   "note": "Exact rational arithmetic. A negative period can dereference null (witness)."
  },
  {
   "property": "C26",
   "status": "partial",
   "theorems": [
    "int64_overflow_refuted",
    "int64_midpoint_refuted",
    "int64_partial"
   ],
   "note": "False of the code beyond 2.1 s of nanoseconds; proved (with hull exactness) below that."
  },
  {
   "property": "C91",
   "status": "partial",
   "theorems": [
    "reset_partial",
    "reset_periodic_refuted"
   ],
   "note": "True for the two-argument overload for every number type; false for the periodic overload because the pending corrector survives reset."
  },
  {
   "property": "C27",
   "status": "proved",
   "theorems": [
    "handles_stable_and_injective",
    "handles_dense",
    "creation_disturbs_nothing"
   ],
   "note": "All operation sequences of the registry model (single-threaded)."
  },
  {
   "property": "C28",
   "status": "proved",
   "theorems": [
    "timer_refines_spec",
    "timer_violations_change_nothing",
    "completed_interval_adds_one_sample"
   ],
   "note": "Refinement of the spec machine of Timer_Spec (sample lists); exact rational arithmetic for the accumulators."
  },
  {
   "property": "C29",
   "status": "partial",
   "theorems": [
    "secondsToTimeString_partial",
    "secondsToTimeString_refuted",
    "secondsToTimeString_negative_refuted"
   ],
   "note": "Refuted as stated: 59.9999999 prints seconds 60.000000. Proved: hours/minutes/seconds decomposition with seconds <= 60 (=60 only as 60.000000), recombination within half a microsecond, for 0 <= s < 60*2^31 in IEEE doubles. Negative seconds are outside the claim: -65 s prints as 00:-1:-5.000000."
  },
  {
   "property": "C30",
   "status": "proved",
   "theorems": [
    "logs_record_events",
    "jobs_started_once_in_order",
    "one_worker_is_sequential"
   ],
   "note": "All interleavings of any number of workers and API calls in a small-step model with explicit mutex and condition variables."
  },
  {
   "property": "C31",
   "status": "proved",
   "theorems": [
    "waitForEmptyQueue_returns_when_idle"
   ],
   "note": "All interleavings."
  },
  {
   "property": "C32",
   "status": "proved",
   "theorems": [
    "join_returns_when_stopped"
   ],
   "note": "All interleavings."
  },
  {
   "property": "C33",
   "status": "partial",
   "theorems": [
    "join_lost_wakeup_refuted",
    "join_returns_partial",
    "dtor_winds_down"
   ],
   "note": "False as stated: stop() sets the flag without the mutex, so a worker between its test and its wait misses the notification and join blocks forever. Proved: if no worker is in that window when the notification is sent, every worker winds down."
  },
  {
   "property": "C34",
   "status": "partial",
   "theorems": [
    "dtor_refuted",
    "dtor_partial"
   ],
   "note": "False as stated: a thread created but not yet inside its loop is not counted, so the destructor may finish before it. Proved when every created thread has entered its loop."
  },
  {
   "property": "C35",
   "status": "proved",
   "theorems": [
    "futures_get_their_own_result"
   ],
   "note": "All interleavings."
  },
  {
   "property": "C92",
   "status": "proved",
   "theorems": [
    "no_lost_wakeups",
    "never_pops_empty_queue"
   ],
   "note": "All interleavings."
  },
  {
   "property": "C36",
   "status": "proved",
   "theorems": [
    "save_load_roundtrip",
    "oversized_matrix_refuted"
   ],
   "note": "Every archive reachable through the API with valid names and blocks below 2^32 bytes; byte-exact file format from Archive_Spec. Beyond 2^32 bytes data is dropped (oversized_matrix_refuted), outside the quantifier."
  },
  {
   "property": "C37",
   "status": "partial",
   "theorems": [
    "names_valid_refuted",
    "names_valid_partial"
   ],
   "note": "False as stated: createMatrix does not validate. Proved for all histories whose createMatrix names are valid, including loads of arbitrary files."
  },
  {
   "property": "C38",
   "status": "partial",
   "theorems": [
    "truncation_partial",
    "load_accepts_only_blocks",
    "truncation_refuted"
   ],
   "note": "The stream state is never checked, so a truncated block is detected only because the uninitialised variable `end` differs from 'B'; proved under that proviso for every prefix and for arbitrary files, refuted without it."
  },
  {
   "property": "C39",
   "status": "proved",
   "theorems": [
    "load_merges",
    "save_selects"
   ],
   "note": "All files, archives and name sets."
  },
  {
   "property": "C40",
   "status": "partial",
   "theorems": [
    "archive_map_partial",
    "one_kind_refuted",
    "one_kind_partial"
   ],
   "note": "Map laws proved for all histories; one kind per name is false (setScalar/setVector/createMatrix/load do not erase strings), proved for histories of setMatrix/setString/clear."
  },
  {
   "property": "C41",
   "status": "partial",
   "theorems": [
    "append_refuted",
    "append_partial"
   ],
   "note": "append writes nothing."
  },
  {
   "property": "C42",
   "status": "partial",
   "theorems": [
    "clear_refuted",
    "clear_partial"
   ],
   "note": "clear(name) never removes a string."
  },
  {
   "property": "C43",
   "status": "partial",
   "theorems": [
    "matlab_save_loads_partial",
    "matlab_loads_saved",
    "matlab_char_matrix_refuted",
    "matlab_append",
    "matlab_save_refuses"
   ],
   "note": "False for multi-row char arrays; proved for numeric matrices and row char vectors, and for reading."
  },
  {
   "property": "C44",
   "status": "proved",
   "theorems": [
    "translators_faithful",
    "set_then_get",
    "set_double_slash_refuted"
   ],
   "note": "For string, int and bool values and every namespace/key naming a path of non-empty components; the refuted theorem shows the restriction is needed (a key with an empty last component trips a boost assertion). Doubles: see C110."
  },
  {
   "property": "C45",
   "status": "proved",
   "theorems": [
    "set_frame",
    "set_children"
   ],
   "note": ""
  },
  {
   "property": "C46",
   "status": "proved",
   "theorems": [
    "views_open",
    "views_read",
    "views_compose"
   ],
   "note": ""
  },
  {
   "property": "C47",
   "status": "proved",
   "theorems": [
    "default_reads"
   ],
   "note": "The mutable version stores the default; later reads return it whenever the translator round trips it (faithful; string, int, bool: translators_faithful, double: C110)."
  },
  {
   "property": "C48",
   "status": "partial",
   "theorems": [
    "update_merge_partial",
    "update_ignore_empty_partial",
    "update_only_partial",
    "update_dotted_refuted",
    "update_array_refuted",
    "update_only_not_atomic_refuted"
   ],
   "note": "Proved for every source tree whose sibling keys are distinct, non-empty and free of dots and slashes. False in general: keys with a dot are split and JSON arrays overwrite the array node (refuted theorems); updateOnly leaves earlier keys changed when it throws."
  },
  {
   "property": "C49",
   "status": "partial",
   "theorems": [
    "loadString_parses_partial",
    "loadString_rejects",
    "loadString_keys_partial",
    "loadString_shared_prefix_refuted",
    "loadString_value_refuted",
    "loadStrings_joins",
    "loadString_is_loadInfo"
   ],
   "note": "Exact tree for every item list over words without special characters; all written keys readable if siblings have distinct names. False in general: two items sharing a first component (second one unreadable), values with blanks or slashes. Rejection of quotes and unbalanced braces holds for all strings."
  },
  {
   "property": "C50",
   "status": "partial",
   "theorems": [
    "load_terminates",
    "load_order_once_partial",
    "load_last_wins_partial",
    "load_parents_first_partial",
    "load_files_in_order",
    "load_same_file_twice_refuted",
    "load_relative_parent_skipped_refuted"
   ],
   "note": "Termination for all parent relations; once and order hold for names as written. As a claim about files it is false: one file under two spellings is merged twice, and two files with the same relative spelling are taken for one."
  },
  {
   "property": "C51",
   "status": "proved",
   "theorems": [
    "resolve_path",
    "search_first_existing"
   ],
   "note": ""
  },
  {
   "property": "C93",
   "status": "partial",
   "theorems": [
    "getChildren_lists_partial",
    "getChildren_root_refuted",
    "getChildren_dot_refuted"
   ],
   "note": "Proved for non-root namespaces without dots. At the root the code calls back() on an empty string (undefined behaviour); a namespace containing a dot names another node."
  },
  {
   "property": "C94",
   "status": "proved",
   "theorems": [
    "findFile_spec"
   ],
   "note": ""
  },
  {
   "property": "C52",
   "status": "partial",
   "theorems": [
    "layered_get_partial",
    "layered_default_partial",
    "layered_hasKey",
    "layered_empty_refuted",
    "layered_default_refuted",
    "layered_unreadable_refuted",
    "reading_changes_nothing"
   ],
   "note": "Proved for every stack and key that are regular (at least one layer, adding prefixes whose uninitialised flag is true, removing prefixes not asked for exactly their prefix) and defaults whose last layer can take them. Refuted otherwise: an empty stack returns V(), a removing prefix as last layer throws in spite of the default, an unreadable text in the last layer is hidden by the default. Reading never changes a tree."
  },
  {
   "property": "C53",
   "status": "partial",
   "theorems": [
    "prefix_add_partial",
    "prefix_remove_partial",
    "prefix_add_hasKey_refuted",
    "prefix_remove_hasKey_refuted",
    "prefix_remove_default_refuted"
   ],
   "note": "get is as claimed for all prefixes, stores and keys. Refuted: hasKey in ADD mode returns an uninitialised variable; hasKey(prefix) in REMOVE mode disagrees with get; absent keys in REMOVE mode throw in spite of a default."
  },
  {
   "property": "C54",
   "status": "partial",
   "theorems": [
    "verbose_transparent_partial",
    "verbose_add",
    "verbose_isEmpty_refuted",
    "verbose_getChildren_refuted"
   ],
   "note": "get, hasKey, isChildSupported, getChild, add for all stores. Refuted: isEmpty is not forwarded; getChildren with equal names returns the first child twice."
  },
  {
   "property": "C55",
   "status": "partial",
   "theorems": [
    "alternatives_first_partial",
    "alternatives_none_partial",
    "alternatives_last_partial",
    "alternatives_message_refuted",
    "alternatives_front_refuted",
    "alternatives_empty_refuted"
   ],
   "note": "Proved when no message is itself an existing key. Refuted: the message of a missing deprecated name is tried as a name; with nothing existing the result can be !name; an empty list is undefined behaviour."
  },
  {
   "property": "C56",
   "status": "partial",
   "theorems": [
    "child_reads_partial",
    "child_child_partial",
    "child_remove_refuted",
    "child_remove_part_refuted"
   ],
   "note": "All stores built from trees, flat stores, layers, adding prefixes and verbose wrappers. Refuted for removing prefixes."
  },
  {
   "property": "C57",
   "status": "proved",
   "theorems": [
    "update_writes_through",
    "constant_refuses"
   ],
   "note": "For every type whose text form reads back."
  },
  {
   "property": "C95",
   "status": "proved",
   "theorems": [
    "asPropertyTree_reads"
   ],
   "note": "The view's keys as named by namespace and key."
  },
  {
   "property": "C96",
   "status": "proved",
   "theorems": [
    "getInt_exact",
    "getBool_accepts"
   ],
   "note": "Boost's stream translators are modelled from their documentation (num_get of the classic locale)."
  },
  {
   "property": "C58",
   "status": "proved",
   "theorems": [
    "log_filter_up_to_date",
    "log_filter_concurrent",
    "log_filter_dynamic_name_refuted"
   ],
   "note": "Sequential histories against an independent specification (last setLevel, last enable/disable); concurrent version in every reachable quiescent state of an interleaving semantics. log_filter_dynamic_name_refuted records that a statement whose stream name changes keeps the first name (hence the fixed-name hypothesis)."
  },
  {
   "property": "C59",
   "status": "partial",
   "theorems": [
    "print_exactly_once",
    "print_current_logger",
    "print_exclusive",
    "print_nested_dropped",
    "print_progress",
    "print_after_shutdown",
    "print_exactly_once_refuted"
   ],
   "note": "All schedules, any number of threads, loggers exchanged and shutdown at any time; proved for loggers that return or throw std::exception. A logger throwing anything else silences its thread for good (print_exactly_once_refuted)."
  },
  {
   "property": "C60",
   "status": "partial",
   "theorems": [
    "logging_deadlock_refuted",
    "logging_deadlock_partial",
    "logging_no_stream_changes_partial",
    "logging_only_stream_changes_partial"
   ],
   "note": "False: lock order inversion between _named_stream_mutex and _locations_mutex; the deadlock is exhibited, shown to be the only kind, and excluded when streams are not changed concurrently (or nothing else happens)."
  },
  {
   "property": "C61",
   "status": "partial",
   "theorems": [
    "once_first",
    "once_at_most_once",
    "throttle_emits",
    "throttle_spacing_partial",
    "throttle_spacing_refuted"
   ],
   "note": "IEEE doubles. Spacing holds up to one rounding of last + period; exactly one period apart is false."
  },
  {
   "property": "C62",
   "status": "proved",
   "theorems": [
    "prefix_spec",
    "prefix_qualified",
    "prefix_idempotent",
    "prefix_identifies"
   ],
   "note": ""
  },
  {
   "property": "C63",
   "status": "proved",
   "theorems": [
    "fromString_names",
    "fromString_unknown"
   ],
   "note": ""
  },
  {
   "property": "C64",
   "status": "proved",
   "theorems": [
    "format_exists",
    "formatter_correct",
    "formatter_total"
   ],
   "note": "NUL-free formats and fields; the format is characterised by a decomposition into token-free literals and tokens, which always exists."
  },
  {
   "property": "C65",
   "status": "proved",
   "theorems": [
    "qplus_assoc",
    "qplus_identity",
    "qplus_norm",
    "qoplus_flip",
    "quatPlus_qplus",
    "quatInv_inverse",
    "quatS_inverse",
    "quatInvS_inverse",
    "quatInvS_tangent"
   ],
   "note": "Exact real arithmetic."
  },
  {
   "property": "C66",
   "status": "proved",
   "theorems": [
    "quat2r_rotation",
    "quat2r_qplus",
    "quat2r_inv",
    "quat2r_identity",
    "quat2r_opp",
    "quatRotate_matrix",
    "quatRotate_conjugation"
   ],
   "note": "Exact real arithmetic."
  },
  {
   "property": "C67",
   "status": "proved",
   "theorems": [
    "r2quat_inverts_quat2r",
    "r2quat_unit",
    "r2quat_quat2r",
    "quat2r_injective"
   ],
   "note": "Exact real arithmetic."
  },
  {
   "property": "C68",
   "status": "partial",
   "theorems": [
    "axisAngle2quat_exact",
    "axisAngle2quat_unit",
    "rotation_quaternion_unit",
    "axisAngle2quat_small_partial",
    "axisAngle2quat_precision_refuted"
   ],
   "note": "Exact and of unit norm for |a| >= 2^-13 and a = 0. In the small-angle branch the second order coefficient has the wrong sign: the error is bounded by |a|^3/24 but exceeds 16 units of the last place, so agreement to working precision is refuted."
  },
  {
   "property": "C69",
   "status": "partial",
   "theorems": [
    "quat_log_exp_partial",
    "quat_log_exp_small_partial",
    "quat_log_exp_between_partial",
    "quat_log_exp_refuted",
    "quat_exp_log_partial",
    "quat_exp_log_small_partial",
    "quat_log_cut_locus",
    "quat_exp_log_refuted"
   ],
   "note": "Exact where no small-angle branch is taken; the small-angle branch of arcSinXOverX drops the x^2/6 term (integer division 1/6), so the round trip is refuted near zero and characterised there by exact formulas and bounds."
  },
  {
   "property": "C70",
   "status": "proved",
   "theorems": [
    "Rx_turns",
    "Ry_turns",
    "Rz_turns",
    "principal_rotations",
    "rph2R_product",
    "rph2R_rotation",
    "C_transposes",
    "rph2C_product",
    "rph2C_rotation",
    "zyx_product",
    "ypr_product",
    "zxy_product"
   ],
   "note": "Exact real arithmetic."
  },
  {
   "property": "C72",
   "status": "partial",
   "theorems": [
    "axisAngle2R4_turns",
    "axisAngle2R4_negative_refuted",
    "axisAngle2R_turns",
    "axisAngle2R_rotation",
    "axisAngle2R_quaternion",
    "axisAngle2R_quaternion_small_refuted",
    "rotationVector_matrix",
    "rotationVector_rotation"
   ],
   "note": "Proved where no small-angle branch differs; refuted: the four-argument form ignores negative angles, and the quaternion path differs for tiny vectors."
  },
  {
   "property": "C81",
   "status": "partial",
   "theorems": [
    "er_quaternion",
    "er_rotation",
    "er_recovered_partial",
    "er_recovered_refuted"
   ],
   "note": "Rotation for every parameter; recovery proved on the range where the inverse formula is defined, refuted beyond."
  },
  {
   "property": "C82",
   "status": "partial",
   "theorems": [
    "rv_recovered_partial",
    "rv_recovered_tiny",
    "rv_recovered_refuted"
   ],
   "note": "Recovered for 0<|p|<pi away from the small-angle cut-off; refuted for tiny vectors and at |p| = pi."
  },
  {
   "property": "C83",
   "status": "partial",
   "theorems": [
    "zyx_angular_velocity",
    "ypr_angular_velocity",
    "zxy_angular_velocity",
    "er_angular_velocity",
    "zyx_jacobian",
    "ypr_jacobian",
    "zxy_jacobian",
    "er_jacobian",
    "er_S_consistent",
    "rv_angular_velocity",
    "rv_jacobian",
    "rv_jacobian_zero_refuted",
    "rv_angular_velocity_tiny_refuted",
    "rv_invS_inverse",
    "rv_invS_zero"
   ],
   "note": "All parametrisations for every smooth curve, except RotationVector below its small-angle cut-off, where the code's values are refuted."
  },
  {
   "property": "C84",
   "status": "proved",
   "theorems": [
    "angleMod_spec",
    "angleMod_id"
   ],
   "note": "Exact real arithmetic."
  },
  {
   "property": "C71",
   "status": "proved",
   "theorems": [
    "R2rph_rph2R",
    "C2rph_rph2C",
    "zyx_recovered",
    "ypr_recovered",
    "zxy_recovered",
    "rph2R_R2rph",
    "fromTEuler_toTEuler",
    "toTEuler_arguments",
    "toTEuler_rigid",
    "toTEuler_fromTEuler"
   ],
   "note": "Exact real arithmetic; angles strictly inside the stated ranges, and the converse for every rotation away from gimbal lock."
  },
  {
   "property": "C73",
   "status": "proved",
   "theorems": [
    "inverseTransform_rigid",
    "inverseTransform_only_orthonormal",
    "inverseTransform_reflection",
    "rt2Transform_parts"
   ],
   "note": "Exact real arithmetic."
  },
  {
   "property": "C74",
   "status": "partial",
   "theorems": [
    "tf_make_valid",
    "tf_valid",
    "tf_T_rigid",
    "tf_of_matrix_T",
    "tf_T_of_matrix",
    "tf_T3x4_top",
    "tf_identity_T",
    "tf_mul_T",
    "tf_inverse_T",
    "tf_act_T",
    "tf_group",
    "tf_action",
    "updateQuat_product",
    "tf_oplus_valid_partial",
    "tf_oplus_norm",
    "tf_oplus_valid_refuted"
   ],
   "note": "Everything in exact real arithmetic except that oplus with an update below the small-angle threshold leaves the unit sphere (refuted); there the squared norm is bounded by 1 + 2^-54."
  },
  {
   "property": "C76",
   "status": "partial",
   "theorems": [
    "qslerp_defined",
    "qslerp_ends",
    "lerp_ends",
    "qslerp_turns",
    "qslerp_unit_partial",
    "qslerp_norm",
    "qslerp_unit_refuted",
    "qslerp_exchange",
    "lerp_exchange",
    "slerpTransformations_defined",
    "slerpTransformations_ends",
    "interpolate_ends_partial",
    "interpolate_ends_refuted",
    "interpolate_exchange_partial",
    "interpolate_exchange_refuted",
    "interpolate_between"
   ],
   "note": "End points proved when the times differ by at least 1e-14 (refuted below), exchange proved for different times (refuted for equal ones), unit norm proved away from the small-angle branch (refuted there, with the bound 1 + 2^-54)."
  },
  {
   "property": "C77",
   "status": "proved",
   "theorems": [
    "toEuclidean_finite",
    "toEuclidean_of_euclidean",
    "hp_add_euclidean",
    "hp_sub_euclidean",
    "hp_scale_euclidean",
    "toHomogeneousPlus_adds",
    "toHomogeneousMinus_subtracts",
    "tf_actH_euclidean",
    "tf_actH_infinite",
    "hp_scaling_invisible",
    "hp_normalize_spec",
    "hp_vector_point"
   ],
   "note": "Exact real arithmetic; a point with zero homogeneous coordinate has no Euclidean counterpart (None)."
  },
  {
   "property": "C78",
   "status": "proved",
   "theorems": [
    "fromHomogeneous_toHomogeneous",
    "fromHomogeneous_scale",
    "fromHomogeneous_toEuclidean",
    "fromHomogeneous_inverse",
    "fromHomogeneousColumns_toHomogeneousColumns",
    "fromHomogeneousColumns_elements",
    "fromHomogeneous_jacobian",
    "toHomogeneous_jacobian"
   ],
   "note": "Exact real arithmetic; columns for matrices of every size; Jacobians along every differentiable curve."
  },
  {
   "property": "C85",
   "status": "proved",
   "theorems": [
    "boxMinus_boxPlus",
    "boxTimes_adjoint",
    "boxTimes_product",
    "boxTimes_inverse"
   ],
   "note": "Exact real arithmetic, rigid transformations."
  },
  {
   "property": "C97",
   "status": "proved",
   "theorems": [
    "axisAngle2quat_derivative",
    "updateQuat_derivative",
    "hp_toHomogeneous_jacobian",
    "hp_toEuclidean_jacobian",
    "normalizeAndJacobian4_jacobian",
    "normalizeAndJacobian3_jacobian",
    "transformation_jacobian",
    "inverseTransformation_jacobian"
   ],
   "note": "Exact real arithmetic, along every differentiable curve of updates."
  },
  {
   "property": "C79",
   "status": "proved",
   "theorems": [
    "uh_constructors_cov",
    "uh_ops_cov",
    "uh_U3_cov",
    "uh_U_av_form_cov",
    "uh_setUOplus_cov",
    "uh_normalize_cov",
    "ut_ops_cov",
    "ut_setUOplus_cov",
    "tf_rotate_uv_cov",
    "tf_rotate_uv_propagates",
    "uh_of_euclideanU_reads",
    "certain_operands",
    "ut_group",
    "ut_action",
    "ut_UOplus_roundtrip",
    "uh_UOplus_roundtrip",
    "uh_setUOplus_throws",
    "uh_UOplus_restores_tangential",
    "uv_ops_cov",
    "uv_normalized_cov",
    "uv_normalized_defined",
    "us_ops_cov",
    "uv_certain_operands"
   ],
   "note": "Exact real arithmetic; vectors of every dimension."
  },
  {
   "property": "C80",
   "status": "partial",
   "theorems": [
    "hp_uncertain_mean",
    "certain_point_covariance",
    "certain_point_covariance_other",
    "uh_add_euclidean",
    "uh_add_certain_euclidean",
    "uh_sub_euclidean_partial",
    "uh_sub_euclidean_refuted",
    "certain_point_refuted",
    "certain_point_euclidean_partial",
    "ut_diag_values"
   ],
   "note": "u + p agrees with u + Uncertain(p) exactly when the stated equation on the homogeneous scale holds (proved as an iff) and otherwise differs (refuted); the subtraction drops a sign/scale and is refuted, with the part that holds proved."
  },
  {
   "property": "C98",
   "status": "partial",
   "theorems": [
    "compose_moves",
    "inverse_moves",
    "ut_mul_first_order",
    "ut_inverse_first_order",
    "ut_act_first_order",
    "ut_setUOplus_first_order",
    "uh_add_first_order",
    "uh_sub_first_order_partial",
    "uh_sub_first_order_refuted",
    "uh_normalize_first_order",
    "uh_U3_first_order",
    "uh_setUOplus_first_order",
    "uv_linear_first_order",
    "uv_add_first_order",
    "uv_sub_first_order",
    "uv_mul_first_order",
    "uv_scale_first_order",
    "uv_dot_first_order",
    "uv_normalized_first_order",
    "us_ops_first_order",
    "us_div_first_order",
    "us_divv_first_order",
    "uncertain_values"
   ],
   "note": "Exact real arithmetic. Every operation except subtraction of uncertain points, whose covariance is refuted in general and proved where it holds."
  },
  {
   "property": "C86",
   "status": "partial",
   "theorems": [
    "serialization_roundtrip_partial",
    "serialization_empty_exact",
    "serialization_roundtrip_refuted",
    "serialization_wrong_size",
    "serialization_keeps_type",
    "serialization_truncated",
    "serialization_other_type_partial",
    "serialization_other_type_refuted",
    "elem_defined",
    "serialization_sequence"
   ],
   "note": "The round trip holds for every matrix type and size except where serialization_roundtrip_refuted gives the counterexample; wrong sizes, truncated archives and other types covered."
  },
  {
   "property": "C87",
   "status": "partial",
   "theorems": [
    "randLU_closed_partial",
    "randLU_half_open_refuted",
    "randLU_overflow_refuted",
    "randLU_from_zero_partial",
    "randLU_exact",
    "randLU_monotone",
    "randLU_accuracy",
    "randLUi_range_partial",
    "randLUi_overflow",
    "randLUi_range_refuted",
    "randLUi_ends",
    "randLUi_monotone"
   ],
   "note": "IEEE binary64. The half-open interval is refuted (rounding reaches the upper bound); the closed interval is proved when u-l does not overflow."
  },
  {
   "property": "C88",
   "status": "proved",
   "theorems": [
    "matrix_sqrt_squares",
    "matrix_sqrt_defined",
    "matrix_sqrt_spec",
    "factorization_exists"
   ],
   "note": "Eigen's LDLT enters by its contract (factorizes); exact real arithmetic, all sizes."
  },
  {
   "property": "C89",
   "status": "proved",
   "theorems": [
    "estimateJacobian_quotients",
    "estimateJacobian_calls",
    "estimateJacobian_quadratic",
    "estimateJacobian_converges",
    "estimateJacobian_error"
   ],
   "note": "Exact real arithmetic, all dimensions."
  },
  {
   "property": "C99",
   "status": "proved",
   "theorems": [
    "seed_determines",
    "run_app",
    "aliases"
   ],
   "note": "The generator is an arbitrary state machine parameter; the boost wiring (seeding, resetting distributions) is modelled."
  },
  {
   "property": "C90",
   "status": "proved",
   "theorems": [
    "threePointSvd_rigid",
    "threePointSvd_defined",
    "threePointSvd_optimal",
    "threePointSvd_exact",
    "threePointSvd_recovers",
    "qMethod_rotation",
    "qMethod_optimal",
    "qMethod_exact",
    "qMethod_unweighted",
    "qMethod_errors"
   ],
   "note": "Exact real arithmetic; Eigen's SVD and symmetric eigensolver enter by their contracts (is_svd, is_eigen) on the one matrix they are applied to."
  },
  {
   "property": "C100",
   "status": "partial",
   "theorems": [
    "quatExpJacobian_derivative",
    "quatExpJacobian_derivative_zero",
    "logDiffMat_expDiffMat",
    "logDiffMat_undefined",
    "quatLogJacobian2_derivative",
    "quatLogJacobian2_quatExpJacobian",
    "expDiffMat_exact",
    "logDiffMat_exact",
    "expDiffMat_small",
    "logDiffMat_small",
    "quatLogJacobian_identity_refuted"
   ],
   "note": "Proved for |v| >= 2^-13 and v = 0 (exact real arithmetic); for 0 < |v| < 2^-13 the series used by the code is within |v|^5/700 (|v|^6/20000) of the differential. quatLogJacobian divides by zero at the identity (refuted there); quatLogJacobian2 does not."
  },
  {
   "property": "C101",
   "status": "partial",
   "theorems": [
    "mat_roundtrip_partial",
    "mat_row_region",
    "mat_load_into_region",
    "mat_load_any_archive",
    "mat_roundtrip_refuted",
    "create_valid",
    "region_valid",
    "empty_valid",
    "keypoint_roundtrip",
    "keypoints_roundtrip",
    "element_sizes",
    "empty_is_empty"
   ],
   "note": "False for one-row regions narrower than their parent (isContinuous is true but step is the parent's: save reads past the row, possibly past the buffer, and load leaves bytes behind) and when loading into a region of the same shape (asks for step*rows bytes). Proved, with frame conditions, for every other source and target; exact behaviour proved for the exceptions."
  },
  {
   "property": "C102",
   "status": "partial",
   "theorems": [
    "kinematics_roundtrip",
    "kinematics_sequence",
    "kinematics_truncated",
    "kinematics_keeps_size",
    "kinematics_newer_version",
    "transformation_kinds",
    "load_matrix_is_eigen_load",
    "kinematics_classes",
    "kinematics_failed_load_refuted"
   ],
   "note": "Everything except that a failed load leaves the object unchanged: it then holds the beginning of the new scalars and the rest of the old ones (proved), e.g. a zero quaternion (refuted)."
  },
  {
   "property": "C103",
   "status": "partial",
   "theorems": [
    "file_roundtrip_exact",
    "file_save_returns",
    "file_save_frame",
    "file_unopenable",
    "file_other_format",
    "file_default_tag",
    "file_roundtrip_refuted"
   ],
   "note": "False when the device fills up while the stream buffer is flushed by the destructor: save returns and load fails; and a save that raises has already truncated the previous file. Proved: load restores the object exactly if the device took everything, and all the rest."
  },
  {
   "property": "C104",
   "status": "partial",
   "theorems": [
    "transformation_from_tree_partial",
    "transformation_from_tree_returns",
    "transformation_from_tree_refuted"
   ],
   "note": "Exact reals over the property tree model of C44-C49. False for the zero quaternion, which is accepted and gives NaNs."
  },
  {
   "property": "C105",
   "status": "partial",
   "theorems": [
    "questions_answered",
    "questions_missing",
    "put_get_last",
    "put_int_get",
    "get_reads",
    "put_int_refuted",
    "getEigen_int64_refuted",
    "empty_refuted"
   ],
   "note": "Proved for all histories of doubles, booleans, nonempty NUL-free strings and nonempty matrices, and integers up to 2^53. False for larger integers (rounded), for int64 matrices (getEigen reinterprets their bits as doubles), for empty strings and matrices and strings with NUL. That getEigen resizes its argument before it throws is not modelled."
  },
  {
   "property": "C106",
   "status": "partial",
   "theorems": [
    "handle_defined",
    "no_undef_partial",
    "uninitialised_throws_partial",
    "uninitialised_exists_refuted",
    "engine_false_refuted",
    "initialize_stop",
    "initialize_fails",
    "initialize_fails_clean",
    "good_answers",
    "illegal_names_rejected",
    "legal_names_accepted",
    "names_refuted",
    "destroy_closes"
   ],
   "note": "False for exists (calls Matlab with a null engine), for Engine(false) (handle left indeterminate, read by the destructor) and for the names the check lets through although Matlab refuses them (empty, leading underscore: EnginePutException). Proved for everything else."
  },
  {
   "property": "C107",
   "status": "partial",
   "theorems": [
    "no_leak_partial",
    "leaks_refuted",
    "execute_output_partial",
    "execute_output_refuted",
    "good_answer",
    "good_dead"
   ],
   "note": "Successful puts and gets of numbers, booleans and matrices free everything; the testers, string gets and failing gets leak one block each time (proved for any number of calls). Output is exact up to 256 characters ending in a line break; longer output is cut to 255 characters."
  },
  {
   "property": "C108",
   "status": "partial",
   "theorems": [
    "overload_used_iff",
    "points_python_is_cpp",
    "products_python_is_cpp_partial",
    "products_python_mean",
    "inverse_python_mean",
    "products_python_drop",
    "products_python_refuted",
    "uncertain_products_python_iff",
    "products_python_missing_refuted",
    "construct_python",
    "construct_copy_refuted",
    "pickle_python",
    "pickle_refuted"
   ],
   "note": "True for sums and differences of points and for products with certain right operands. False otherwise: the overloads of * are registered most derived first, so Boost.Python takes the base class one and the covariance of the right operand is dropped; UncertainTransformation.inverse() returns a Transformation; copies lose the covariance."
  },
  {
   "property": "C109",
   "status": "proved",
   "theorems": [
    "getDouble_reads_nearest"
   ],
   "note": "operator>> and the stream translator are modelled from their documentation (libstdc++ num_get, classic locale, correctly rounding strtod)."
  },
  {
   "property": "C110",
   "status": "partial",
   "theorems": [
    "double_text_roundtrip",
    "setDouble_then_getDouble",
    "getDouble_default_stored",
    "setDouble_text_close",
    "print_double_injective",
    "nonfinite_double_refuted",
    "nonfinite_set_get_refuted",
    "sixteen_digits_refuted",
    "six_digits_refuted"
   ],
   "note": "Proved for every finite double and at least 17 printed digits (Boost since 1.50). False for the infinities and NaN (getDouble throws InvalidPropertyValue, the const default is returned instead) and with the 16 digits of older Boost releases."
  },
  {
   "property": "C111",
   "status": "partial",
   "theorems": [
    "compareRelative_symmetric",
    "compareRelative_finite_partial",
    "compareRelative_nonfinite_refuted"
   ],
   "note": "IEEE binary64. False for NaN and infinities: they compare equal to everything at every tolerance. For finite numbers (up to 2^1022, tolerance 0 or in [2^-1000, 2^1000]) proved up to a relative 2^-50 of the tolerance."
  },
  {
   "property": "C112",
   "status": "partial",
   "theorems": [
    "assertEqual_exact",
    "assertNear_exact",
    "assertFinite_exact",
    "expectNear_partial",
    "expectNear_refuted",
    "mx_eq_exact",
    "mx_eq_nan_refuted"
   ],
   "note": "False for expectNear on matrices of different sizes (reads outside of B after the non-fatal size check) and for ASSERT_DOUBLE_MX_EQ with NaN (C111). The rest is exact; googletest's ASSERT_EQ/ASSERT_NEAR are modelled from their documentation."
  },
  {
   "property": "C113",
   "status": "proved",
   "theorems": [
    "randomCovariance_symmetric",
    "randomCovariance_definite",
    "randomCovariance_is_covariance",
    "randomCovariance_rounding",
    "randomCovariance_definite_rounding"
   ],
   "note": "One function over both arithmetics. Symmetry bit for bit in IEEE arithmetic (sums in index order); eigenvalues at least 5 in exact arithmetic, and at least 5 - n (n+3)^2 2^-53 (above 3.8) in IEEE arithmetic for entries in [-1,1] and up to 100000 rows."
  },
  {
   "property": "C114",
   "status": "partial",
   "theorems": [
    "py_set_exact",
    "py_set_then_get",
    "py_sets_dictionary",
    "py_set_type_refuted",
    "py_set_above_refuted",
    "py_set_nonfinite_refuted",
    "getter_default_exact"
   ],
   "note": "Proved for histories with one type per key and values other than strings only at keys that are not above other keys, finite floats printed with 17 digits and 32-bit ints (py_sets_dictionary); py_set_exact says exactly when set raises. Refuted: a key cannot change its type (0.5 then 3 raises), a key that exists only as ancestor takes strings only, infinities and NaN are stored but cannot be read."
  },
  {
   "property": "C115",
   "status": "partial",
   "theorems": [
    "py_log_filter",
    "py_logNamed_filter",
    "convenience_partial",
    "convenience_named",
    "python_agrees_with_cpp",
    "logVerbose_refuted",
    "py_log_int_refuted",
    "py_log_nul_refuted"
   ],
   "note": "Proved after every history of level and stream changes, for every stream, message without NUL and stack. Refuted: logVerbose uses the missing attribute LoggingLevel.FineVerbose and always raises; a level given as int raises only when the message would be logged; messages are cut at a NUL."
  },
  {
   "property": "C116",
   "status": "partial",
   "theorems": [
    "id_python_roundtrip",
    "id_python_injective",
    "id_python_value_partial",
    "id_python_unset",
    "python_id_roundtrip",
    "id_python_order_refuted",
    "python_id_range_refuted"
   ],
   "note": "Proved for all ids. Refuted: ids from 2^63 on are seen as negative ints, so the order differs; a long outside the 64-bit range becomes the unset id with an exception left pending."
  },
  {
   "property": "C117",
   "status": "partial",
   "theorems": [
    "remaining_text_exact",
    "progress_reports",
    "progress_last_refuted",
    "progress_remaining_partial",
    "progress_overtime_refuted",
    "progress_zero_refuted",
    "progress_reset_exact",
    "progress_line"
   ],
   "note": "Proved for all histories with positive steps. Refuted: with one sample per iteration the last call reports n-1 of n (the first only starts the clock); beyond numIterations the remaining time is negative and printed as minutes of the hour before; a sample of 0 steps divides by zero."
  },
  {
   "property": "C118",
   "status": "partial",
   "theorems": [
    "showProgress_exact",
    "showProgress_monotone",
    "showProgress_total",
    "showProgress_range",
    "showProgress_early_refuted",
    "showProgress_big_refuted"
   ],
   "note": "Proved for totals up to 2^53, in IEEE doubles with correctly rounded decimal output. Refuted beyond: 99999 of 100000 is shown as 100.00% before the work is complete, and 2^53 of 2^53 + 1 is Complete."
  },
  {
   "property": "C119",
   "status": "partial",
   "theorems": [
    "py_names_valid",
    "py_save_load",
    "py_dicts",
    "py_getters",
    "py_names_refuted",
    "py_rebuild_partial",
    "py_rebuild_refuted",
    "lsma_lists",
    "lsma_usage",
    "lsma_stops"
   ],
   "note": "getNameList omits strings (refuted); rebuilding proved when each name has one kind, refuted otherwise."
  },
  {
   "property": "C120",
   "status": "partial",
   "theorems": [
    "info_roundtrip_partial",
    "info_fails",
    "info_root_data_refuted",
    "info_hash_refuted",
    "info_include_refuted",
    "info_clash_refuted",
    "info_readers_agree",
    "escapes_read",
    "info_continuation",
    "info_no_continuation"
   ],
   "note": "Boost's INFO reader and writer are modelled from their source as known, since Boost is not in the sandbox. The full claim is refuted in three ways; the round trip is proved for all trees outside them."
  },
  {
   "property": "C121",
   "status": "partial",
   "theorems": [
    "ini_roundtrip",
    "ini_saves",
    "ini_blank_refuted",
    "ini_comment_refuted",
    "ini_newline_refuted",
    "ini_mixed_refuted"
   ],
   "note": "Boost's INI reader and writer modelled as above. Round trip proved for strings the format can hold, refuted otherwise."
  },
  {
   "property": "C122",
   "status": "partial",
   "theorems": [
    "json_saves",
    "json_roundtrip",
    "json_encoding_refuted",
    "json_mixed_refuted"
   ],
   "note": "Boost's JSON reader and writer (1.59 and later) modelled as above."
  },
  {
   "property": "C123",
   "status": "partial",
   "theorems": [
    "format_by_ending",
    "unknown_format",
    "failed_load_keeps_tree",
    "load_exact",
    "missing_file_throws",
    "save_exact",
    "save_load",
    "failed_save_keeps_file_refuted"
   ],
   "note": "All four formats. A failing save has already truncated the file (refuted); the rest of the property is proved in full."
  },
  {
   "property": "C124",
   "status": "proved",
   "theorems": [
    "corrector_double_exact",
    "corrector_int64_exact"
   ],
   "note": "Standard model of Flocq binary64; hypotheses met by corrector_int64_uses and corrector_double_uses."
  },
  {
   "property": "C125",
   "status": "partial",
   "theorems": [
    "xml_roundtrip",
    "xml_reload",
    "xml_fails",
    "xml_key_refuted",
    "xml_blanks_refuted",
    "xml_root_refuted",
    "xml_mode_refuted",
    "xml_comments_refuted"
   ],
   "note": "Round trip proved for every tree of the stated class and for everything loadXml can produce; the unconditional claim is false of the code (refuted: keys with blanks, root value, repeated blanks, mode change, comments). Boost XML reader and writer modelled from their documented behaviour."
  },
  {
   "property": "C126",
   "status": "proved",
   "theorems": [
    "json_reads_exactly",
    "json_rejects",
    "json_one_meaning",
    "json_writes_json"
   ],
   "note": "The grammar in JsonFile_Exact is inductive and independent of the parser. Boost's JSON reader is modelled from its source as known (>= 1.59)."
  },
  {
   "property": "C127",
   "status": "partial",
   "theorems": [
    "store_file_roundtrip",
    "canSave_exact",
    "store_save_exact",
    "store_from_file_exact",
    "canSave_wrapped_refuted",
    "save_child_refuted",
    "isEmpty_children",
    "isEmpty_child_refuted"
   ],
   "note": "Proved for stores directly on a tree; false of wrapped stores and of child stores (refuted with witnesses)."
  },
  {
   "property": "C128",
   "status": "partial",
   "theorems": [
    "xml_reads",
    "xml_declared",
    "xml_malformed_refuted"
   ],
   "note": "Proved for the whole grammar; the converse (malformed XML is rejected) is false of rapidxml as Boost configures it."
  },
  {
   "property": "C129",
   "status": "partial",
   "theorems": [
    "log_time_exact",
    "log_time_sorted",
    "log_seconds_error",
    "log_time_late_refuted"
   ],
   "note": "Proved for every clock reading until 2242; refuted afterwards, when a double no longer holds microseconds."
  },
  {
   "property": "C130",
   "status": "partial",
   "theorems": [
    "py_reads_change_nothing",
    "py_conversion",
    "py_refused_unchanged",
    "py_const_objects_safe",
    "py_set_then_get",
    "py_defaults",
    "py_child",
    "py_update",
    "py_update_forms",
    "py_history",
    "py_files",
    "py_const_getChild_refuted",
    "py_missing_refuted"
   ],
   "note": "Everything but the two false parts is proved: ConstPropertyTree.getChild always raises, and getOrCreateBool and the JSON functions are missing."
  },
  {
   "property": "C131",
   "status": "partial",
   "theorems": [
    "log_statement_partial",
    "log_compiled_out",
    "log_compile_time_filter",
    "log_own_names_refuted",
    "log_ternary_rate_refuted",
    "log_ternary_level_refuted",
    "log_ternary_level_partial",
    "log_ternary_level_kept"
   ],
   "note": "True for every history when the expressions avoid the macros' own variable names (loc, enabled, hit, last_hit, now, ss___), the rate is one operand and a _NAMED name is a literal. False otherwise: SM_INFO_COND(enabled, ..) reads an uninitialised variable, an argument called enabled or now prints the macro's variable, a rate c ? a : b is parsed as (last_hit + c) ? a : (b <= now) and does not throttle, a level c ? All : Info is not re-read."
  },
  {
   "property": "C132",
   "status": "partial",
   "theorems": [
    "assert_stops",
    "assert_explains_partial",
    "assert_explains_refuted",
    "assert_cmd_refuted",
    "assert_cmd_documented",
    "assert_cmd_partial",
    "assert_cmd_operators"
   ],
   "note": "SM_ASSERT_CMD(x > 0, ..) expands to if (!x > 0): the command runs exactly when x = 0; right for single operands and comparisons of truth values. The explanation is printed unless fatal is compiled out or the stream is disabled."
  },
  {
   "property": "C133",
   "status": "partial",
   "theorems": [
    "wf_types",
    "same_type",
    "strip_reference_partial",
    "strip_const_reference_partial",
    "strip_rvalue_refuted",
    "strip_const_ptr_partial",
    "const_pointer_refuted",
    "add_reference",
    "add_const_reference_partial",
    "add_const_reference_refuted",
    "add_ptr_partial",
    "add_ptr_reference_refuted",
    "is_reference_pointer_partial",
    "traits_defined"
   ],
   "note": "True except: rvalue references are not references for these traits, and AddConstReference<T&&> is T& without const; cv-qualified pointers are not pointers (StripConstPtr<T* const> = T*, AddPtr adds a level); AddPtr<T&> does not compile."
  },
  {
   "property": "C134",
   "status": "partial",
   "theorems": [
    "timing_table_partial",
    "timing_table_sorted_partial",
    "timing_table_refuted"
   ],
   "note": "Refuted as stated: for three samples of exactly 100 ms the computed variance (mean square minus squared mean, in double) is negative, the standard deviation is NaN and formatting it is undefined behaviour, in every table. Proved: the full content of every line (with explicit error bounds) and the order of the sorted tables whenever each timer has one sample or a variance above the rounding error (7n+34)*2^-53*mean square, durations non-negative, together at most 146 years, at most 2^45 per timer."
  },
  {
   "property": "C135",
   "status": "proved",
   "theorems": [
    "float_constructor",
    "float_expression",
    "exact_matrices",
    "float_point",
    "float_agree",
    "float_associative",
    "float_round_trip",
    "float_chain",
    "float_matrix"
   ],
   "note": ""
  },
  {
   "property": "C136",
   "status": "proved",
   "theorems": [
    "float_matrix_to_quaternion",
    "float_matrix_round_trip",
    "float_matrix_motion"
   ],
   "note": ""
  },
  {
   "property": "C137",
   "status": "partial",
   "theorems": [
    "angleMod_partial",
    "deg2rad_partial",
    "rad2deg_accurate",
    "angleMod_refuted",
    "deg2rad_refuted",
    "PI_decimal"
   ],
   "note": "the property is false of the code for large angles and for deg2rad (angleMod_refuted, deg2rad_refuted); the exact error bounds are proved"
  },
  {
   "property": "C138",
   "status": "partial",
   "theorems": [
    "float_exp_partial",
    "float_exp_refuted",
    "float_turned_partial",
    "float_oplus_partial",
    "rounded_lib_ok"
   ],
   "note": "accuracy to numerical precision is false for rotation vectors shorter than 2^-13 (float_exp_refuted, for every C library); the true error bounds are proved for one vector and for every sequence; rounded_lib_ok: a C library satisfying the assumption exists"
  },
  {
   "property": "C139",
   "status": "partial",
   "theorems": [
    "float_principal_matrices",
    "float_euler_matrices",
    "float_euler_quaternion",
    "float_rotation_vector_matrix",
    "float_rodrigues_matrix",
    "float_axis_angle_matrix_partial",
    "float_axis_angle_matrix_refuted"
   ],
   "note": "proved in full except for axisAngle2R, which returns the identity below 1e-12 (float_axis_angle_matrix_refuted; the exact bound is in float_axis_angle_matrix_partial)"
  },
  {
   "property": "C140",
   "status": "partial",
   "theorems": [
    "float_euler_round_trip",
    "float_euler_params_exact",
    "float_euler_params_refuted",
    "float_rotation_vector_read_partial",
    "float_rotation_vector_round_trip_partial",
    "float_rotation_vector_read_refuted",
    "float_rodrigues_read_refuted",
    "float_rodrigues_read_partial",
    "float_rodrigues_round_trip_partial"
   ],
   "note": "false of the code at right angles (NaN pitch), at half turns and for rotations below 1e-8 (refuted with witnesses); what holds of Euler angles and of rotation vectors up to 1e-3 short of a half turn is proved with explicit bounds; Euler-Rodriguez parameters likewise for rotations by 1e-3 up to 1e-3 short of a half turn"
  },
  {
   "property": "C141",
   "status": "partial",
   "theorems": [
    "assert_text_partial",
    "assert_truth",
    "assert_text_other",
    "debug_assertions_vanish",
    "exception_text_readable",
    "nonpositive_text_refuted",
    "effects_text_refuted",
    "digits_text_refuted"
   ],
   "note": "false of SM_ASSERT_NONPOSITIVE, of arguments with side effects and of doubles that agree in six digits (refuted with witnesses); the rest is proved for every macro, value and position"
  },
  {
   "property": "C142",
   "status": "partial",
   "theorems": [
    "windows_time_exact",
    "windows_time_outputs",
    "windows_time_refuted",
    "ptimeToTimeval_refuted"
   ],
   "note": "the exact range in which the Windows clock is right is proved (1970 to 2038); outside it, and for ptimeToTimeval, the claim is false of the code (refuted)"
  },
  {
   "property": "C143",
   "status": "partial",
   "theorems": [
    "frame_drawn",
    "plot_tabs",
    "stlToList_appends",
    "stlToDict_assigns",
    "frame2d_drawn_refuted",
    "frame2d_two_rows"
   ],
   "note": "all parts proved except for plot2DCoordinateFrame on 2d axes, of which it is false (refuted: what is drawn there is computed exactly)"
  },
  {
   "property": "C144",
   "status": "partial",
   "theorems": [
    "euclidean_points_exact",
    "homogeneous_sum_accurate_partial",
    "homogeneous_sum_refuted",
    "toEuclidean_accurate_partial",
    "toEuclidean_accurate_refuted",
    "homogeneous_normalize_partial",
    "homogeneous_normalize_refuted",
    "float_act_homogeneous_euclidean",
    "float_act_homogeneous",
    "homogeneous_infinity"
   ],
   "note": "Euclidean points: full, bit for bit, any depth. Other scales: refuted without range conditions (scales multiply up and overflow or underflow); proved with 8 roundings per node within the stated ranges. Jacobians and oplus of homogeneous points in doubles are not modelled."
  },
  {
   "property": "C145",
   "status": "partial",
   "theorems": [
    "header_macros",
    "severities_of_levels",
    "header_calls",
    "header_stream_commas",
    "regenerated_refuted",
    "regenerated_partial",
    "header_from_add_macro"
   ],
   "note": "The header: full. The script: refuted (it writes five of eleven severities; regenerated_partial is what still holds). Not modelled: expansion of the arguments and rescanning, line continuation, # and ## (the file has neither)."
  },
  {
   "property": "C146",
   "status": "partial",
   "theorems": [
    "float_blocks",
    "float_transform_point",
    "float_inverseTransform",
    "float_inverse_undoes",
    "float_inverse_undoes_stored",
    "float_inverse_twice",
    "float_inverse_twice_refuted",
    "float_TEuler",
    "float_TEuler_refuted",
    "float_transformationAndJacobian",
    "float_inverseTransformationAndJacobian"
   ],
   "note": "Full up to the two false sentences, which are refuted (for every order of summation, for every accurate libm). Bounds carry an absolute term of 2^-1000 for underflow."
  },
  {
   "property": "C147",
   "status": "partial",
   "theorems": [
    "float_log",
    "float_log_exp",
    "float_log_refuted",
    "float_log_pole_refuted",
    "logarithm_exists"
   ],
   "note": "Full up to the two false sentences, which are refuted for every accurate libm and every order of summation; float_log and float_log_exp give the bounds that hold."
  },
  {
   "property": "C148",
   "status": "partial",
   "theorems": [
    "float_qslerp_ends",
    "float_qslerp",
    "float_lerp_ends",
    "float_lerp",
    "float_slerpTransformations",
    "float_slerp_ends",
    "float_interpolate",
    "float_interpolate_ends",
    "float_interpolate_exchange",
    "float_interpolate_refuted"
   ],
   "note": "Full except the end points of the transformations, which are bit for bit only in position; refuted for the quaternion (renormalised), with the bound 15.5u."
  },
  {
   "property": "C149",
   "status": "proved",
   "theorems": [
    "float_jacobian_quotients",
    "float_jacobian_calls",
    "float_jacobian",
    "float_jacobian_smooth",
    "float_jacobian_refuted",
    "float_jacobian_small_step_refuted",
    "default_eps_val"
   ],
   "note": "The two refuted theorems are witnesses for the sentences the statement calls false."
  },
  {
   "property": "C150",
   "status": "proved",
   "theorems": [
    "float_sandwich",
    "float_linear",
    "float_sandwich_cov",
    "float_add",
    "float_scale",
    "float_dotv",
    "float_dot",
    "float_scalar",
    "float_scalar_div",
    "float_certain",
    "float_linear_refuted",
    "float_add_refuted",
    "float_scale_refuted",
    "float_dotv_refuted"
   ],
   "note": "The four refuted theorems are witnesses for the sentences the statement calls false. Values of dimension at most 2^20; the association of v v' s in operator*(UncertainVector<1>) is not modelled."
  },
  {
   "property": "C151",
   "status": "proved",
   "theorems": [
    "float_box_sandwich",
    "float_compose",
    "float_compose_cov",
    "float_compose_reference",
    "float_act",
    "float_compose_refuted"
   ],
   "note": "float_compose_refuted is the witness for the sentence the statement calls false. float_act assumes that the final sum of two finite covariances does not overflow."
  },
  {
   "property": "C152",
   "status": "proved",
   "theorems": [
    "float_rate_matrices",
    "float_rotation_vector_rates",
    "float_angular_velocity",
    "float_euler_jacobians",
    "float_er_jacobian",
    "float_rv_jacobian_refuted",
    "float_rv_jacobian_wrong",
    "float_inverse_S_refuted",
    "inverse_S_exact",
    "rounded_lib3_ok"
   ],
   "note": "The three theorems about tiny rotations are the witnesses for the sentences the statement calls false. RotationVector's derivative (124-176) is refuted for small rotations and not bounded for others."
  },
  {
   "property": "C153",
   "status": "partial",
   "theorems": [
    "python_matrix_sqrt_partial",
    "python_root_failure_refuted",
    "python_root_asymmetric_refuted",
    "eigen_ok_possible"
   ],
   "note": "The last sentence is false of the code: the result of computeMatrixSqrt is dropped. python_root_failure_refuted: for [[0,1],[1,0]] a zero matrix comes back without an exception; python_root_asymmetric_refuted: for [[1,5],[0,1]] the root of the identity. Proved instead: what is returned for such M, if free of NaN, is never a root of M."
  },
  {
   "property": "C154",
   "status": "proved",
   "theorems": [
    "random_transformation",
    "random_transformation_all",
    "random_centred_refuted",
    "random_transformation_max",
    "random_transformation_max_all",
    "random_seeded",
    "random_seed_refuted",
    "random_covariance6",
    "random_positive_definite_refuted",
    "random_point",
    "random_vector"
   ],
   "note": "The three _refuted theorems are the witnesses for the negative halves of the statement. Between 0 and 1/8192 the angle is met up to angle^3/24 (axisAngle2quat's series)."
  },
  {
   "property": "C155",
   "status": "partial",
   "theorems": [
    "homogeneous_jacobian_halves",
    "oplus_euclid_exact",
    "euclidean_jacobian_accurate_partial",
    "from_homogeneous_jacobian_partial",
    "from_homogeneous_jacobian_euclidean",
    "tiny_scale_jacobian_refuted",
    "tiny_point_jacobian_refuted"
   ],
   "note": "The _partial theorems hold between 2^-200 and 2^200; false for every scale, as the _refuted witnesses show. oplus_euclid_exact ties the closed form to the exact Jacobian, which hp_toEuclidean_jacobian (Kin_Jac_Props) proves to be the derivative."
  },
  {
   "property": "C156",
   "status": "partial",
   "theorems": [
    "normalize_jacobian_accurate_partial",
    "normalize_jacobian_long_refuted",
    "normalize_jacobian_short_refuted",
    "normalize_jacobian_zero_refuted"
   ],
   "note": "False for every length, as the three witnesses (any dimension, any order) show; proved between 2^-300 and 2^300."
  }
 ]
}