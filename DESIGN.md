# Formal model of schweizer_messer in Rocq (Coq 8.16.1)

The code is never run. Every definition of a `*_Model.v` file cites the file and lines of
`/repo` it models, and says where it simplifies. Undefined behaviour is a distinct outcome
(`UB`, `Undef`, `None`, an explicit constructor), never a normal looking value.

## Layout (rocq/theories)

For each component `X`:

* `X_Model.v`  - the code, function by function; no proofs.
* `X_Spec.v`   - (where useful) a small independent specification, written from the English property.
* `X_Proofs.v`, `X_*.v` - lemmas.
* `X_Props.v` (and the further files named in the table below) - the property theorems and, beside
  them, `Example`s of concrete cases that meet the hypotheses.

If the full property is false of the code, the witness is proved as `..._refuted` (traced to the
source in the comment) and what does hold as `..._partial` or as an exact characterisation; the
MANIFEST status is then `partial` and its note says what is false. `partial` therefore almost
always means "the English claim fails for the code, here is the counterexample and the true part",
not "not finished".

Shared: `Bytes.v` (byte strings as `list N`), `Float64.v` (IEEE binary64 from Flocq), `LinAlg.v`
(3- and 4-vectors and matrices over R), `DenseN.v` (n x n matrices over R as functions).

## Properties: what is modelled, how it is proved

### sm_common
* C01-C04 `HashId_*`: 16 bytes as `N` values < 256; `stoul` modelled on the byte level with its
  blank/sign/0x handling; u64 halves little endian; arithmetic `mod 2^64` written explicitly.
  Round trip by computation per byte lifted by lemmas; order laws; FNV collision freedom from the
  invertibility of the odd prime mod 2^64. C02 is false (malformed input accepted): refuted + partial.
* C05 `Id_*`: `N` mod 2^64.
* C06-C11 `Strings_*`: strings are byte lists; loops are fuelled with an explicit `Diverge` outcome;
  termination characterised exactly. C06/C07 have counterexamples (target = replacement; position
  wrap-around).
* C12 `NumCmp_*`: IEEE binary64 through Flocq, C13: the assert macros on doubles incl. NaN; C14
  `Round_*`: binary64; C15 `Round_*`, `Quadratic_Props`: solveQuadratic in exact arithmetic and its
  acceptance/backward error in IEEE.
* C16/C17/C75 `CheckSame_*`: the macro expansion as a token sequence and the C++ grammar of `&&` and
  `?:`; evaluation of the parsed expression.
* C118 `ShowProgress_*`: the printed line, doubles rounded to two decimals.

### sm_timing
* C18-C20 `Nsec_*`: int64 as Z with range, binary64 by Flocq.
* C21-C25, C91 `Corrector_*`: hull as a list over an abstract time type with explicit operations;
  theorems over Q. C26 `Corrector_I64`: int64 intermediate ranges over Z. C124 `Corrector_Double`: the
  `double` and `int64` instances equal the exact ones when no operation rounds or overflows.
* C27-C29 `Timer_*`: registry + timers as a state machine over operation lists. C134 `TimerTable_*`: the printed
  table (layout, columns, rounded accumulators in binary64).

### sm_boost
* C30-C35, C92 `JobQueue_*`: small-step interleaving semantics of any number of workers and callers with
  mutex and condition variable (including spurious wake-ups); invariants by induction over schedules;
  C33 and C34 are refuted by explicit schedules.
* C103 `SerFile_*`: save/load helpers over files, formats and failures.

### sm_matrix_archive
* C36-C43 `Archive_*`: byte-level writer and reader over `list N`, uninitialised reads = `UB`; also the
  MATLAB scripts. C119 `PyArchive_*`: the Python class and `lsma`.

### sm_property_tree / sm_value_store
* C44-C51, C93, C94, C96 `PTree_*`: boost ptree as a recursive ordered tree; path functions; loader with
  a file oracle. C109/C110 `DoubleText_*`: reading and printing binary64 as decimal text.
* C120-C123, C125, C126 `InfoFile_*`, `IniFile_*`, `JsonFile_*`, `XmlFile_*`, `PTreeFile_*`: writers and
  readers of the four formats on whole files; round trips by induction over trees; C126 gives the JSON
  grammar as an inductive relation and proves the reader accepts exactly it.
* C128 `XmlFile_Read`: what the XML reader makes of declarations, comments, CDATA and entities. C130 `PyTree_*`:
  the Python classes over property trees.
* C52-C57, C95 `ValueStore_*`: stores as an inductive of layers over trees in a heap. C127 `VsFile_*`:
  stores in files.

### sm_logging
* C58-C64 `Logging_*`: globals + location cache as state machine; lock graph as an interleaving
  semantics; formatter over byte strings. C129 `LogTime_*`: time stamps to calendar text; C131 `LogMacro_*`: the
  logging macros as programs (evaluation of arguments, once/throttle/conditional state, compile-time minimum);
  C132 `LogAssert_*`: the assert macros and the exceptions they build. C145 `MacroText_*`: the text of the severity
  header, read by a model of the preprocessor, and the script that is to write it.
* C133 `TypeTraits_*` (sm_common): type names and traits. C141 `AssertText_*`: the text every assertion macro builds,
  from the printed operands. C142 `WinTime_*`: the Windows clock and ptime conversions.

### sm_kinematics / sm_eigen / sm_random / sm_opencv
* C65-C85, C97, C98, C100 `Kin_*`: exact real arithmetic (`Reals`), vectors/matrices as records or
  functions. Trigonometry from the standard library, derivatives from Coquelicot.
* C135-C140 `Kin_Float_*` (quaternion products, inverses, rotations, transformations and expressions of any depth
  over them), `Kin_FloatR_*` (matrix -> quaternion), `Kin_Angle_*` (angle wrapping, degrees; `PiBound` encloses pi),
  `Kin_FloatExp_*` (rotation vectors, updateQuat, oplus), and C139 `Kin_FloatMat_*` (rotation matrices from angles and
  vectors), C140 `Kin_FloatParam_*` (angles and vectors read off a matrix), C144 `Kin_FloatHom_*` (homogeneous points), C146 `Kin_FloatT_*` (4x4 transformation matrices), C147 `Kin_FloatLog_*` (quaternion logarithm), C148 `Kin_FloatSlerp_Props` (interpolation), C149 `NumDiff_Float*` (numerical Jacobians), C150 and C151 `Unc_Float*` (covariance propagation), C152 `Kin_FloatS*` and `Kin_FloatER_*` (S matrices, angular velocities, their Jacobians): the same functions in IEEE binary64 (Flocq), each operation
  rounded to nearest even in the order of the C++ expression, no contraction to FMA; sin, cos, atan2... of the C
  library are quantified functions with a stated accuracy. The theorems bound the distance to the exact model.
* C156 `Kin_FloatNormJ_*`: normalizeAndJacobian in binary64 for every dimension and summation order.
* C155 `Kin_FloatHomJ_*`: the Jacobians of homogeneous points in binary64, every entry, one summation order per entry.
* C154 `Kin_Random_*`: setRandom of the kinematics types over two streams of numbers (Eigen's and sm::random's), exact reals.
* C86 `EigenSer_*`, C102 `KinSer_*`: boost serialization as item sequences. C104 `KinTree_*`.
* C87, C99 `Random_*`, C88 `MatSqrt_*`, C89 `NumDiff_*`, C90 `ThreePoint_*`, C113 `GTest_*`: exact reals, with
  decompositions (LDLT, SVD) and generators as explicitly quantified functions with their contract as
  a hypothesis; C111/C112 binary64.
* C101 `CvMat_*`: cv::Mat as header over a memory of buffers; strides, regions, uninitialised pointers.

### sm_matlab, sm_python
* C105-C107 `Engine_*`: a Matlab session as a state machine; handle, live arrays (leaks), output buffer.
* C108 `PyBind_*`: Boost.Python overload resolution; C114 `PyStore_*`, C115 `PyLog_*`, C116 `PyId_*`, C117
  `Progress_*`, C153 `PySqrt_*` (the matrix square root as Python sees it): accessors, logging helpers, id conversion, progress reports. C143 `PyPlot_*`: what the plotting
  helpers hand to matplotlib/wx, and the stl converters.

## What is not modelled

* Rounding in those parts of sm_kinematics that C135-C140 (and later float claims of the table) do not name, in
  sm_eigen and in ThreePoint (exact reals there). IEEE is modelled in sm_common, sm_timing, GTest, DoubleText,
  ShowProgress, TimerTable, PyTree and Kin_Float*, Kin_Angle.
* Boost itself: ptree, lexical/stream translators, INFO/INI/JSON/XML readers and writers and archives are
  modelled from the documented behaviour and my knowledge of the Boost source (>= 1.59; XML >= 1.56),
  because Boost is not in the sandbox. The same holds for Eigen decompositions, OpenCV 2.4 `cv::Mat`,
  Matlab's engine interface, CPython 2 integers and Boost.Python dispatch.
* The C++ memory model beyond sequential consistency under mutexes; allocation failure; exceptions thrown by
  allocators; locales other than "C"; big-endian machines.
* Windows branches other than C142, CMake/catkin files, matplotlib itself (C143 stops at the calls made to it),
  the numpy converter headers of numpy_eigen, rosbag and other scripts.
* float (binary32) instantiations of templates.

## Trusted base

* Coq 8.16.1 kernel (and its `vm_compute`).
* Axioms, all from the standard library, by theorem (class in brackets in the table below; computed with
  `Print Assumptions` on each theorem of MANIFEST.json):
  * [0] closed under the global context;
  * [D] `ClassicalDedekindReals.sig_forall_dec`;
  * [F] [D] + `FunctionalExtensionality.functional_extensionality_dep`;
  * [R] [F] + `ClassicalDedekindReals.sig_not_dec`;
  * [C] [R] + `Classical_Prop.classic` (through Flocq or Coquelicot).
* No axiom, functor, module type, `Admitted`, plugin or disabled kernel check of my own.
* My reading of the source and of the libraries listed above: each definition cites its lines.
* Seeded faults: `seeded/LOG.jsonl` records every wrong program tried against the theorems.

## Table: properties, files, theorems and their assumptions

* **C01** (proved) HashId hex round trip. Files: HashId_Props. Theorems: hexString_roundtrip [0], hexString_injective [0].
* **C02** (partial) fromHexString rejects non-hex input. Files: HashId_Props. Theorems: fromHexString_rejects_refuted [0], fromHexString_partial [0], uint64_roundtrip [0].
* **C03** (proved) HashId ordering is a strict total order. Files: HashId_Props. Theorems: hashid_strict_total_order [0].
* **C04** (proved) hashToSizeT never collides for ids sharing a half. Files: HashId_Props. Theorems: hash_no_collision_shared_half [0], hash_is_fnv [0].
* **C05** (proved) Id value semantics. Files: Id_Props. Theorems: Id_semantics [0], Id_increments_distinct [0], Id_fresh_sequence [0].
* **C06** (partial) string replace terminates and replaces the occurrences after skip. Files: Strings_Props. Theorems: replace_terminates_refuted [0], replace_partial [0].
* **C07** (partial) replace_reverse terminates and keeps the last skip occurrences. Files: Strings_Props. Theorems: replace_reverse_keeps_refuted [0], replace_reverse_partial [0].
* **C08** (proved) padding functions. Files: Strings_Props. Theorems: padding_spec [0].
* **C09** (proved) substituteEnvVars expands exactly the set variables. Files: Strings_Props. Theorems: substituteEnvVars_spec [0].
* **C10** (proved) ensureTrailingBackslash. Files: Strings_Props. Theorems: ensureTrailingBackslash_spec [0].
* **C11** (proved) array/stream formatting is delimited and injective per length. Files: Strings_Props. Theorems: toStream_spec [0], arrToString_injective [0].
* **C12** (proved) tolerance comparisons are exclusive and exhaustive. Files: NumCmp_Props. Theorems: comparisons_trichotomy [C], comparisons_symmetry [C], comparisons_reject_epsilon [C], comparisons_infinite_cases [C].
* **C13** (partial) assertion macros throw exactly when the relation fails. Files: NumCmp_Props. Theorems: asserts_throw_iff_partial [C], assert_NEAR_spec [C], range_asserts_reject_nan_refuted [0], dbg_asserts [0].
* **C14** (partial) rounding helpers. Files: Round_Props. Theorems: round_nearest_refuted [C], round_partial [C], rint_partial [C], lrint_refuted [C].
* **C15** (partial) solveQuadratic returns the two roots or throws. Files: Round_Props, Quadratic_Props. Theorems: sgn_spec [C], solveQuadratic_partial [R], solveQuadratic_double_zero_refuted [C], solveQuadratic_accepts [C], solveQuadratic_stable [C], solveQuadratic_imaginary_refuted [C].
* **C16** (partial) conjunctions of SM_CHECKSAME/SM_CHECKMEMBERSSAME mean all members equal. Files: CheckSame_Props. Theorems: conjunction_means_all_refuted [0], check_macros_partial [0].
* **C17** (proved) isSame on (shared) pointers compares pointees. Files: CheckSame_Props. Theorems: isSame_pointers [0].
* **C18** (proved) nanosecond/second conversion. Files: Nsec_Props. Theorems: sec_nsec_roundtrip [C], sec_nsec_monotone [C], sec_nsec_limits [C].
* **C19** (partial) isValid distinguishes the invalid time. Files: Nsec_Props. Theorems: isValid_refuted [0], isValid_partial [0].
* **C20** (proved) chrono conversions round trip. Files: Nsec_Props. Theorems: chrono_roundtrip [0].
* **C21** (proved) timestamp corrector rejects time going backwards without side effects. Files: Corrector_Props. Theorems: corrector_guard [0], corrector_throw_unchanged [0], double_nan_refuted [C].
* **C22** (proved) the stored hull is the lower convex hull of the accepted samples. Files: Corrector_Props. Theorems: corrector_hull [0], corrector_strictly_convex_refuted [0].
* **C23** (proved) corrected time never exceeds the local arrival time. Files: Corrector_Props. Theorems: corrector_below_local [0].
* **C24** (partial) the corrector never indexes out of its hull. Files: Corrector_Props. Theorems: corrector_index_refuted [0], corrector_index_partial [0], corrector_midpoint [0].
* **C25** (proved) long-running correction switches to the pending corrector. Files: Corrector_Props. Theorems: corrector_periodic [0], periodic_negative_refuted [C].
* **C26** (partial) integer instantiation is free of overflow. Files: Corrector_Props. Theorems: int64_overflow_refuted [C], int64_midpoint_refuted [C], int64_partial [C].
* **C27** (proved) timer registry maps tags and handles one to one. Files: Timer_Props. Theorems: handles_stable_and_injective [0], handles_dense [0], creation_disturbs_nothing [0].
* **C28** (proved) timer state machine counts exactly the completed intervals. Files: Timer_Props. Theorems: timer_refines_spec [0], timer_violations_change_nothing [0], completed_interval_adds_one_sample [0].
* **C29** (partial) secondsToTimeString fields are in range. Files: TimeString_Props. Theorems: secondsToTimeString_partial [C], secondsToTimeString_refuted [C], secondsToTimeString_negative_refuted [C].
* **C30** (proved) every scheduled job runs at most once, in FIFO start order. Files: JobQueue_Props. Theorems: logs_record_events [0], jobs_started_once_in_order [0], one_worker_is_sequential [0].
* **C31** (proved) waitForEmptyQueue returns only when all earlier work is finished. Files: JobQueue_Props. Theorems: waitForEmptyQueue_returns_when_idle [0].
* **C32** (proved) join stops all workers and keeps unstarted jobs. Files: JobQueue_Props. Theorems: join_returns_when_stopped [0].
* **C33** (partial) join always returns. Files: JobQueue_Props. Theorems: join_lost_wakeup_refuted [0], join_returns_partial [0], dtor_winds_down [0].
* **C34** (partial) destroying a JobQueue is safe. Files: JobQueue_Props. Theorems: dtor_refuted [0], dtor_partial [0].
* **C35** (proved) scheduleFuture delivers each result to its own future. Files: JobQueue_Props. Theorems: futures_get_their_own_result [0].
* **C36** (proved) archive save/load round trip. Files: Archive_Props. Theorems: save_load_roundtrip [0], oversized_matrix_refuted [0].
* **C37** (partial) only valid names enter the archive. Files: Archive_Props. Theorems: names_valid_refuted [0], names_valid_partial [0].
* **C38** (partial) a truncated or corrupted archive is detected. Files: Archive_Props. Theorems: truncation_partial [0], load_accepts_only_blocks [0], truncation_refuted [0].
* **C39** (proved) load merges and filters by name. Files: Archive_Props. Theorems: load_merges [0], save_selects [0].
* **C40** (partial) accessors behave as one map from names to matrix or string. Files: Archive_Props. Theorems: archive_map_partial [0], one_kind_refuted [0], one_kind_partial [0].
* **C41** (partial) append adds the archive's content to the file. Files: Archive_Props. Theorems: append_refuted [0], append_partial [0].
* **C42** (partial) clear removes entries. Files: Archive_Props. Theorems: clear_refuted [0], clear_partial [0].
* **C43** (partial) the MATLAB functions read and write the same format. Files: Archive_Props. Theorems: matlab_save_loads_partial [0], matlab_loads_saved [0], matlab_char_matrix_refuted [0], matlab_append [0], matlab_save_refuses [0].
* **C44** (proved) property tree read-your-writes. Files: PTree_Props. Theorems: translators_faithful [0], set_then_get [0], set_double_slash_refuted [0].
* **C45** (proved) setting a key does not disturb other keys. Files: PTree_Props. Theorems: set_frame [0], set_children [0].
* **C46** (proved) namespaces compose. Files: PTree_Props. Theorems: views_open [0], views_read [0], views_compose [0].
* **C47** (proved) defaulted reads. Files: PTree_Props. Theorems: default_reads [0].
* **C48** (partial) update merges trees. Files: PTree_Props. Theorems: update_merge_partial [0], update_ignore_empty_partial [0], update_only_partial [0], update_dotted_refuted [0], update_array_refuted [0], update_only_not_atomic_refuted [0].
* **C49** (partial) inline configuration strings parse to the written tree. Files: PTree_Props, InfoFile_Agree. Theorems: loadString_parses_partial [0], loadString_rejects [0], loadString_keys_partial [0], loadString_shared_prefix_refuted [0], loadString_value_refuted [0], loadStrings_joins [0], loadString_is_loadInfo [0].
* **C50** (partial) configuration loading order and termination. Files: PTree_Loader_Props. Theorems: load_terminates [0], load_order_once_partial [0], load_last_wins_partial [0], load_parents_first_partial [0], load_files_in_order [0], load_same_file_twice_refuted [0], load_relative_parent_skipped_refuted [0].
* **C51** (proved) file resolution picks the first existing candidate. Files: PTree_Loader_Props. Theorems: resolve_path [0], search_first_existing [0].
* **C52** (partial) layered value store: the first layer having a key wins. Files: ValueStore_Props, PyStore_Props. Theorems: layered_get_partial [0], layered_default_partial [0], layered_hasKey [0], layered_empty_refuted [0], layered_default_refuted [0], layered_unreadable_refuted [0], reading_changes_nothing [0].
* **C53** (partial) prefixed value store. Files: ValueStore_Props. Theorems: prefix_add_partial [0], prefix_remove_partial [0], prefix_add_hasKey_refuted [0], prefix_remove_hasKey_refuted [0], prefix_remove_default_refuted [0].
* **C54** (partial) verbose value store is transparent. Files: ValueStore_Props. Theorems: verbose_transparent_partial [0], verbose_add [0], verbose_isEmpty_refuted [0], verbose_getChildren_refuted [0].
* **C55** (partial) findPathAndAlert picks the first existing alternative. Files: ValueStore_Props. Theorems: alternatives_first_partial [0], alternatives_none_partial [0], alternatives_last_partial [0], alternatives_message_refuted [0], alternatives_front_refuted [0], alternatives_empty_refuted [0].
* **C56** (partial) child value stores. Files: ValueStore_Props. Theorems: child_reads_partial [0], child_child_partial [0], child_remove_refuted [0], child_remove_part_refuted [0].
* **C57** (proved) value handles. Files: ValueStore_Props. Theorems: update_writes_through [0], constant_refuses [0].
* **C58** (proved) log filtering is always up to date. Files: Logging_Filter_Props. Theorems: log_filter_up_to_date [0], log_filter_concurrent [0], log_filter_dynamic_name_refuted [0].
* **C59** (partial) print delivers once and never recurses. Files: Logging_Print_Props. Theorems: print_exactly_once [0], print_current_logger [0], print_exclusive [0], print_nested_dropped [0], print_progress [0], print_after_shutdown [0], print_exactly_once_refuted [0].
* **C60** (partial) concurrent logging configuration cannot deadlock. Files: Logging_Filter_Props. Theorems: logging_deadlock_refuted [0], logging_deadlock_partial [0], logging_no_stream_changes_partial [0], logging_only_stream_changes_partial [0].
* **C61** (partial) once and throttle. Files: Logging_Text_Props. Theorems: once_first [0], once_at_most_once [0], throttle_emits [C], throttle_spacing_partial [C], throttle_spacing_refuted [C].
* **C62** (proved) stream names are normalised. Files: Logging_Text_Props. Theorems: prefix_spec [0], prefix_qualified [0], prefix_idempotent [0], prefix_identifies [0].
* **C63** (proved) level names parse. Files: Logging_Text_Props. Theorems: fromString_names [0], fromString_unknown [0].
* **C64** (proved) formatter. Files: Logging_Text_Props. Theorems: format_exists [0], formatter_correct [0], formatter_total [0].
* **C65** (proved) quaternion algebra. Files: Kin_Quat_Props. Theorems: qplus_assoc [F], qplus_identity [F], qplus_norm [R], qoplus_flip [F], quatPlus_qplus [F], quatInv_inverse [F], quatS_inverse [F], quatInvS_inverse [F], quatInvS_tangent [F].
* **C66** (proved) unit quaternions act as rotations. Files: Kin_Quat_Props. Theorems: quat2r_rotation [F], quat2r_qplus [F], quat2r_inv [F], quat2r_identity [F], quat2r_opp [F], quatRotate_matrix [F], quatRotate_conjugation [F].
* **C67** (proved) r2quat inverts quat2r. Files: Kin_Quat_Props. Theorems: r2quat_inverts_quat2r [R], r2quat_unit [R], r2quat_quat2r [R], quat2r_injective [F].
* **C68** (partial) axisAngle2quat gives the unit quaternion of the rotation. Files: Kin_Quat_Props. Theorems: axisAngle2quat_exact [R], axisAngle2quat_unit [R], rotation_quaternion_unit [R], axisAngle2quat_small_partial [C], axisAngle2quat_precision_refuted [C].
* **C69** (partial) quaternion logarithm inverts the exponential. Files: Kin_Quat_Props. Theorems: quat_log_exp_partial [C], quat_log_exp_small_partial [C], quat_log_exp_between_partial [C], quat_log_exp_refuted [C], quat_exp_log_partial [C], quat_exp_log_small_partial [C], quat_log_cut_locus [C], quat_exp_log_refuted [C].
* **C70** (proved) Euler rotation matrices. Files: Kin_Rot_Props. Theorems: Rx_turns [R], Ry_turns [R], Rz_turns [R], principal_rotations [R], rph2R_product [R], rph2R_rotation [R], C_transposes [R], rph2C_product [R], rph2C_rotation [R], zyx_product [R], ypr_product [R], zxy_product [R].
* **C71** (proved) Euler angles are recovered. Files: Kin_Rot_Props, Kin_Trans_Props. Theorems: R2rph_rph2R [C], C2rph_rph2C [C], zyx_recovered [C], ypr_recovered [C], zxy_recovered [C], rph2R_R2rph [C], fromTEuler_toTEuler [C], toTEuler_arguments [R], toTEuler_rigid [R], toTEuler_fromTEuler [C].
* **C72** (partial) axisAngle2R agrees with the quaternion path. Files: Kin_Rot_Props. Theorems: axisAngle2R4_turns [R], axisAngle2R4_negative_refuted [R], axisAngle2R_turns [R], axisAngle2R_rotation [R], axisAngle2R_quaternion [R], axisAngle2R_quaternion_small_refuted [C], rotationVector_matrix [R], rotationVector_rotation [R].
* **C73** (proved) inverseTransform inverts rigid transforms. Files: Kin_Trans_Props. Theorems: inverseTransform_rigid [F], inverseTransform_only_orthonormal [F], inverseTransform_reflection [F], rt2Transform_parts [F].
* **C74** (partial) Transformation is a group acting on points. Files: Kin_Trans_Props. Theorems: tf_make_valid [R], tf_valid [R], tf_T_rigid [F], tf_of_matrix_T [R], tf_T_of_matrix [R], tf_T3x4_top [D], tf_identity_T [F], tf_mul_T [R], tf_inverse_T [R], tf_act_T [F], tf_group [R], tf_action [R], updateQuat_product [R], tf_oplus_valid_partial [R], tf_oplus_norm [C], tf_oplus_valid_refuted [C].
* **C75** (partial) Transformation::isBinaryEqual compares both parts. Files: CheckSame_Props. Theorems: pair_isBinaryEqual_refuted [0], isBinaryEqual_partial [0], cv_isBinaryEqual_refuted [0], cv_isBinaryEqual_partial [0].
* **C76** (partial) interpolation hits its end points and stays on the sphere. Files: Kin_Interp_Props. Theorems: qslerp_defined [C], qslerp_ends [C], lerp_ends [F], qslerp_turns [C], qslerp_unit_partial [C], qslerp_norm [C], qslerp_unit_refuted [C], qslerp_exchange [C], lerp_exchange [F], slerpTransformations_defined [C], slerpTransformations_ends [C], interpolate_ends_partial [C], interpolate_ends_refuted [C], interpolate_exchange_partial [C], interpolate_exchange_refuted [C], interpolate_between [C].
* **C77** (proved) homogeneous point arithmetic equals Euclidean arithmetic. Files: Kin_Hom_Props. Theorems: toEuclidean_finite [F], toEuclidean_of_euclidean [F], hp_add_euclidean [F], hp_sub_euclidean [F], hp_scale_euclidean [F], toHomogeneousPlus_adds [F], toHomogeneousMinus_subtracts [F], tf_actH_euclidean [F], tf_actH_infinite [F], hp_scaling_invisible [F], hp_normalize_spec [R], hp_vector_point [R].
* **C78** (proved) homogeneous coordinate conversion and Jacobians. Files: Kin_Hom_Props. Theorems: fromHomogeneous_toHomogeneous [F], fromHomogeneous_scale [F], fromHomogeneous_toEuclidean [F], fromHomogeneous_inverse [F], fromHomogeneousColumns_toHomogeneousColumns [F], fromHomogeneousColumns_elements [F], fromHomogeneous_jacobian [C], toHomogeneous_jacobian [F].
* **C79** (proved) covariances stay symmetric positive semidefinite. Files: Kin_Unc_Props. Theorems: uh_constructors_cov [F], uh_ops_cov [F], uh_U3_cov [F], uh_U_av_form_cov [R], uh_setUOplus_cov [R], uh_normalize_cov [R], ut_ops_cov [R], ut_setUOplus_cov [F], tf_rotate_uv_cov [F], tf_rotate_uv_propagates [F], uh_of_euclideanU_reads [F], certain_operands [R], ut_group [R], ut_action [R], ut_UOplus_roundtrip [F], uh_UOplus_roundtrip [R], uh_setUOplus_throws [R], uh_UOplus_restores_tangential [R], uv_ops_cov [F], uv_normalized_cov [R], uv_normalized_defined [R], us_ops_cov [F], uv_certain_operands [F].
* **C80** (partial) adding a certain point equals adding a point with zero covariance. Files: Kin_Unc_Props. Theorems: hp_uncertain_mean [D], certain_point_covariance [F], certain_point_covariance_other [F], uh_add_euclidean [F], uh_add_certain_euclidean [F], uh_sub_euclidean_partial [F], uh_sub_euclidean_refuted [F], certain_point_refuted [F], certain_point_euclidean_partial [F], ut_diag_values [D].
* **C81** (partial) Euler-Rodriguez parameters. Files: Kin_Rot_Props. Theorems: er_quaternion [R], er_rotation [R], er_recovered_partial [C], er_recovered_refuted [C].
* **C82** (partial) rotation vector parameters are recovered. Files: Kin_Rot_Props. Theorems: rv_recovered_partial [C], rv_recovered_tiny [C], rv_recovered_refuted [C].
* **C83** (partial) S matrices map parameter rates to angular velocity. Files: Kin_Rot_Deriv, Kin_RV_Deriv. Theorems: zyx_angular_velocity [C], ypr_angular_velocity [C], zxy_angular_velocity [C], er_angular_velocity [C], zyx_jacobian [C], ypr_jacobian [C], zxy_jacobian [C], er_jacobian [C], er_S_consistent [F], rv_angular_velocity [C], rv_jacobian [C], rv_jacobian_zero_refuted [R], rv_angular_velocity_tiny_refuted [C], rv_invS_inverse [R], rv_invS_zero [R].
* **C84** (proved) angleMod. Files: Kin_Rot_Props. Theorems: angleMod_spec [R], angleMod_id [R].
* **C85** (proved) box operators. Files: Kin_Trans_Props. Theorems: boxMinus_boxPlus [F], boxTimes_adjoint [F], boxTimes_product [F], boxTimes_inverse [F].
* **C86** (partial) Eigen matrix serialization round trip. Files: EigenSer_Props. Theorems: serialization_roundtrip_partial [0], serialization_empty_exact [0], serialization_roundtrip_refuted [0], serialization_wrong_size [0], serialization_keeps_type [0], serialization_truncated [0], serialization_other_type_partial [0], serialization_other_type_refuted [0], elem_defined [0], serialization_sequence [0].
* **C87** (partial) random numbers are in range. Files: Random_Props. Theorems: randLU_closed_partial [C], randLU_half_open_refuted [C], randLU_overflow_refuted [C], randLU_from_zero_partial [C], randLU_exact [F], randLU_monotone [C], randLU_accuracy [C], randLUi_range_partial [C], randLUi_overflow [C], randLUi_range_refuted [C], randLUi_ends [C], randLUi_monotone [C].
* **C88** (proved) matrix square root. Files: MatSqrt_Props. Theorems: matrix_sqrt_squares [R], matrix_sqrt_defined [R], matrix_sqrt_spec [R], factorization_exists [F].
* **C89** (proved) central differences are exact on quadratics. Files: NumDiff_Props. Theorems: estimateJacobian_quotients [F], estimateJacobian_calls [F], estimateJacobian_quadratic [C], estimateJacobian_converges [F], estimateJacobian_error [C].
* **C90** (proved) point cloud alignment is a least-squares rigid transform. Files: ThreePoint_Props. Theorems: threePointSvd_rigid [F], threePointSvd_defined [F], threePointSvd_optimal [R], threePointSvd_exact [R], threePointSvd_recovers [R], qMethod_rotation [R], qMethod_optimal [R], qMethod_exact [R], qMethod_unweighted [R], qMethod_errors [R].
* **C91** (partial) reset() restarts the corrector. Files: Corrector_Props. Theorems: reset_partial [0], reset_periodic_refuted [0].
* **C92** (proved) no scheduled job is left behind while a worker sleeps. Files: JobQueue_Props. Theorems: no_lost_wakeups [0], never_pops_empty_queue [0].
* **C93** (partial) getChildren lists the node of the view. Files: PTree_Props. Theorems: getChildren_lists_partial [0], getChildren_root_refuted [0], getChildren_dot_refuted [0].
* **C94** (proved) findFile. Files: PTree_Loader_Props. Theorems: findFile_spec [0].
* **C95** (proved) a value store seen as a property tree. Files: ValueStore_Props. Theorems: asPropertyTree_reads [0].
* **C96** (proved) typed reads: which texts are integers and booleans. Files: PTree_Typed_Props. Theorems: getInt_exact [0], getBool_accepts [0].
* **C97** (proved) update Jacobians are derivatives. Files: Kin_Jac_Props. Theorems: axisAngle2quat_derivative [C], updateQuat_derivative [C], hp_toHomogeneous_jacobian [C], hp_toEuclidean_jacobian [C], normalizeAndJacobian4_jacobian [C], normalizeAndJacobian3_jacobian [C], transformation_jacobian [C], inverseTransformation_jacobian [C].
* **C98** (partial) covariances are first-order propagation. Files: Kin_Unc_Jac, Kin_UVec_Jac. Theorems: compose_moves [C], inverse_moves [C], ut_mul_first_order [C], ut_inverse_first_order [C], ut_act_first_order [C], ut_setUOplus_first_order [C], uh_add_first_order [C], uh_sub_first_order_partial [C], uh_sub_first_order_refuted [C], uh_normalize_first_order [C], uh_U3_first_order [C], uh_setUOplus_first_order [C], uv_linear_first_order [C], uv_add_first_order [C], uv_sub_first_order [C], uv_mul_first_order [C], uv_scale_first_order [C], uv_dot_first_order [C], uv_normalized_first_order [C], us_ops_first_order [C], us_div_first_order [C], us_divv_first_order [C], uncertain_values [D].
* **C99** (proved) seeding determines the following random numbers. Files: Random_Props. Theorems: seed_determines [C], run_app [C], aliases [C].
* **C100** (partial) Jacobians of the quaternion exponential and logarithm. Files: Kin_ExpLog_Props. Theorems: quatExpJacobian_derivative [C], quatExpJacobian_derivative_zero [C], logDiffMat_expDiffMat [R], logDiffMat_undefined [R], quatLogJacobian2_derivative [C], quatLogJacobian2_quatExpJacobian [C], expDiffMat_exact [R], logDiffMat_exact [R], expDiffMat_small [C], logDiffMat_small [C], quatLogJacobian_identity_refuted [C].
* **C101** (partial) OpenCV matrix serialization round trip. Files: CvMat_Props. Theorems: mat_roundtrip_partial [0], mat_row_region [0], mat_load_into_region [0], mat_load_any_archive [0], mat_roundtrip_refuted [0], create_valid [0], region_valid [0], empty_valid [0], keypoint_roundtrip [0], keypoints_roundtrip [0], element_sizes [0], empty_is_empty [0].
* **C102** (partial) kinematics objects survive serialization. Files: KinSer_Props. Theorems: kinematics_roundtrip [0], kinematics_sequence [0], kinematics_truncated [0], kinematics_keeps_size [0], kinematics_newer_version [0], transformation_kinds [0], load_matrix_is_eigen_load [0], kinematics_classes [0], kinematics_failed_load_refuted [0].
* **C103** (partial) saving to a file means it can be loaded. Files: SerFile_Props. Theorems: file_roundtrip_exact [0], file_save_returns [0], file_save_frame [0], file_unopenable [0], file_other_format [0], file_default_tag [0], file_roundtrip_refuted [0].
* **C104** (partial) transformations from configuration. Files: KinTree_Props. Theorems: transformation_from_tree_partial [R], transformation_from_tree_returns [R], transformation_from_tree_refuted [R].
* **C105** (partial) Variables sent to Matlab are read back unchanged. Files: Engine_Props. Theorems: questions_answered [0], questions_missing [0], put_get_last [C], put_int_get [C], get_reads [C], put_int_refuted [C], getEigen_int64_refuted [C], empty_refuted [C].
* **C106** (partial) The Matlab engine refuses calls before start-up and names that are none. Files: Engine_Props. Theorems: handle_defined [C], no_undef_partial [C], uninitialised_throws_partial [C], uninitialised_exists_refuted [C], engine_false_refuted [C], initialize_stop [0], initialize_fails [0], initialize_fails_clean [0], good_answers [0], illegal_names_rejected [C], legal_names_accepted [C], names_refuted [0], destroy_closes [0].
* **C107** (partial) Calls to Matlab leak nothing and return the whole output. Files: Engine_Props. Theorems: no_leak_partial [C], leaks_refuted [C], execute_output_partial [0], execute_output_refuted [0], good_answer [0], good_dead [0].
* **C108** (partial) Python operators on transformations and points are those of C++. Files: PyBind_Props. Theorems: overload_used_iff [0], points_python_is_cpp [D], products_python_is_cpp_partial [R], products_python_mean [R], inverse_python_mean [R], products_python_drop [R], products_python_refuted [R], uncertain_products_python_iff [R], products_python_missing_refuted [R], construct_python [D], construct_copy_refuted [F], pickle_python [D], pickle_refuted [R].
* **C109** (proved) getDouble reads decimal numbers as the nearest double. Files: DoubleText_Props. Theorems: getDouble_reads_nearest [C].
* **C110** (partial) doubles survive a property tree bit for bit. Files: DoubleText_Props. Theorems: double_text_roundtrip [C], setDouble_then_getDouble [C], getDouble_default_stored [C], setDouble_text_close [C], print_double_injective [C], nonfinite_double_refuted [C], nonfinite_set_get_refuted [C], sixteen_digits_refuted [C], six_digits_refuted [C].
* **C111** (partial) compareRelative compares two numbers up to a percentage. Files: GTest_Props. Theorems: compareRelative_symmetric [C], compareRelative_finite_partial [C], compareRelative_nonfinite_refuted [C].
* **C112** (partial) matrix assertions pass exactly for matching matrices. Files: GTest_Props. Theorems: assertEqual_exact [C], assertNear_exact [C], assertFinite_exact [0], expectNear_partial [C], expectNear_refuted [C], mx_eq_exact [C], mx_eq_nan_refuted [C].
* **C113** (proved) random covariances are covariances. Files: GTest_Props. Theorems: randomCovariance_symmetric [C], randomCovariance_definite [R], randomCovariance_is_covariance [R], randomCovariance_rounding [C], randomCovariance_definite_rounding [C].
* **C114** (partial) ExtendibleValueStoreRef.set is a dictionary assignment. Files: PyStore_Props. Theorems: py_set_exact [C], py_set_then_get [C], py_sets_dictionary [C], py_set_type_refuted [C], py_set_above_refuted [C], py_set_nonfinite_refuted [C], getter_default_exact [0].
* **C115** (partial) logging from Python obeys the same filter as C++. Files: PyLog_Props. Theorems: py_log_filter [0], py_logNamed_filter [0], convenience_partial [0], convenience_named [0], python_agrees_with_cpp [0], logVerbose_refuted [0], py_log_int_refuted [0], py_log_nul_refuted [0].
* **C116** (partial) ids cross into Python and back. Files: PyId_Props. Theorems: id_python_roundtrip [0], id_python_injective [0], id_python_value_partial [0], id_python_unset [0], python_id_roundtrip [0], id_python_order_refuted [0], python_id_range_refuted [0].
* **C117** (partial) progress reports are the linear extrapolation of the elapsed time. Files: Progress_Props. Theorems: remaining_text_exact [F], progress_reports [F], progress_last_refuted [F], progress_remaining_partial [F], progress_overtime_refuted [F], progress_zero_refuted [0], progress_reset_exact [F], progress_line [0].
* **C118** (partial) showProgress prints the true percentage. Files: ShowProgress_Props. Theorems: showProgress_exact [C], showProgress_monotone [C], showProgress_total [C], showProgress_range [C], showProgress_early_refuted [C], showProgress_big_refuted [C].
* **C119** (partial) MatrixArchive seen from Python, and lsma. Files: PyArchive_Props. Theorems: py_names_valid [0], py_save_load [0], py_dicts [0], py_getters [0], py_names_refuted [0], py_rebuild_partial [0], py_rebuild_refuted [0], lsma_lists [0], lsma_usage [0], lsma_stops [0].
* **C120** (partial) a property tree survives an INFO file. Files: InfoFile_Props, InfoFile_Agree, InfoFile_Cont. Theorems: info_roundtrip_partial [0], info_fails [0], info_root_data_refuted [0], info_hash_refuted [0], info_include_refuted [0], info_clash_refuted [0], info_readers_agree [0], escapes_read [0], info_continuation [0], info_no_continuation [0].
* **C121** (partial) property trees in INI files. Files: IniFile_Props. Theorems: ini_roundtrip [0], ini_saves [0], ini_blank_refuted [0], ini_comment_refuted [0], ini_newline_refuted [0], ini_mixed_refuted [0].
* **C122** (partial) property trees in JSON files. Files: JsonFile_Props. Theorems: json_saves [0], json_roundtrip [0], json_encoding_refuted [0], json_mixed_refuted [0].
* **C123** (partial) load and save choose the format by the file name. Files: PTreeFile_Props. Theorems: format_by_ending [0], unknown_format [0], failed_load_keeps_tree [0], load_exact [0], missing_file_throws [0], save_exact [0], save_load [0], failed_save_keeps_file_refuted [0].
* **C124** (proved) corrector line is accurate in double arithmetic. Files: Corrector_Double. Theorems: corrector_double_exact [C], corrector_int64_exact [C].
* **C125** (partial) Saving a property tree to XML and loading it back. Files: XmlFile_Props. Theorems: xml_roundtrip [0], xml_reload [0], xml_fails [0], xml_key_refuted [0], xml_blanks_refuted [0], xml_root_refuted [0], xml_mode_refuted [0], xml_comments_refuted [0].
* **C126** (proved) Which texts loadJson accepts. Files: JsonFile_Exact. Theorems: json_reads_exactly [0], json_rejects [0], json_one_meaning [0], json_writes_json [0].
* **C127** (partial) Value stores in files. Files: VsFile_Props. Theorems: store_file_roundtrip [0], canSave_exact [0], store_save_exact [0], store_from_file_exact [0], canSave_wrapped_refuted [0], save_child_refuted [0], isEmpty_children [0], isEmpty_child_refuted [0].
* **C128** (partial) What loadXml reads. Files: XmlFile_Read. Theorems: xml_reads [0], xml_declared [0], xml_malformed_refuted [0].
* **C129** (partial) The time in a log line. Files: LogTime_Props. Theorems: log_time_exact [C], log_time_sorted [C], log_seconds_error [C], log_time_late_refuted [C].
* **C130** (partial) Property trees from Python. Files: PyTree_Props, PyStore_Props. Theorems: py_reads_change_nothing [C], py_conversion [C], py_refused_unchanged [C], py_const_objects_safe [C], py_set_then_get [C], py_defaults [C], py_child [C], py_update [C], py_update_forms [C], py_history [C], py_files [C], py_const_getChild_refuted [C], py_missing_refuted [C].
* **C131** (partial) a log statement does what its macro says. Files: LogMacro_Props. Theorems: log_statement_partial [C], log_compiled_out [C], log_compile_time_filter [C], log_own_names_refuted [C], log_ternary_rate_refuted [C], log_ternary_level_refuted [C], log_ternary_level_partial [0], log_ternary_level_kept [0].
* **C132** (partial) assertions of sm_logging. Files: LogAssert_Props. Theorems: assert_stops [C], assert_explains_partial [C], assert_explains_refuted [C], assert_cmd_refuted [0], assert_cmd_documented [0], assert_cmd_partial [0], assert_cmd_operators [0].
* **C133** (partial) type traits. Files: TypeTraits_Props. Theorems: wf_types [0], same_type [0], strip_reference_partial [0], strip_const_reference_partial [0], strip_rvalue_refuted [0], strip_const_ptr_partial [0], const_pointer_refuted [0], add_reference [0], add_const_reference_partial [0], add_const_reference_refuted [0], add_ptr_partial [0], add_ptr_reference_refuted [0], is_reference_pointer_partial [0], traits_defined [0].
* **C134** (partial) The timing tables list every timer once, with its statistics, in the requested order. Files: TimerTable_Props. Theorems: timing_table_partial [C], timing_table_sorted_partial [C], timing_table_refuted [C].
* **C135** (proved) Rigid transformations in double precision stay rigid and stay close to the exact motion. Files: Kin_Float_Props, Kin_Float_Matrix. Theorems: float_constructor [C], float_expression [C], exact_matrices [R], float_point [C], float_agree [C], float_associative [C], float_round_trip [C], float_chain [C], float_matrix [C].
* **C136** (proved) Rotation matrices become quaternions, in double precision, for every rotation. Files: Kin_FloatR_Props. Theorems: float_matrix_to_quaternion [C], float_matrix_round_trip [C], float_matrix_motion [C].
* **C137** (partial) angleMod, deg2rad and rad2deg in double precision. Files: Kin_Angle_Props, PiBound. Theorems: angleMod_partial [C], deg2rad_partial [C], rad2deg_accurate [C], angleMod_refuted [C], deg2rad_refuted [C], PI_decimal [C].
* **C138** (partial) Rotation vectors to quaternions, updateQuat and oplus in double precision. Files: Kin_FloatExp_Props. Theorems: float_exp_partial [C], float_exp_refuted [C], float_turned_partial [C], float_oplus_partial [C], rounded_lib_ok [C].
* **C139** (partial) Rotation matrices from angles, rotation vectors and Rodrigues parameters in double precision. Files: Kin_FloatMat_Props. Theorems: float_principal_matrices [C], float_euler_matrices [C], float_euler_quaternion [C], float_rotation_vector_matrix [C], float_rodrigues_matrix [C], float_axis_angle_matrix_partial [C], float_axis_angle_matrix_refuted [C].
* **C140** (partial) Angles and rotation vectors read off rotation matrices in double precision. Files: Kin_FloatParam_Props, Kin_FloatParam_RV, Kin_FloatParam_ER. Theorems: float_euler_round_trip [C], float_euler_params_exact [C], float_euler_params_refuted [C], float_rotation_vector_read_partial [C], float_rotation_vector_round_trip_partial [C], float_rotation_vector_read_refuted [C], float_rodrigues_read_refuted [C], float_rodrigues_read_partial [C], float_rodrigues_round_trip_partial [C].
* **C141** (partial) the exception of a failed assertion tells what failed and where. Files: AssertText_Props. Theorems: assert_text_partial [C], assert_truth [C], assert_text_other [C], debug_assertions_vanish [0], exception_text_readable [0], nonpositive_text_refuted [C], effects_text_refuted [C], digits_text_refuted [C].
* **C142** (partial) clock readings become seconds and microseconds. Files: WinTime_Props. Theorems: windows_time_exact [0], windows_time_outputs [0], windows_time_refuted [0], ptimeToTimeval_refuted [0].
* **C143** (partial) frames are drawn as they are, tabs in the order they were added, containers converted element by element. Files: PyPlot_Props. Theorems: frame_drawn [R], plot_tabs [0], stlToList_appends [0], stlToDict_assigns [0], frame2d_drawn_refuted [F], frame2d_two_rows [F].
* **C144** (partial) homogeneous points in double precision. Files: Kin_FloatHom_Props. Theorems: euclidean_points_exact [C], homogeneous_sum_accurate_partial [C], homogeneous_sum_refuted [C], toEuclidean_accurate_partial [C], toEuclidean_accurate_refuted [C], homogeneous_normalize_partial [C], homogeneous_normalize_refuted [C], float_act_homogeneous_euclidean [C], float_act_homogeneous [C], homogeneous_infinity [C].
* **C145** (partial) severity macros: the header and the script that writes it. Files: MacroText_Props. Theorems: header_macros [0], severities_of_levels [0], header_calls [0], header_stream_commas [0], regenerated_refuted [0], regenerated_partial [0], header_from_add_macro [0].
* **C146** (partial) 4x4 transformation matrices in floating point. Files: Kin_FloatT_Props. Theorems: float_blocks [C], float_transform_point [C], float_inverseTransform [C], float_inverse_undoes [C], float_inverse_undoes_stored [C], float_inverse_twice [C], float_inverse_twice_refuted [C], float_TEuler [C], float_TEuler_refuted [C], float_transformationAndJacobian [C], float_inverseTransformationAndJacobian [C].
* **C147** (partial) the logarithm of a unit quaternion in double precision. Files: Kin_FloatLog_Props. Theorems: float_log [C], float_log_exp [C], float_log_refuted [C], float_log_pole_refuted [C], logarithm_exists [C].
* **C148** (partial) interpolation of quaternions, positions and transformations in double precision. Files: Kin_FloatSlerp_Props. Theorems: float_qslerp_ends [C], float_qslerp [C], float_lerp_ends [C], float_lerp [C], float_slerpTransformations [C], float_slerp_ends [C], float_interpolate [C], float_interpolate_ends [C], float_interpolate_exchange [C], float_interpolate_refuted [C].
* **C149** (proved) numerical Jacobians in double precision. Files: NumDiff_FloatProps. Theorems: float_jacobian_quotients [C], float_jacobian_calls [C], float_jacobian [C], float_jacobian_smooth [C], float_jacobian_refuted [C], float_jacobian_small_step_refuted [C], default_eps_val [C].
* **C150** (proved) covariance arithmetic of uncertain vectors in double precision. Files: Unc_FloatProps. Theorems: float_sandwich [C], float_linear [C], float_sandwich_cov [C], float_add [C], float_scale [C], float_dotv [C], float_dot [C], float_scalar [C], float_scalar_div [C], float_certain [C], float_linear_refuted [C], float_add_refuted [C], float_scale_refuted [C], float_dotv_refuted [C].
* **C151** (proved) covariances of uncertain transformations in double precision. Files: Unc_FloatT_Props. Theorems: float_box_sandwich [C], float_compose [C], float_compose_cov [C], float_compose_reference [R], float_act [C], float_compose_refuted [C].
* **C152** (proved) parameter rates and angular velocities in double precision. Files: Kin_FloatS_Props, Kin_FloatER_Props, Kin_FloatSJ_Props. Theorems: float_rate_matrices [C], float_rotation_vector_rates [C], float_angular_velocity [C], float_euler_jacobians [C], float_er_jacobian [C], float_rv_jacobian_refuted [C], float_rv_jacobian_wrong [C], float_inverse_S_refuted [C], inverse_S_exact [C], rounded_lib3_ok [C].
* **C153** (partial) Python computeMatrixSqrt. Files: PySqrt_Props. Theorems: python_matrix_sqrt_partial [C], python_root_failure_refuted [C], python_root_asymmetric_refuted [C], eigen_ok_possible [classic+functional_extensionality_dep+sig_forall_dec].
* **C154** (proved) random transformations, points and vectors. Files: Kin_Random_Props. Theorems: random_transformation [R], random_transformation_all [R], random_centred_refuted [R], random_transformation_max [C], random_transformation_max_all [R], random_seeded [C], random_seed_refuted [C], random_covariance6 [R], random_positive_definite_refuted [R], random_point [R], random_vector [F].
* **C155** (partial) Jacobians of homogeneous points in double precision. Files: Kin_FloatHomJ_Props. Theorems: homogeneous_jacobian_halves [C], oplus_euclid_exact [F], euclidean_jacobian_accurate_partial [C], from_homogeneous_jacobian_partial [C], from_homogeneous_jacobian_euclidean [C], tiny_scale_jacobian_refuted [C], tiny_point_jacobian_refuted [C].
* **C156** (partial) normalising with a Jacobian in double precision. Files: Kin_FloatNormJ_Props. Theorems: normalize_jacobian_accurate_partial [C], normalize_jacobian_long_refuted [C], normalize_jacobian_short_refuted [C], normalize_jacobian_zero_refuted [C].
