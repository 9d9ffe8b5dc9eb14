{"id": "C01", "title": "HashId hex round trip", "statement": "For every HashId h, h.hexString() is a 32-character lower-case hex string and fromHexString(h.hexString()) returns true and yields exactly h; hence two different ids never have the same hex string.", "quantifier": "all 2^128 ids", "why_tests_cant": "2^128 ids; a round trip on random samples cannot exclude a colliding pair", "anchors": ["sm_common/include/sm/hash_id.hpp: HashId::hexString, HashId::fromHexString"]}
{"id": "C02", "title": "fromHexString rejects non-hex input", "statement": "fromHexString(s) returns true only if s consists of exactly 32 hex digits and then the id is the one whose hex string is s (lower-cased); otherwise the object is left unchanged and false is returned.", "quantifier": "all byte strings s and prior ids", "why_tests_cant": "all strings, including adversarial ones (signs, blanks, 0x prefixes, partial failure)", "anchors": ["sm_common/include/sm/hash_id.hpp: HashId::fromHexString"]}
{"id": "C03", "title": "HashId ordering is a strict total order", "statement": "operator<, >, ==, != form a strict total order consistent with equality, so HashId can key std::map/std::set; the invalid id is the unique minimum and isValid() is false exactly for it.", "quantifier": "all triples of ids", "why_tests_cant": "laws over all triples of 128-bit values", "anchors": ["sm_common/include/sm/hash_id.hpp: operator<, operator>, operator==, isValid, setInvalid"]}
{"id": "C04", "title": "hashToSizeT never collides for ids sharing a half", "statement": "Two distinct ids that agree in their first or in their second 64 bits have different hashToSizeT() (and different hashToSizeTFast()) values.", "quantifier": "all pairs of distinct ids sharing a 64-bit half", "why_tests_cant": "2^192 pairs", "anchors": ["sm_common/include/sm/hash_id.hpp: hashToSizeT, hashToSizeTFast"]}
{"id": "C05", "title": "Id value semantics", "statement": "An Id is unset exactly after default construction/clear() (value 2^64-1); setId/getId round-trip; ++ returns the new value, post-++ the old one, wrapping at 2^64; comparisons agree with the numeric values; swap exchanges; n increments of a fresh id n<2^64 times never revisit a value.", "quantifier": "all id values and increment counts", "why_tests_cant": "2^64 values and arbitrary increment counts", "anchors": ["sm_common/include/sm/Id.hpp: sm::Id"]}
{"id": "C06", "title": "string replace terminates and replaces the occurrences after skip", "statement": "string replace(str,target,replacement,skip) returns for every input, leaves the first `skip` occurrences of target in place and turns every later one into replacement.", "quantifier": "all strings, characters and skip counts", "why_tests_cant": "non-termination and all string shapes", "anchors": ["sm_common/include/sm/string_routines.hpp: replace"]}
{"id": "C07", "title": "replace_reverse terminates and keeps the last skip occurrences", "statement": "replace_reverse(str,target,replacement,skip) returns for every input, leaves the last `skip` occurrences of target untouched and replaces every earlier one.", "quantifier": "all strings, characters and skip counts", "why_tests_cant": "non-termination and wrap-around of the position at index 0 depend on input shape", "anchors": ["sm_common/include/sm/string_routines.hpp: replace_reverse"]}
{"id": "C08", "title": "padding functions", "statement": "leading_pad/padded return a string whose length is max(requested, length of the value's text), that ends (resp. starts) with the text, with all other characters the fill character.", "quantifier": "all values, widths and fill characters", "why_tests_cant": "the domain is unbounded, so a finite suite only samples it", "anchors": ["sm_common/include/sm/string_routines.hpp: leading_pad, padded"]}
{"id": "C09", "title": "substituteEnvVars expands exactly the set variables", "statement": "substituteEnvVars(s) replaces each $(NAME) of a variable set in the environment by its value and leaves every other character, including references to unset variables and an unterminated $(, unchanged; the inserted values are not rescanned.", "quantifier": "all strings and all environments", "why_tests_cant": "all strings x all environments", "anchors": ["sm_common/include/sm/string_routines.hpp: substituteEnvVars"]}
{"id": "C10", "title": "ensureTrailingBackslash", "statement": "The result ends with exactly the input followed by at most one '/', always ends in '/', and applying it twice equals applying it once.", "quantifier": "all strings", "why_tests_cant": "the domain is unbounded, so a finite suite only samples it", "anchors": ["sm_common/include/sm/string_routines.hpp: ensureTrailingBackslash"]}
{"id": "C11", "title": "array/stream formatting is delimited and injective per length", "statement": "toStream writes prefix, the elements in order separated by the delimiter, then the suffix; arrToString writes [a,b,...].", "quantifier": "all sequences, delimiters, prefixes, suffixes", "why_tests_cant": "the domain is unbounded, so a finite suite only samples it", "anchors": ["sm_common/include/sm/string_routines.hpp: toStream, arrToString"]}
{"id": "C12", "title": "tolerance comparisons are exclusive and exhaustive", "statement": "For every finite positive epsilon and all finite doubles a,b exactly one of approximatelyEqual, definitelyLessThan, definitelyGreaterThan holds; approximatelyEqual is symmetric and reflexive; definitelyLessThan(a,b) = definitelyGreaterThan(b,a) and implies a<b; a non-positive epsilon is rejected.", "quantifier": "all finite IEEE doubles a,b and eps>0", "why_tests_cant": "2^128+ input pairs with rounding and overflow in a-b", "anchors": ["sm_common/include/sm/numerical_comparisons.hpp: approximatelyEqual, definitelyGreaterThan, definitelyLessThan"]}
{"id": "C13", "title": "assertion macros throw exactly when the relation fails", "statement": "SM_ASSERT_GT/GE/LT/LE/EQ/NE/NEAR/\u2026 throws exactly when the stated relation between the values is false; in particular a NaN never passes a range assertion.", "quantifier": "all IEEE double operands including NaN and infinities", "why_tests_cant": "special values times every macro; requires the exact negated comparison used by each macro", "anchors": ["sm_common/include/sm/assert_macros.hpp: SM_ASSERT_GT, SM_ASSERT_GE, SM_ASSERT_LT, SM_ASSERT_LE, SM_ASSERT_EQ, SM_ASSERT_NEAR, SM_ASSERT_GE_LT"]}
{"id": "C14", "title": "rounding helpers", "statement": "sm::round(x) is a nearest integer to x with halves away from zero; rint/lrint return that integer when it is representable in the result type.", "quantifier": "all finite doubles", "why_tests_cant": "rounding of x+0.5 misbehaves only at a few of 2^64 inputs", "anchors": ["sm_common/include/sm/round.hpp: round, rint, lrint"]}
{"id": "C15", "title": "solveQuadratic returns the two roots or throws", "statement": "For a<>0 and b^2-4ac>=0 the two returned numbers are precisely the roots of a x^2+b x+c (with multiplicity); for a negative discriminant it throws.", "quantifier": "all coefficient triples", "why_tests_cant": "all real triples; the degenerate b=c=0 case divides zero by zero", "anchors": ["sm_common/include/sm/maths.hpp: solveQuadratic"]}
{"id": "C16", "title": "conjunctions of SM_CHECKSAME/SM_CHECKMEMBERSSAME mean all members equal", "statement": "An isBinaryEqual written as M1 && M2 && ... with the provided macros returns true exactly when every listed member compares equal.", "quantifier": "all member comparison outcomes and all numbers of conjuncts", "why_tests_cant": "it is a property of the macro's expansion for every combination of outcomes", "anchors": ["sm_common/include/sm/serialization_macros.hpp: SM_CHECKSAME, SM_CHECKMEMBERSSAME", "sm_kinematics/src/Transformation.cpp: isBinaryEqual", "sm_kinematics/include/sm/kinematics/implementation/UncertainVector.hpp: isBinaryEqual", "sm_opencv/include/sm/opencv/serialization.hpp: isBinaryEqual"]}
{"id": "C17", "title": "isSame on (shared) pointers compares pointees", "statement": "For pointers and shared_ptrs, the member comparison is true iff both are null or both are non-null with same pointees, and no null pointer is ever dereferenced.", "quantifier": "all pointer pairs and pointee comparisons", "why_tests_cant": "all null/non-null combinations times every nesting of pointers", "anchors": ["sm_common/include/sm/serialization_macros.hpp: IsSame, detail::*"]}
{"id": "C18", "title": "nanosecond/second conversion", "statement": "secToNsec(nsecToSec(t)) = t exactly for |t| < 2^52 ns, and differs from t by at most 1 + |t|/2^50 ns for |t| <= 2^62 ns, where it is always defined; both conversions are monotone.", "quantifier": "all int64 nanosecond counts", "why_tests_cant": "2^64 values with two roundings and one truncation", "anchors": ["sm_timing/src/NsecTimeUtilities.cpp: nsecToSec, secToNsec"]}
{"id": "C19", "title": "isValid distinguishes the invalid time", "statement": "isValid(t) is true exactly when t is not getInvalidTime().", "quantifier": "all int64 values", "why_tests_cant": "2^64 values", "anchors": ["sm_timing/src/NsecTimeUtilities.cpp: isValid, getInvalidTime"]}
{"id": "C20", "title": "chrono conversions round trip", "statement": "With a nanosecond system clock chronoToNsec(nsecToChrono(t)) = t and nsecToChrono(chronoToNsec(c)) = c; with a coarser tick the round trip is off by less than one tick, towards zero.", "quantifier": "all int64 values", "why_tests_cant": "2^64 values", "anchors": ["sm_timing/src/NsecTimeUtilities.cpp: nsecToChrono, chronoToNsec"]}
{"id": "C21", "title": "timestamp corrector rejects time going backwards without side effects", "statement": "correctTimestamp throws TimeWentBackwardsException exactly when the remote time is not greater than the last accepted one (nothing accepted yet: never), and a throwing call leaves the corrector unchanged.", "quantifier": "all histories of calls", "why_tests_cant": "unbounded call histories", "anchors": ["sm_timing/include/sm/timing/implementation/TimestampCorrector.hpp: correctTimestamp"]}
{"id": "C22", "title": "the stored hull is the lower convex hull of the accepted samples", "statement": "After any sequence of calls, the retained points are accepted samples, strictly increasing in remote time, form a convex chain from the first to the latest accepted sample, and every accepted sample lies on or above the chain (indeed above the line through every edge).", "quantifier": "all histories of accepted samples", "why_tests_cant": "unbounded sample sequences; geometric invariant", "anchors": ["sm_timing/include/sm/timing/implementation/TimestampCorrector.hpp: correctTimestamp, isAboveTopLine, isAboveLine"]}
{"id": "C23", "title": "corrected time never exceeds the local arrival time", "statement": "Every value returned by correctTimestamp(remote, local) is <= local, and as long as the estimate comes from at least three points getLocalTime of every accepted sample's remote time never exceeds its recorded local time.", "quantifier": "all histories of accepted samples", "why_tests_cant": "unbounded sample sequences", "anchors": ["sm_timing/include/sm/timing/implementation/TimestampCorrector.hpp: correctTimestamp, getLocalTime"]}
{"id": "C24", "title": "the corrector never indexes out of its hull", "statement": "In every reachable state with at least two accepted samples, getLocalTime, getSlope and getOffset are defined and use the two adjacent hull points around the middle of the hull; with fewer samples they throw NotInitializedException.", "quantifier": "all histories of accepted samples", "why_tests_cant": "index arithmetic across all hull shapes", "anchors": ["sm_timing/include/sm/timing/implementation/TimestampCorrector.hpp: correctTimestamp, getLocalTime, getSlope, getOffset"]}
{"id": "C25", "title": "long-running correction switches to the pending corrector", "statement": "With correctTimestamp(remote,local,switchingPeriod) and non-negative periods the estimate always comes from a final window of the accepted samples: the window is replaced by the pending (shorter) one when its span exceeds the period, a pending window is running whenever the span exceeds half a period, and the guard, the hull property and <= local hold throughout; nothing is undefined.", "quantifier": "all histories and switching periods", "why_tests_cant": "unbounded histories with state switches", "anchors": ["sm_timing/include/sm/timing/implementation/TimestampCorrector.hpp: correctTimestamp(\u2026, switchingPeriod), getSpan, reset"]}
{"id": "C26", "title": "integer instantiation is free of overflow", "statement": "With int64 timestamps (the instantiation exported to Python) no intermediate of correctTimestamp overflows for timestamps spanning realistic recordings (hours in nanoseconds).", "quantifier": "all int64 sample sequences in a stated range", "why_tests_cant": "overflow depends on the geometry of arbitrary samples", "anchors": ["sm_timing/include/sm/timing/implementation/TimestampCorrector.hpp: isAboveLine, correctTimestamp", "sm_python/src/exportTimestampCorrector.cpp"]}
{"id": "C27", "title": "timer registry maps tags and handles one to one", "statement": "Timing::getHandle returns the same handle for the same tag forever, different tags never share a handle, handles are dense, and getTag(getHandle(t)) = t; creating timers never disturbs the statistics of others.", "quantifier": "all sequences of registry operations", "why_tests_cant": "arbitrary histories of tag creation", "anchors": ["sm_timing/src/Timer.cpp: Timing::getHandle, Timing::getTag"]}
{"id": "C28", "title": "timer state machine counts exactly the completed intervals", "statement": "start/stop alternate (violations throw and change nothing), each completed start/stop pair adds exactly one sample to its own handle, destruction of a running timer adds one, and totals/min/max/mean/count equal those of the list of samples since the last reset.", "quantifier": "all operation sequences over many timers", "why_tests_cant": "arbitrary histories", "anchors": ["sm_timing/src/Timer.cpp: Timer::start, Timer::stop, Timing::addTime, Timing::reset, getTotalSeconds, getMeanSeconds, getNumSamples"]}
{"id": "C29", "title": "secondsToTimeString fields are in range", "statement": "secondsToTimeString(s) for s >= 0 decomposes s into hours, minutes < 60 and seconds < 60 whose recombination is s (to the printed precision).", "quantifier": "all non-negative second counts", "why_tests_cant": "rounding to 6 decimals can carry at boundary values only", "anchors": ["sm_timing/src/Timer.cpp: secondsToTimeString"]}
{"id": "C30", "title": "every scheduled job runs at most once, in FIFO start order", "statement": "In every interleaving each scheduled job is started at most once, jobs are started in the order scheduled, no job is lost (scheduled = waiting + running + finished) and with one worker jobs do not overlap.", "quantifier": "all schedules, numbers of workers and jobs", "why_tests_cant": "thread interleavings", "anchors": ["sm_boost/src/JobQueue.cpp: exec_loop, scheduleWork"]}
{"id": "C31", "title": "waitForEmptyQueue returns only when all earlier work is finished", "statement": "When waitForEmptyQueue returns, at that moment no job is waiting or running.", "quantifier": "all schedules", "why_tests_cant": "thread interleavings", "anchors": ["sm_boost/src/JobQueue.cpp: waitForEmptyQueue, exec_loop"]}
{"id": "C32", "title": "join stops all workers and keeps unstarted jobs", "statement": "After join() returns no worker is running, no job is running, and the jobs not started are still in the queue in order.", "quantifier": "all schedules", "why_tests_cant": "thread interleavings", "anchors": ["sm_boost/src/JobQueue.cpp: join, stop, exec_loop"]}
{"id": "C33", "title": "join always returns", "statement": "If every job terminates, join() returns in every fair schedule (no lost wake-up).", "quantifier": "all fair schedules", "why_tests_cant": "needs one specific interleaving between the predicate test and the wait", "anchors": ["sm_boost/src/JobQueue.cpp: join, stop, exec_loop"]}
{"id": "C34", "title": "destroying a JobQueue is safe", "statement": "The destructor returns only after every worker has left the object, so no worker touches the mutex or the queue after destruction.", "quantifier": "all schedules, including destruction directly after start()", "why_tests_cant": "needs a specific interleaving of thread start and destruction", "anchors": ["sm_boost/src/JobQueue.cpp: ~JobQueue, start, exec_loop"]}
{"id": "C35", "title": "scheduleFuture delivers each result to its own future", "statement": "The future returned by scheduleFuture(f) becomes ready with the value (or exception) of exactly its own f, if and when that job ran.", "quantifier": "all schedules and job sets", "why_tests_cant": "thread interleavings", "anchors": ["sm_boost/include/sm/boost/implementation/JobQueue.hpp: scheduleFuture"]}
{"id": "C36", "title": "archive save/load round trip", "statement": "Loading a file written by save() into an empty archive yields exactly the same set of named matrices (bit for bit, same shape) and strings, for every valid archive.", "quantifier": "all archives with valid names and sizes below 2^32", "why_tests_cant": "unbounded archives; byte-level codec", "anchors": ["sm_matrix_archive/src/MatrixArchive.cpp: save, load, writeMatrix, writeString, readBlock"]}
{"id": "C37", "title": "only valid names enter the archive", "statement": "Every name in the archive is 1-32 characters, starts with a letter and contains only letters, digits and '_', whatever operations are performed and whatever file is loaded.", "quantifier": "all operation histories and files", "why_tests_cant": "arbitrary histories and file contents", "anchors": ["sm_matrix_archive/src/MatrixArchive.cpp: validateName, setMatrix, setString, createMatrix, load"]}
{"id": "C38", "title": "a truncated or corrupted archive is detected", "statement": "Loading a strict prefix of a saved file that does not end at a block boundary throws, never returns wrong data silently and never has undefined behaviour; a prefix ending on a block boundary loads exactly the complete blocks.", "quantifier": "all archives and all crash points (prefix lengths)", "why_tests_cant": "every crash offset of every file", "anchors": ["sm_matrix_archive/src/MatrixArchive.cpp: readBlock, readMatrix, readString, readName"]}
{"id": "C39", "title": "load merges and filters by name", "statement": "load(file, names) adds or overwrites exactly the entries of the file whose name is in `names` (all if empty) and leaves every other entry of the archive unchanged.", "quantifier": "all archives, files and name sets", "why_tests_cant": "the domain is unbounded, so a finite suite only samples it", "anchors": ["sm_matrix_archive/src/MatrixArchive.cpp: load"]}
{"id": "C40", "title": "accessors behave as one map from names to matrix or string", "statement": "The archive acts as a finite map from names to either a matrix or a string: after a set the get of the same name and kind returns that value, other names are unaffected, and a name denotes at most one kind.", "quantifier": "all operation histories", "why_tests_cant": "arbitrary histories", "anchors": ["sm_matrix_archive/src/MatrixArchive.cpp: setMatrix, setVector, setScalar, setString, getMatrix, getVector, getScalar, getString, createMatrix"]}
{"id": "C41", "title": "append adds the archive's content to the file", "statement": "append(file) leaves the previous file content in place and adds the archive's entries after it.", "quantifier": "all archives and files", "why_tests_cant": "the domain is unbounded, so a finite suite only samples it", "anchors": ["sm_matrix_archive/src/MatrixArchive.cpp: append"]}
{"id": "C42", "title": "clear removes entries", "statement": "clear() empties the archive and clear(name) removes the entry with this name, whether matrix or string, and nothing else.", "quantifier": "all archives and names", "why_tests_cant": "the domain is unbounded, so a finite suite only samples it", "anchors": ["sm_matrix_archive/src/MatrixArchive.cpp: clear"]}
{"id": "C43", "title": "the MATLAB functions read and write the same format", "statement": "saveMatrixArchive.m output loads with load(), and loadMatrixArchive.m reads save()'s matrices unchanged.", "quantifier": "all archives", "why_tests_cant": "the domain is unbounded, so a finite suite only samples it", "anchors": ["sm_matrix_archive/matlab/loadMatrixArchive.m", "sm_matrix_archive/matlab/saveMatrixArchive.m", "sm_matrix_archive/src/MatrixArchive.cpp: readBlock"]}
{"id": "C44", "title": "property tree read-your-writes", "statement": "After setX(key,v), getX(key) returns v and doesKeyExist(key) is true, for every key path with non-empty components.", "quantifier": "all trees, keys and values", "why_tests_cant": "the domain is unbounded, so a finite suite only samples it", "anchors": ["sm_property_tree/src/BoostPropertyTreeImplementation.cpp: set*, get*, doesKeyExist"]}
{"id": "C45", "title": "setting a key does not disturb other keys", "statement": "setX(key,v) changes the value seen at no other key path; the only keys it can create are the given one and its ancestors, those ancestors get an empty value, and no child is listed twice.", "quantifier": "all trees and key pairs", "why_tests_cant": "the domain is unbounded, so a finite suite only samples it", "anchors": ["sm_property_tree/src/BoostPropertyTreeImplementation.cpp: set*"]}
{"id": "C46", "title": "namespaces compose", "statement": "A child tree view opened with a relative namespace reads key k at the parent's namespace/child/k; absolute keys and absolute child namespaces are independent of the view; opening a then b equals opening a/b.", "quantifier": "all namespaces and keys", "why_tests_cant": "the domain is unbounded, so a finite suite only samples it", "anchors": ["sm_property_tree/src/PropertyTree.cpp: ConstPropertyTree, PropertyTree, buildQualifiedKeyName", "sm_property_tree/include/sm/PropertyTree.hpp"]}
{"id": "C47", "title": "defaulted reads", "statement": "get with a default returns the stored value if the key exists and parses, the default otherwise; the const version modifies nothing, the mutable version makes later reads return the same value.", "quantifier": "all trees, keys and defaults", "why_tests_cant": "the domain is unbounded, so a finite suite only samples it", "anchors": ["sm_property_tree/src/BoostPropertyTreeImplementation.cpp: get*(key,default)"]}
{"id": "C48", "title": "update merges trees", "statement": "update(other) overrides exactly the keys of `other` and keeps all others; with updateOnly it throws on the first key that does not exist and never creates a key; with ignoreEmptyUpdates keys with blank values in `other` never change the target.", "quantifier": "all pairs of trees", "why_tests_cant": "the domain is unbounded, so a finite suite only samples it", "anchors": ["sm_property_tree/src/BoostPropertyTreeImplementation.cpp: update, traverse, merge"]}
{"id": "C49", "title": "inline configuration strings parse to the written tree", "statement": "loadString turns a/b=v,c{d=e} into the tree with exactly these keys and values, rejects quotes and unmatched braces.", "quantifier": "all strings of the grammar", "why_tests_cant": "unbounded grammar", "anchors": ["sm_property_tree/src/BoostPropertyTreeImplementation.cpp: loadString"]}
{"id": "C50", "title": "configuration loading order and termination", "statement": "Loading a list of files applies parents before children and earlier files before later ones, each file at most once, and terminates for every (also cyclic) parent relation.", "quantifier": "all parent graphs and file lists", "why_tests_cant": "arbitrary graphs", "anchors": ["sm_property_tree/src/BoostPropertyTreeLoader.cpp"]}
{"id": "C51", "title": "file resolution picks the first existing candidate", "statement": "resolveFullFilePath returns absolute paths (and any path when there are no search paths) unchanged; a path starting with ./ or ../ is taken relative to the including file if that exists (or as it is at top level if it exists); otherwise the first existing candidate in search-path x infix order, and if none exists searchPath1/infix1/path.", "quantifier": "all search paths, infixes, file systems", "why_tests_cant": "the domain is unbounded, so a finite suite only samples it", "anchors": ["sm_property_tree/src/BoostPropertyTreeLoader.cpp: resolveFullFilePath"]}
{"id": "C52", "title": "layered value store: the first layer having a key wins", "statement": "A read from a layered store returns the value from the first layer that has the key, the default only if no layer has it, and throws when no layer has it and there is no default.", "quantifier": "all layer stacks, keys and defaults", "why_tests_cant": "the domain is unbounded, so a finite suite only samples it", "anchors": ["sm_value_store/include/sm/value_store/LayeredValueStore.hpp", "sm_value_store/src/ValueStore.cpp"]}
{"id": "C53", "title": "prefixed value store", "statement": "In ADD mode key k is looked up as prefix/k in the underlying store, in REMOVE mode prefix/k is looked up as k and any other key is absent; hasKey agrees with get, and nothing reads uninitialised memory.", "quantifier": "all prefixes, keys and stores", "why_tests_cant": "the domain is unbounded, so a finite suite only samples it", "anchors": ["sm_value_store/src/PrefixedValueStore.cpp"]}
{"id": "C54", "title": "verbose value store is transparent", "statement": "Every query on a VerboseValueStore returns what the wrapped store returns.", "quantifier": "all stores and queries", "why_tests_cant": "the domain is unbounded, so a finite suite only samples it", "anchors": ["sm_value_store/src/VerboseValueStore.cpp"]}
{"id": "C55", "title": "findPathAndAlert picks the first existing alternative", "statement": "Given a list of alternative names, in which a deprecated name is written with a leading '!' and followed by its message, the first name that exists in the store is used; the alert handler is called exactly once, with that name and its message, if it is a deprecated one, and not at all otherwise; messages are never taken for names, and the result is a name of the list.", "quantifier": "all alternative lists and stores", "why_tests_cant": "the domain is unbounded, so a finite suite only samples it", "anchors": ["sm_value_store/include/sm/value_store/ValueStore.hpp: findPathAndAlert", "sm_value_store/src/ValueStore.cpp"]}
{"id": "C56", "title": "child value stores", "statement": "getChild(a).getChild(b) and getChild(a/b) see the same values, and getChild(a).get(k) = get(a/k).", "quantifier": "all stores and paths", "why_tests_cant": "the domain is unbounded, so a finite suite only samples it", "anchors": ["sm_value_store/src/ValueStore.cpp", "sm_value_store/src/PropertyTreeValueStore.cpp", "sm_value_store/src/PrefixedValueStore.cpp"]}
{"id": "C57", "title": "value handles", "statement": "An updateable handle writes through to its key: after update(v) reading the key yields v; non-updateable handles refuse.", "quantifier": "all stores, keys, values", "why_tests_cant": "the domain is unbounded, so a finite suite only samples it", "anchors": ["sm_value_store/include/sm/value_store/ValueStore.hpp: ValueHandle", "sm_value_store/src/PropertyTreeValueStore.cpp"]}
{"id": "C58", "title": "log filtering is always up to date", "statement": "After every setLevel/enableNamedStream/disableNamedStream, a log statement (whose stream name is the same at every execution) is emitted iff its condition holds, its level is at least the current threshold and its stream is enabled, whether or not the statement was executed before; with several threads the same holds relative to getLevel()/isNamedStreamEnabled() as soon as no call is in progress.", "quantifier": "all histories of configuration changes and log statements", "why_tests_cant": "cache coherence over histories", "anchors": ["sm_logging/src/LoggingGlobals.cpp: checkLogLocationEnabledNoLock, initializeLogLocation, setLevel, enableNamedStream, disableNamedStream", "sm_logging/include/sm/logging/console.hpp: SMCONSOLE_DEFINE_LOCATION"]}
{"id": "C59", "title": "print delivers once and never recurses", "statement": "Each emitted statement is handed to the current logger exactly once; recursive log statements from inside the logger are dropped; after shutdown nothing is delivered.", "quantifier": "all histories of prints, nested prints, shutdown and logger exceptions", "why_tests_cant": "nested calls and failures", "anchors": ["sm_logging/src/LoggingGlobals.cpp: print"]}
{"id": "C60", "title": "concurrent logging configuration cannot deadlock", "statement": "No interleaving of enabling/disabling streams and first executions of log statements deadlocks.", "quantifier": "all schedules", "why_tests_cant": "lock-order interleaving", "anchors": ["sm_logging/src/LoggingGlobals.cpp: initializeLogLocation, enableNamedStream, disableNamedStream"]}
{"id": "C61", "title": "once and throttle", "statement": "A once-statement is emitted at most once; a throttled statement with period r emits two successive messages at least r apart and emits whenever at least r has passed.", "quantifier": "all execution histories and clocks", "why_tests_cant": "histories of clock readings", "anchors": ["sm_logging/include/sm/logging/console.hpp", "sm_logging/include/sm/logging/macros.h"]}
{"id": "C62", "title": "stream names are normalised", "statement": "addDefaultPrefixIfMissing yields 'sm' or a name starting with 'sm.', leaves such names alone, prefixes every other name, is idempotent, and identifies x with sm.x exactly when x is not itself 'sm' or of the form 'sm.y'.", "quantifier": "all names", "why_tests_cant": "the domain is unbounded, so a finite suite only samples it", "anchors": ["sm_logging/src/LoggingGlobals.cpp: addDefaultPrefixIfMissing"]}
{"id": "C63", "title": "level names parse", "statement": "Logger level names parse: each of the eleven level names in any letter case gives its level through fromString, and every other text gives Info.", "quantifier": "all strings", "why_tests_cant": "all strings", "anchors": ["sm_logging/src/Levels.cpp"]}
{"id": "C64", "title": "formatter", "statement": "For every format string, the formatter prints literal text unchanged and each known ${token} replaced by the event's value; tokens registered by the user print their value and unknown tokens are printed verbatim; with colours, the level's colour code precedes and the reset code follows; a newline ends the line.", "quantifier": "all format strings and events", "why_tests_cant": "the domain is unbounded, so a finite suite only samples it", "anchors": ["sm_logging/src/Formatter.cpp"]}
{"id": "C65", "title": "quaternion algebra", "statement": "qplus is associative with unit quatIdentity, its norm is multiplicative, qoplus(q,p)=qplus(p,q), the matrices quatPlus/quatOPlus implement them, quatInv is the inverse of a unit quaternion, and quatS/quatInvS are inverse on the tangent space.", "quantifier": "all quaternions (exact arithmetic)", "why_tests_cant": "all real inputs: equalities of polynomials and trigonometric functions over a continuum", "anchors": ["sm_kinematics/src/quaternion_algebra.cpp: qplus, qoplus, quatPlus, quatOPlus, quatInv, quatS, quatInvS"]}
{"id": "C66", "title": "unit quaternions act as rotations", "statement": "quat2r of a unit quaternion is orthonormal with determinant 1, quat2r(qplus(q,p)) = quat2r(q) quat2r(p), quat2r(quatInv q) is the transpose, and quatRotate(q,v) = quat2r(q) v.", "quantifier": "all unit quaternions (exact arithmetic)", "why_tests_cant": "all real inputs: equalities of polynomials and trigonometric functions over a continuum", "anchors": ["sm_kinematics/src/quaternion_algebra.cpp: quat2r, quatRotate"]}
{"id": "C67", "title": "r2quat inverts quat2r", "statement": "For every rotation matrix R, r2quat(R) is a unit quaternion with non-negative scalar part and quat2r(r2quat(R)) = R; r2quat(quat2r(q)) = +-q.", "quantifier": "all rotation matrices (exact arithmetic)", "why_tests_cant": "all real inputs: equalities of polynomials and trigonometric functions over a continuum", "anchors": ["sm_kinematics/src/quaternion_algebra.cpp: r2quat"]}
{"id": "C68", "title": "axisAngle2quat gives the unit quaternion of the rotation", "statement": "axisAngle2quat(a) is a unit quaternion, equals (sin(|a|/2) a/|a|, cos(|a|/2)), and the small-angle branch agrees with it up to working precision.", "quantifier": "all rotation vectors (exact arithmetic)", "why_tests_cant": "all real inputs: equalities of polynomials and trigonometric functions over a continuum", "anchors": ["sm_kinematics/src/quaternion_algebra.cpp: axisAngle2quat"]}
{"id": "C69", "title": "quaternion logarithm inverts the exponential", "statement": "quat2AxisAngle(axisAngle2quat(a)) = a for 0<|a|<2*pi and axisAngle2quat(quat2AxisAngle(q)) = q for unit q away from the cut locus.", "quantifier": "all rotation vectors/unit quaternions (exact arithmetic)", "why_tests_cant": "all real inputs: equalities of polynomials and trigonometric functions over a continuum", "anchors": ["sm_kinematics/src/quaternion_algebra.cpp: quat2AxisAngle, arcSinXOverX"]}
{"id": "C70", "title": "Euler rotation matrices", "statement": "Rx,Ry,Rz,rph2R are rotation matrices, rph2R(x,y,z)=Rz(z)Ry(y)Rx(x), Cx,Cy,Cz are the transposes, rph2C=CzCyCx and Euler classes build the matrices of their convention.", "quantifier": "all angles (exact arithmetic)", "why_tests_cant": "all real inputs: equalities of polynomials and trigonometric functions over a continuum", "anchors": ["sm_kinematics/src/rotations.cpp: Rx, Ry, Rz, rph2R, Cx, Cy, Cz, rph2C", "sm_kinematics/src/EulerAnglesZYX.cpp", "sm_kinematics/src/EulerAnglesZXY.cpp", "sm_kinematics/src/EulerAnglesYawPitchRoll.cpp"]}
{"id": "C71", "title": "Euler angles are recovered", "statement": "R2rph(rph2R(x,y,z)) = (x,y,z) for |y|<pi/2 and |x|,|z|<pi, likewise C2rph/rph2C, fromTEuler/toTEuler and the Euler classes.", "quantifier": "all angles in range (exact arithmetic)", "why_tests_cant": "all real inputs: equalities of polynomials and trigonometric functions over a continuum", "anchors": ["sm_kinematics/src/rotations.cpp: R2rph, C2rph", "sm_kinematics/src/EulerAnglesZYX.cpp: rotationMatrixToParameters", "sm_kinematics/src/EulerAnglesZXY.cpp: rotationMatrixToParameters", "sm_kinematics/src/EulerAnglesYawPitchRoll.cpp: rotationMatrixToParameters", "sm_kinematics/src/transformations.cpp: toTEuler, fromTEuler"]}
{"id": "C72", "title": "axisAngle2R agrees with the quaternion path", "statement": "axisAngle2R(a) is a rotation matrix equal to quat2r(axisAngle2quat(a)) and RotationVector's matrix; axisAngle2R(angle,axis) is defined for every angle, also negative ones.", "quantifier": "all angles and unit axes (exact arithmetic)", "why_tests_cant": "all real inputs: equalities of polynomials and trigonometric functions over a continuum", "anchors": ["sm_kinematics/src/rotations.cpp: axisAngle2R", "sm_kinematics/src/RotationVector.cpp: parametersToRotationMatrix"]}
{"id": "C73", "title": "inverseTransform inverts rigid transforms", "statement": "inverseTransform(T) T = T inverseTransform(T) = I for every rigid T, the result is rigid, and the only matrices it inverts are those whose 3x3 block is orthonormal (rotation or reflection) with bottom row 0 0 0 1.", "quantifier": "all 4x4 rigid transforms (exact arithmetic)", "why_tests_cant": "all real inputs: equalities of polynomials and trigonometric functions over a continuum", "anchors": ["sm_kinematics/src/transformations.cpp: inverseTransform, rt2Transform"]}
{"id": "C74", "title": "Transformation is a group acting on points", "statement": "For all transformations with unit quaternions: T(a*b)=T(a)T(b), (a*b)*p = a*(b*p) for Euclidean and homogeneous points, a*a.inverse() is the identity, composition is associative, and every operation keeps the quaternion unit.", "quantifier": "all transformations and points (exact arithmetic)", "why_tests_cant": "all real inputs: equalities of polynomials and trigonometric functions over a continuum", "anchors": ["sm_kinematics/src/Transformation.cpp: operator*, inverse, T, C"]}
{"id": "C75", "title": "Transformation::isBinaryEqual compares both parts", "statement": "Transformation::isBinaryEqual is true exactly when rotation and translation agree; likewise UncertainVector and cv::Mat comparison.", "quantifier": "all pairs of transformations", "why_tests_cant": "pairs differing in one member only", "anchors": ["sm_kinematics/src/Transformation.cpp: isBinaryEqual", "sm_kinematics/include/sm/kinematics/implementation/UncertainVector.hpp: isBinaryEqual", "sm_opencv/include/sm/opencv/serialization.hpp: isBinaryEqual"]}
{"id": "C76", "title": "interpolation hits its end points and stays on the sphere", "statement": "qslerp/lerp/slerpTransformations/interpolateTransformations return the first transformation at (or before) the start time and the second at (or after) the end, qslerp keeps unit norm, and exchanging the end points does not change interpolateTransformations.", "quantifier": "all transformations and times (exact arithmetic)", "why_tests_cant": "all real inputs: equalities of polynomials and trigonometric functions over a continuum", "anchors": ["sm_kinematics/src/quaternion_algebra.cpp: qslerp, lerp", "sm_kinematics/src/Transformation.cpp: interpolateTransformations, slerpTransformations"]}
{"id": "C77", "title": "homogeneous point arithmetic equals Euclidean arithmetic", "statement": "For finite points toEuclidean(p+q) = toEuclidean(p)+toEuclidean(q), likewise minus and scale, toHomogeneousPlus/Minus implement them, and transforming a HomogeneousPoint commutes with toEuclidean.", "quantifier": "all homogeneous points (exact arithmetic)", "why_tests_cant": "all real inputs: equalities of polynomials and trigonometric functions over a continuum", "anchors": ["sm_kinematics/src/HomogeneousPoint.cpp", "sm_kinematics/src/homogeneous_coordinates.cpp"]}
{"id": "C78", "title": "homogeneous coordinate conversion and Jacobians", "statement": "fromHomogeneous(toHomogeneous(v)) = v, columns likewise, fromHomogeneous is scale invariant and the returned Jacobians are the derivatives.", "quantifier": "all vectors (exact arithmetic)", "why_tests_cant": "all real inputs: equalities of polynomials and trigonometric functions over a continuum", "anchors": ["sm_kinematics/src/homogeneous_coordinates.cpp"]}
{"id": "C79", "title": "covariances stay symmetric positive semidefinite", "statement": "Composition, inversion and transformation of uncertain transformations/points/vectors turn symmetric positive semidefinite covariances into symmetric positive semidefinite ones; inverse().inverse() restores mean and covariance; composition is associative including covariance.", "quantifier": "all transformations and covariances (exact arithmetic)", "why_tests_cant": "all real inputs: equalities of polynomials and trigonometric functions over a continuum", "anchors": ["sm_kinematics/src/UncertainTransformation.cpp", "sm_kinematics/src/UncertainHomogeneousPoint.cpp", "sm_kinematics/include/sm/kinematics/implementation/UncertainVector.hpp"]}
{"id": "C80", "title": "adding a certain point equals adding a point with zero covariance", "statement": "For an UncertainHomogeneousPoint u and a HomogeneousPoint p, u+p has the covariance of u + UncertainHomogeneousPoint(p), and the Euclidean covariance of u+p equals that of u.", "quantifier": "all points and covariances (exact arithmetic)", "why_tests_cant": "all real inputs: equalities of polynomials and trigonometric functions over a continuum", "anchors": ["sm_kinematics/src/UncertainHomogeneousPoint.cpp: operator+, operator-", "sm_kinematics/src/HomogeneousPoint.cpp: operator+"]}
{"id": "C81", "title": "Euler-Rodriguez parameters", "statement": "parametersToRotationMatrix is a rotation matrix for every parameter and rotationMatrixToParameters inverts it.", "quantifier": "all parameters (exact arithmetic)", "why_tests_cant": "all real inputs: equalities of polynomials and trigonometric functions over a continuum", "anchors": ["sm_kinematics/src/EulerRodriguez.cpp"]}
{"id": "C82", "title": "rotation vector parameters are recovered", "statement": "RotationVector::rotationMatrixToParameters(parametersToRotationMatrix(p)) = p for |p|<pi and gives a vector of the same rotation for |p|=pi.", "quantifier": "all rotation vectors up to pi (exact arithmetic)", "why_tests_cant": "all real inputs: equalities of polynomials and trigonometric functions over a continuum", "anchors": ["sm_kinematics/src/RotationVector.cpp"]}
{"id": "C83", "title": "S matrices map parameter rates to angular velocity", "statement": "For every smooth parameter curve, omega = S(p) pdot satisfies dC/dt = -[omega]x C (library sign convention), and the returned Jacobian is the derivative of omega.", "quantifier": "all parameters and rates (exact arithmetic)", "why_tests_cant": "all real inputs: equalities of polynomials and trigonometric functions over a continuum", "anchors": ["sm_kinematics/src/EulerAnglesZYX.cpp", "sm_kinematics/src/EulerAnglesZXY.cpp", "sm_kinematics/src/EulerAnglesYawPitchRoll.cpp", "sm_kinematics/src/EulerRodriguez.cpp", "sm_kinematics/src/RotationVector.cpp"]}
{"id": "C84", "title": "angleMod", "statement": "angleMod(x) differs from x by a multiple of 2*pi and lies in [-pi,pi].", "quantifier": "all finite angles", "why_tests_cant": "all real inputs: equalities of polynomials and trigonometric functions over a continuum", "anchors": ["sm_kinematics/src/rotations.cpp: angleMod"]}
{"id": "C85", "title": "box operators", "statement": "boxMinus(p) dt = -boxPlus(dt) p and boxTimes is the adjoint: T boxPlus(dt) T^-1 = boxPlus(boxTimes(T) dt), boxTimes(T1 T2)=boxTimes(T1) boxTimes(T2).", "quantifier": "all rigid transforms and perturbations (exact arithmetic)", "why_tests_cant": "all real inputs: equalities of polynomials and trigonometric functions over a continuum", "anchors": ["sm_kinematics/src/transformations.cpp: boxPlus, boxMinus, boxTimes"]}
{"id": "C86", "title": "Eigen matrix serialization round trip", "statement": "A matrix saved and loaded into an object of the same type (fixed or dynamic) is restored exactly; loading a wrong size into a fixed-size type throws; no element access happens on an empty matrix.", "quantifier": "all matrices and type combinations", "why_tests_cant": "the domain is unbounded, so a finite suite only samples it", "anchors": ["sm_eigen/include/sm/eigen/serialization.hpp"]}
{"id": "C87", "title": "random numbers are in range", "statement": "randLU(l,u) is in [l,u) and randLUi(l,u) in {l..u-1} for every generator output in [0,1).", "quantifier": "all bounds and generator outputs", "why_tests_cant": "rounding can reach the upper bound only for rare inputs", "anchors": ["sm_random/src/random.cpp: randLU, randLUi"]}
{"id": "C88", "title": "matrix square root", "statement": "If the LDLT decomposition of A with transpositions P and non-negative D is exact, computeMatrixSqrt returns S with S S^T = A.", "quantifier": "all sizes and matrices (exact arithmetic)", "why_tests_cant": "the domain is unbounded, so a finite suite only samples it", "anchors": ["sm_eigen/include/sm/eigen/matrix_sqrt.hpp"]}
{"id": "C89", "title": "central differences are exact on quadratics", "statement": "estimateJacobian returns the exact Jacobian for every map whose components are polynomials of degree at most two in each coordinate, calls f only at x0 and x0 +- step along one axis, and leaves x0 unchanged.", "quantifier": "all quadratic maps, points and step sizes (exact arithmetic)", "why_tests_cant": "the domain is unbounded, so a finite suite only samples it", "anchors": ["sm_eigen/include/sm/eigen/NumericalDiff.hpp"]}
{"id": "C90", "title": "point cloud alignment is a least-squares rigid transform", "statement": "threePointSvd returns a rigid transform (proper rotation) mapping the centroid of the second cloud to that of the first, for every orthogonal U,V the SVD may return; given a true SVD no rigid transform has a smaller sum of squared distances, and a rigidly moved cloud is mapped back exactly (the very motion if the points are not collinear). qMethod returns a rotation matrix that minimizes the weighted squared error over all rotations, and recovers an exact rotation; clouds or weights of different sizes and negative weights are errors.", "quantifier": "all clouds of any size and all SVD results (exact arithmetic)", "why_tests_cant": "the domain is unbounded, so a finite suite only samples it", "anchors": ["sm_kinematics/src/three_point_methods.cpp"]}
{"id": "C91", "title": "reset() restarts the corrector", "statement": "After reset() the corrector answers every later sequence of calls like a newly constructed one.", "quantifier": "every corrector state and every later sequence of calls, both overloads", "why_tests_cant": "The stale pending corrector only matters for particular histories (periodic use past half a period, then reset, then smaller remote times).", "anchors": ["sm_timing/include/sm/timing/TimestampCorrector.hpp: reset", "sm_timing/include/sm/timing/implementation/TimestampCorrector.hpp: correctTimestamp(3)"]}
{"id": "C92", "title": "no scheduled job is left behind while a worker sleeps", "statement": "In every interleaving of scheduling, waiting and stopping there is no lost wake-up on the work queue: whenever a job is waiting in the queue, no worker sleeps without a notification still to be delivered that covers it; and a worker never takes a job from an empty queue.", "quantifier": "all schedules, including spurious wake-ups", "why_tests_cant": "thread interleavings", "anchors": ["sm_boost/src/JobQueue.cpp: scheduleWork, exec_loop"]}
{"id": "C93", "title": "getChildren lists the node of the view", "statement": "getChildren of a view returns exactly the children of the node the view's namespace names, in order, and fails if there is no such node.", "quantifier": "all trees and namespaces", "why_tests_cant": "the domain is unbounded, so a finite suite only samples it", "anchors": ["sm_property_tree/src/BoostPropertyTreeImplementation.cpp: getChildren", "sm_property_tree/src/PropertyTree.cpp: getChildren"]}
{"id": "C94", "title": "findFile", "statement": "findFile(name, var) returns exactly dir/name (one separator) for the directory dir in the environment variable if that exists; it throws if the variable is unset or the file does not exist.", "quantifier": "all environments, file systems, names", "why_tests_cant": "the domain is unbounded, so a finite suite only samples it", "anchors": ["sm_property_tree/src/BoostPropertyTreeSupport.cpp: findFile"]}
{"id": "C95", "title": "a value store seen as a property tree", "statement": "Reading a key through asPropertyTree, in any namespace, returns what the store returns at the path the namespace and key name (and throws when it throws), and key existence agrees.", "quantifier": "all stores, namespaces, keys, types and defaults", "why_tests_cant": "the domain is unbounded, so a finite suite only samples it", "anchors": ["sm_value_store/src/PropertyTreeValueStore.cpp: asPropertyTree"]}
{"id": "C96", "title": "typed reads: which texts are integers and booleans", "statement": "getInt succeeds exactly on texts of optional blanks, an optional sign, digits and optional blanks whose value is in int range, and returns that value; any other text at an existing key raises InvalidValue. getBool accepts true, false, 1 and 0 with surrounding blanks and returns the value meant.", "quantifier": "all stored texts", "why_tests_cant": "the set of texts is unbounded", "anchors": ["sm_property_tree/include/sm/BoostPropertyTreeImplementation.hpp: get"]}
{"id": "C97", "title": "update Jacobians are derivatives", "statement": "The Jacobians returned by HomogeneousPoint::toHomogeneousAndJacobian and toEuclideanAndJacobian are the derivatives with respect to oplus at a zero update; transformationAndJacobian and inverseTransformationAndJacobian multiplied by Transformation::S are the derivatives of T*v and T^-1*v with respect to Transformation::oplus; normalizeAndJacobian and quatJacobian are the derivatives of normalization and updateQuat.", "quantifier": "every point, transformation and every differentiable curve of updates through zero", "why_tests_cant": "A derivative is a limit over all directions; a finite-difference test samples a few with rounding error.", "anchors": ["sm_kinematics/src/HomogeneousPoint.cpp:HomogeneousPoint::toEuclideanAndJacobian", "sm_kinematics/src/transformations.cpp:inverseTransformationAndJacobian", "sm_kinematics/src/Transformation.cpp:Transformation::S", "sm_kinematics/include/sm/kinematics/homogeneous_coordinates.hpp:normalizeAndJacobian"]}
{"id": "C98", "title": "covariances are first-order propagation", "statement": "The covariance an operation on uncertain transformations, uncertain homogeneous points, uncertain vectors and uncertain scalars returns is the sum over its uncertain operands of J E J^T, where E is the operand's covariance and J is the derivative of the operation with respect to that operand's perturbation (oplus for transformations and points, addition for vectors and scalars).", "quantifier": "every operation, operand and covariance, vectors of every dimension (exact arithmetic)", "why_tests_cant": "A derivative is a limit over all directions at every one of infinitely many operands.", "anchors": ["sm_kinematics/src/UncertainTransformation.cpp: operator*, inverse, setUOplus", "sm_kinematics/src/UncertainHomogeneousPoint.cpp: operator+, operator-, normalize", "sm_kinematics/include/sm/kinematics/implementation/UncertainVector.hpp", "sm_kinematics/include/sm/kinematics/UncertainVector.hpp"]}
{"id": "C99", "title": "seeding determines the following random numbers", "statement": "After seed(s), the sequence of values returned by any sequence of calls to the random functions depends only on s and that sequence of calls, whatever was called before.", "quantifier": "all prior histories, seeds and call sequences", "why_tests_cant": "hidden generator/distribution state (for example a cached second normal sample) only shows for particular histories", "anchors": ["sm_random/src/random.cpp: seed, uniform, normal, rand, randn, randLU, randLUi"]}
{"id": "C100", "title": "Jacobians of the quaternion exponential and logarithm", "statement": "quatExpJacobian(v) is the derivative of the quaternion exponential (axisAngle2quat) at every rotation vector v, and quatLogJacobian(q)/quatLogJacobian2(q) are the derivative of the quaternion logarithm (quat2AxisAngle) at every unit quaternion q where the logarithm is smooth, the identity included; expDiffMat(v) and logDiffMat(v) are inverse matrices, and the Jacobian of the logarithm is a left inverse of the Jacobian of the exponential.", "quantifier": "every rotation vector, unit quaternion and direction of motion", "why_tests_cant": "The Jacobians are checked against finite differences at sampled points; the branches near zero, at the half turn and at the full turn are rarely sampled.", "anchors": ["sm_kinematics/src/quaternion_algebra.cpp: quatLogJacobian, expDiffMat, quatExpJacobian, logDiffMat, quatLogJacobian2 (416-533)"]}
{"id": "C101", "title": "OpenCV matrix serialization round trip", "statement": "Saving any two-dimensional cv::Mat (continuous or a region of a larger one) to an archive and loading it into any cv::Mat gives the same shape, element type and element bytes, leaves the archive at the item written next, changes no memory but the target's own elements, and never reads outside the matrix; the same for cv::KeyPoint.", "quantifier": "every matrix header valid over every memory, every target header, every archive tail", "why_tests_cant": "The unit test saves one continuous matrix into an empty one; the outcome depends on shape, step, continuity flag and the target's previous state.", "anchors": ["sm_opencv/include/sm/opencv/serialization.hpp: save, load for cv::Mat (106-132); serialize for Point2f, KeyPoint (43-60)"]}
{"id": "C102", "title": "kinematics objects survive serialization", "statement": "Saving a Transformation, UncertainTransformation, HomogeneousPoint, UncertainHomogeneousPoint or UncertainVector and loading it gives the same members, one object or many in a row; a truncated archive, an archive of a newer class version or of another class raises an exception, and a load that raises leaves the object as it was.", "quantifier": "every object, every target, every archive tail, every cut position", "why_tests_cant": "Tests round-trip one random object; cut positions, mixed archives and the state after an exception range over all archives.", "anchors": ["sm_kinematics/include/sm/kinematics/Transformation.hpp: save, load (151-163)", "sm_kinematics/include/sm/kinematics/UncertainTransformation.hpp: save, load (91-107)", "sm_kinematics/include/sm/kinematics/HomogeneousPoint.hpp (115-125)", "sm_kinematics/include/sm/kinematics/UncertainHomogeneousPoint.hpp (90-102)", "sm_kinematics/include/sm/kinematics/UncertainVector.hpp (83-97, 182-196)"]}
{"id": "C103", "title": "saving to a file means it can be loaded", "statement": "If boost_serialization::save, save_txt or save_xml returns, the corresponding load from the same path restores the object, with any tag; no other file changes; a path that cannot be opened raises std::runtime_error and changes nothing; a file of another format is refused; a save that raises leaves the previous file.", "quantifier": "every object, path, tag, disk content and device capacity", "why_tests_cant": "Full devices, invalid tags and unopenable paths are not exercised; the claim is about all of them.", "anchors": ["sm_boost/include/sm/boost/serialization.hpp: save, load, save_txt, load_txt, save_xml, load_xml (15-104)"]}
{"id": "C104", "title": "transformations from configuration", "statement": "transformationFromPropertyTree on any view returns exactly when the seven numbers q_a_b/{x,y,z,w} and t_a_b_a/{x,y,z} below that view can be read, throws what the first unreadable one throws otherwise, and the result has a unit quaternion parallel to the one written and exactly the translation written.", "quantifier": "every tree, view, number translation and number", "why_tests_cant": "Only one configuration is ever tried; missing keys, unparsable texts and degenerate quaternions range over all trees.", "anchors": ["sm_eigen/include/sm/eigen/property_tree.hpp: vector3FromPropertyTree, quaternionFromPropertyTree (10-29)", "sm_kinematics/include/sm/kinematics/property_tree.hpp: transformationFromPropertyTree (10-16)"]}
{"id": "C105", "title": "Variables sent to Matlab are read back unchanged", "statement": "On a running Matlab engine, after any sequence of put/putEigen calls with legal names, every assigned name holds the value of the last assignment to it (get of the same type returns true and exactly that value), unassigned variables are untouched, get changes nothing, returns false exactly when there is no variable of that name, and throws rather than converting when the type does not fit.", "quantifier": "all histories of assignments, names, values (doubles, booleans, integers, strings, matrices of any size) and previous workspaces", "why_tests_cant": "Ranges over unbounded histories and values; requires a Matlab installation; 64-bit integers, int64 matrices and empty values are corner cases.", "anchors": ["sm_matlab/include/sm/matlab/Engine.hpp: Engine::put, Engine::putEigen", "sm_matlab/src/Engine.cpp: Engine::put, Engine::get, Engine::getEigen"]}
{"id": "C106", "title": "The Matlab engine refuses calls before start-up and names that are none", "statement": "Whatever was called before and whenever Matlab dies, a member of Engine either answers or throws: if the engine is not initialised it throws EngineNotInitializedException and changes nothing, if the name is not a legal variable name it throws InvalidVariableNameException before Matlab is asked; initialize is idempotent and stop undoes it.", "quantifier": "all histories of calls, with Matlab dying at any point, all constructors and all names", "why_tests_cant": "Every history and crash point of an external process.", "anchors": ["sm_matlab/src/Engine.cpp: Engine::Engine, initialize, stop, isInitialized, exists, assertIsInitialized, assertValidVariableName"]}
{"id": "C107", "title": "Calls to Matlab leak nothing and return the whole output", "statement": "Every member of Engine frees the arrays and buffers it obtains, whatever its outcome, so that the memory in use does not depend on the number of calls; executeCommand returns exactly what the command printed without the final line break, and good() is true exactly if Matlab answers the test command.", "quantifier": "all histories of calls, workspaces, commands and outputs of any length", "why_tests_cant": "Leaks have no effect on the results of calls; the length of the output is unbounded.", "anchors": ["sm_matlab/src/Engine.cpp: Engine::exists, isScalar, isEmpty, isCharOrString, getDimensions, get, getEigen, put, executeCommand, good"]}
{"id": "C108", "title": "Python operators on transformations and points are those of C++", "statement": "In the sm Python module, for objects a and b of the classes Transformation, UncertainTransformation, HomogeneousPoint, UncertainHomogeneousPoint and numpy vectors, a*b, a+b, a-b and a.inverse() give the same class and value, covariance included, as the same expression in C++; constructing from, copying or pickling an object yields an equal one.", "quantifier": "all operand classes and values, and all orders in which overloads may be registered", "why_tests_cant": "Which overload is taken depends on the registration order and on the class of every operand; a dropped covariance leaves the mean right.", "anchors": ["sm_python/src/exportTransformation.cpp: exportTransformation", "sm_python/src/exportHomogeneousPoint.cpp: exportHomogeneousPoint", "sm_python/include/sm/python/boost_serialization_pickle.hpp: pickle_suite"]}
{"id": "C109", "title": "getDouble reads decimal numbers as the nearest double", "statement": "getDouble(key) returns a value exactly if the stored text is a decimal number (blanks, optional sign, digits with at most one point, optional exponent, blanks) that does not overflow, and then returns the double nearest to that number (ties to even) with its sign; otherwise it throws.", "quantifier": "all texts", "why_tests_cant": "unbounded texts; correct rounding at every magnitude", "anchors": ["sm_property_tree/src/BoostPropertyTreeImplementation.cpp: getDouble", "sm_property_tree/include/sm/BoostPropertyTreeImplementation.hpp: get"]}
{"id": "C110", "title": "doubles survive a property tree bit for bit", "statement": "After setDouble(key,x), getDouble(key) returns exactly x (sign of zero included) for every double x, whatever was stored before; a missing or unreadable key read with a default by the mutable getter stores exactly that default.", "quantifier": "all doubles, trees and keys", "why_tests_cant": "2^64 values; every decimal/binary rounding boundary", "anchors": ["sm_property_tree/src/BoostPropertyTreeImplementation.cpp: setDouble, getDouble", "sm_property_tree/include/sm/BoostPropertyTreeImplementation.hpp: set, get"]}
{"id": "C111", "title": "compareRelative compares two numbers up to a percentage", "statement": "compareRelative(a,b,p) returns true exactly if a and b are both negligible or differ by at most p percent of the larger magnitude (up to rounding); the order of a and b does not matter; NaN and infinities are never accepted against another number; on failure *percentError is the actual difference in percent, on success it is not written.", "quantifier": "all doubles a, b and tolerances", "why_tests_cant": "2^192 argument triples, NaN and rounding boundaries; the helper decides whether other tests pass", "anchors": ["sm_eigen/include/sm/eigen/gtest.hpp: compareRelative"]}
{"id": "C112", "title": "matrix assertions pass exactly for matching matrices", "statement": "assertEqual, assertNear, expectNear, assertFinite and ASSERT_DOUBLE_MX_EQ report a failure if the sizes differ and otherwise pass exactly if every coefficient (pair) passes: equal, at most tol apart, finite, relatively close; NaN never passes; no call reads outside of the matrices.", "quantifier": "all matrices of all sizes, all tolerances", "why_tests_cant": "all sizes including mismatched ones, all values", "anchors": ["sm_eigen/include/sm/eigen/gtest.hpp: assertEqual, assertNear, expectNear, assertFinite, ASSERT_DOUBLE_MX_EQ"]}
{"id": "C113", "title": "random covariances are covariances", "statement": "randomCovariance returns a symmetric, positive definite matrix whose eigenvalues are at least 5, whatever was drawn.", "quantifier": "all dimensions and all random matrices", "why_tests_cant": "random input, every dimension", "anchors": ["sm_eigen/include/sm/eigen/gtest.hpp: randomCovariance, randomCovarianceXd"]}
{"id": "C114", "title": "ExtendibleValueStoreRef.set is a dictionary assignment", "statement": "From Python, store.set(key, value) followed by the getter of the value's type gives the value back, for str, bool, int and float; other keys are not changed; a history of assignments leaves every key with the value it was last set to.", "quantifier": "all histories of set calls, keys (in any spelling) and values", "why_tests_cant": "the histories, keys and values are unbounded, and the outcome of a set depends on what was stored before", "anchors": ["sm_python/python/sm/__init__.py setExtendableValueStoreValue", "sm_python/src/exportValueStoreRef.cpp", "sm_value_store/src/ValueStore.cpp"]}
{"id": "C115", "title": "logging from Python obeys the same filter as C++", "statement": "A message logged from Python through sm.log, sm.logNamed or one of the convenience functions logFinest ... logFatal(Named) reaches the logger exactly if its level is at least the logging level and its stream is enabled, at the level in the function's name, with the text and stream it was given and the file, line and function of the caller; a C++ statement for the same stream and level would emit in exactly the same cases.", "quantifier": "all histories of level and stream changes, streams, messages, call stacks", "why_tests_cant": "histories of configuration changes, stream names and messages are unbounded", "anchors": ["sm_python/python/sm/__init__.py", "sm_python/src/Logging.cpp", "sm_logging/src/LoggingGlobals.cpp"]}
{"id": "C116", "title": "ids cross into Python and back", "statement": "Every id converted to Python becomes an integer and is converted back to the same id; different ids give different integers; the unset id becomes -1; every Python int, and every long that is a 64-bit id, is accepted, converted to an id with the same value modulo 2^64, and comes back unchanged when it is below 2^63. The order of ids is the order of their Python values.", "quantifier": "all ids, all Python ints and longs", "why_tests_cant": "2^64 ids and unboundedly many Python longs", "anchors": ["sm_python/include/sm/python/Id.hpp"]}
{"id": "C117", "title": "progress reports are the linear extrapolation of the elapsed time", "statement": "The first call of sample only starts the clock; every later call reports the number of steps since then, the elapsed time, and elapsed * numIterations / iteration as total; the remaining time printed is total - elapsed in hours, minutes and whole seconds; when sample is called once per iteration the last call reports iteration n of n; reset starts over.", "quantifier": "all histories of sample and reset calls at all times", "why_tests_cant": "histories and times are unbounded", "anchors": ["sm_python/python/sm/Progress.py"]}
{"id": "C118", "title": "showProgress prints the true percentage", "statement": "showProgress(done, all) refuses a total that is not positive; for 0 <= done <= all it prints Complete exactly when done = all and otherwise the percentage 100 done / all with two decimals, rounded to nearest; more work done never shows a smaller number; a progress outside of [0, 1] is refused in builds with assertions.", "quantifier": "all integers done and all, builds with and without assertions", "why_tests_cant": "2^128 argument pairs and the rounding boundaries of double arithmetic and of decimal output", "anchors": ["sm_common/src/progress_info.cpp: showProgress", "sm_common/include/sm/progress_info.hpp: showProgress"]}
{"id": "C119", "title": "MatrixArchive seen from Python, and lsma", "statement": "For every sequence of calls a Python program can make on a MatrixArchive (clear, clearOne, load, setMatrix, setVector, setScalar, setString): every name in the archive is valid, so save() never fails on a name and load() of the saved file into a new archive gives the same asDict() and stringsAsDict(); asDict()[n] is getMatrix(n) and stringsAsDict()[n] is getString(n) for every n, the keys appear once and in increasing order, getNameList() is the keys of asDict(), size() is the number of entries of both dictionaries, getScalar/getVector answer exactly for entries of the right shape; getNameList() lists every name [false for strings]; setting all entries of the two dictionaries in a new archive rebuilds the archive [true only if no name is both a matrix and a string]. lsma prints for each file the strings and then the matrices in increasing order of names, with the path in front exactly if several files were given, and stops at the first file that cannot be loaded.", "quantifier": "every sequence of Python calls, every loaded file content, every name; every list of files", "why_tests_cant": "The claim ranges over all call histories and all file contents; a test sees a few.", "anchors": ["sm_python/src/exportMatrixArchive.cpp: getNameList, asDict, stringsAsDict, exportMatrixArchive", "sm_matrix_archive/src/lsma.cpp: main"]}
{"id": "C120", "title": "a property tree survives an INFO file", "statement": "For every property tree without data at the root: saveInfo (asInfoString) followed by loadInfo gives the same tree, whatever the nesting, the order and repetition of keys and the characters in keys and values. A quoted value may be continued over any number of lines with a backslash, comments between them being skipped, and loads as the concatenation; without the backslash the next line is a new key. [False for keys beginning with '#', which fail or include another file, and for a quoted key followed by an unquoted value that begins with a backslash in the file; the data of the root is never written. Proved for all other trees; for trees without '#' keys it is proved that loading fails exactly in the backslash case and then leaves the old tree.]", "quantifier": "every property tree (any depth, any bytes in keys and values), every tree loaded into", "why_tests_cant": "The trees and strings are unbounded; quoting, escaping and comment characters interact.", "anchors": ["sm_property_tree/src/BoostPropertyTreeImplementation.cpp: saveInfo, asInfoString, loadInfo"]}
{"id": "C121", "title": "property trees in INI files", "statement": "saveIni returns normally exactly for trees without data at the root whose keys are distinct and whose children are values or sections (nodes without data, with distinct keys, whose children have no children). If moreover keys, section names and values avoid the characters the format uses and have no blanks at their ends, loadIni gives the same tree with the top-level values before the sections, so every path has the same value. [Without the last condition values and keys change silently: refuted by examples.]", "quantifier": "every property tree, every tree loaded into", "why_tests_cant": "Ranges over all trees and all byte strings.", "anchors": ["sm_property_tree/src/BoostPropertyTreeImplementation.cpp: saveIni, loadIni"]}
{"id": "C122", "title": "property trees in JSON files", "statement": "saveJson returns normally exactly if the root has no data and no node has both data and children; then, if all keys and values are UTF-8, loadJson of the file gives the same tree, including arrays (nodes whose children all have empty keys), control characters and repeated keys. If it throws, the file is left empty. [Text that is not UTF-8 is saved but cannot be loaded: refuted.]", "quantifier": "every property tree, every tree loaded into", "why_tests_cant": "Ranges over all trees and all byte strings; arrays, objects and escapes nest arbitrarily.", "anchors": ["sm_property_tree/src/BoostPropertyTreeImplementation.cpp: saveJson, loadJson"]}
{"id": "C123", "title": "load and save choose the format by the file name", "statement": "BoostPropertyTree::load and save use a format exactly if the file name ends in .xml, .ini, .json or .info (lower case), the same one for both; any other name makes them throw without touching tree or file; a failing load leaves the tree unchanged; save followed by load of the same name gives the tree back for every tree the format can store, and no other file changes. A failing save leaves the old file intact [false].", "quantifier": "every path, every file system content, every tree", "why_tests_cant": "Ranges over all paths and trees.", "anchors": ["sm_property_tree/src/BoostPropertyTree.cpp: getFileFormatAndThrowIfUnknown, load, save"]}
{"id": "C124", "title": "corrector line is accurate in double arithmetic", "statement": "When the double or the int64 corrector estimates from two hull points with whole-number coordinates below 2^52, getSlope returns the slope of the line through them to within half a unit in the last place, getOffset and getLocalTime return that line at 0 and at the remote time to within 2^-53 (|y1| + 4 |slope * (r - x1)|); for int64 the local time is truncated towards zero after that, and the conversion is defined whenever the line stays within 2^62.", "quantifier": "all pairs of hull points and all remote times that are whole numbers below 2^52", "why_tests_cant": "rounding errors over all doubles", "anchors": ["sm_timing/include/sm/timing/implementation/TimestampCorrector.hpp: getSlope, getOffset, getLocalTime", "sm_python/src/exportTimestampCorrector.cpp"]}
{"id": "C125", "title": "Saving a property tree to XML and loading it back", "statement": "With the static flags humanReadableInputOutput and ignoreComments left alone, saveXml(f) followed by loadXml(f) (or loadXmlFromString of the text) replaces the tree by an identical one: same values, attributes, comments, children, order. It holds whenever the root has no value, keys are XML names, values contain no NUL character, only leaves serve as attributes or comments, and in human-readable mode values have no leading, trailing or repeated blanks; in particular any tree that loadXml produced from any file and whose text is clean in this sense saves and reloads unchanged. loadXml either succeeds or throws and leaves the tree as it was. It fails for keys with blanks and for a root value (the file written cannot be read), repeated blanks in human-readable mode, a mode change between save and load, and comments when comments are ignored (the default).", "quantifier": "every property tree, both values of both static flags, every file content", "why_tests_cant": "Trees, keys and values are unbounded; escaping, indentation and nesting interact for every string and every depth.", "anchors": ["sm_property_tree/src/BoostPropertyTreeImplementation.cpp: saveXml, loadXml, loadXmlFromString, getXmlReadOptions", "sm_property_tree/include/sm/BoostPropertyTree.hpp: setHumanReadableInputOutput, setIgnoreComments"]}
{"id": "C126", "title": "Which texts loadJson accepts", "statement": "loadJson accepts exactly the texts of RFC 8259's grammar (optionally after a byte order mark; raw control characters in strings and UTF-8 checked only by lead bytes are the extensions of the reader), gives each exactly one tree (object member = child with its key, array element = child with the empty key, scalar = data), and on every other text throws and leaves the old tree. Every tree saveJson can write with valid UTF-8 keys and values is such a text with itself as meaning.", "quantifier": "every byte string as file, every old tree", "why_tests_cant": "The set of texts is infinite and recursive; acceptance of all and only the valid ones cannot be sampled.", "anchors": ["sm_property_tree/src/BoostPropertyTreeImplementation.cpp: loadJson, saveJson"]}
{"id": "C127", "title": "Value stores in files", "statement": "A value store made from a file, or saved to one, holds what the tree in that file holds: fromFile(path) after saveTo(path) answers every query as before; canSave() is true exactly if saveTo does not refuse; isEmpty() says whether there are children; the same holds of child stores and wrapped stores. [False: wrapped stores (verbose, layered, prefixed) can never be saved although what they wrap can; saveTo of a child store writes the whole tree; isEmpty of a child store looks at the whole tree.]", "quantifier": "every tree the format can hold, every path, every store shape", "why_tests_cant": "The stores, trees and wrappers nest without bound.", "anchors": ["sm_value_store/src/PropertyTreeValueStore.cpp: canSave, saveTo, fromFile, isEmpty, getBptPtr"]}
{"id": "C128", "title": "What loadXml reads", "statement": "Every XML file of the stated grammar (elements with attributes in either kind of quotes and blanks anywhere XML allows them, text with the five named entities and decimal and hexadecimal character references, CDATA sections, comments, processing instructions, a document type with nested brackets, an optional byte order mark) loads, and gives the tree it stands for: attributes under <xmlattr>, texts concatenated as the data, child elements in order, comments as <xmlcomment> unless ignored; in human readable mode blanks at the ends of texts do not count and inner runs are one blank. saveXml writes the declaration first. Malformed files are rejected. [The last is false: mismatched end tags, several top-level elements, bare ampersands and hexadecimal digits in decimal references are accepted.]", "quantifier": "every file of the grammar, both modes, comments kept or ignored, every old tree", "why_tests_cant": "The grammar is recursive and the texts unbounded.", "anchors": ["sm_property_tree/src/BoostPropertyTreeImplementation.cpp: loadXml, loadXmlFromString, getXmlReadOptions, saveXml"]}
{"id": "C129", "title": "The time in a log line", "statement": "The time text a logger produces (currentTimeString) is the clock's reading truncated to whole microseconds, written exactly: seconds, a point and six digits, with a minus sign before the epoch. Different microseconds give different texts, and log lines sorted as texts are sorted by time. [Proved until 2^33 seconds after the epoch, the year 2242 (sorting: from 2001 on); afterwards false: readings a microsecond apart give the same text.]", "quantifier": "every reading of the nanosecond system clock", "why_tests_cant": "The rounding of the division by a million and of the decimal conversion depends on every bit of the reading; there are 2^63 readings.", "anchors": ["sm_logging/src/Logger.cpp: Logger::currentTimeSecondsUtc, Logger::currentTimeString", "sm_logging/include/sm/logging/Logger.hpp"]}
{"id": "C130", "title": "Property trees from Python", "statement": "For every Python program over ConstPropertyTree, PropertyTree and BoostPropertyTree objects: reading calls change no tree and no file, and a refused call (wrong attribute, arguments or overflow) changes nothing at all; a tree reachable only through ConstPropertyTree objects never changes; what is set through one object is read, with the same type, through every object of the same tree and only there, so that after any program every key reads as it was last set; getXDefault answers the stored value or the default and stores nothing, getOrCreateX answers the same and stores it; reading k in a child opened at c is reading c/k in the parent; updateOrCreate overrides exactly the keys of the other tree; saving one tree and loading the file into another makes every key read the same. Every class offers getChild, and getOrCreateX exists for each of the four types. [The last sentence is false: getChild of a ConstPropertyTree always raises ArgumentError, and getOrCreateBool is exported under a misspelt name.]", "quantifier": "every program (sequence of constructor and method calls with any arguments), every state of the objects, trees and files", "why_tests_cant": "Programs are unbounded and objects alias the same tree in arbitrary ways.", "anchors": ["sm_python/src/exportPropertyTree.cpp: exportPropertyTree", "sm_property_tree/include/sm/PropertyTree.hpp: ConstPropertyTree, PropertyTree", "sm_property_tree/src/PropertyTree.cpp"]}
{"id": "C131", "title": "a log statement does what its macro says", "statement": "A statement SM_<LEVEL>[_STREAM][_COND|_ONCE|_THROTTLE][_NAMED](...) has no effect at all if it is compiled out or off; otherwise its condition is evaluated exactly once, and exactly if the message is due (always / condition true / never printed before / at least the period since its last message) its arguments are evaluated once, in the scope of the call, and one message goes to the stream sm or sm.<name> at the statement's level. Compiling with a higher SMCONSOLE_MIN_SEVERITY removes exactly the messages below it and changes nothing else.", "quantifier": "all programs of log statements, level and stream changes, all conditions, arguments, rates, clocks and compile-time thresholds", "why_tests_cant": "The effect depends on everything executed before and on every possible expression passed to the macro, including names and operators that interact with the macro text.", "anchors": ["sm_logging/include/sm/logging/console.hpp: SMCONSOLE_DEFINE_LOCATION, SM_LOG_COND, SM_LOG_ONCE, SM_LOG_THROTTLE", "sm_logging/include/sm/logging/macros_generated.hpp", "sm_logging/include/sm/logging/Levels.hpp: SMCONSOLE_SEVERITY_*"]}
{"id": "C132", "title": "assertions of sm_logging", "statement": "In a debug build SM_ASSERT, SM_ASSERT_MSG stop at a breakpoint exactly when their condition is false, after logging a fatal explanation; SM_BREAK always does; SM_ASSERT_CMD runs its command exactly when its condition is false. A condition that holds has no effect but its own evaluation; in a release build nothing is evaluated.", "quantifier": "all conditions, logging configurations and histories, build modes", "why_tests_cant": "The condition is an arbitrary expression pasted into the macro, and the explanation depends on the whole history of logging calls.", "anchors": ["sm_logging/include/sm/logging/assert.h: SM_ASSERT, SM_ASSERT_MSG, SM_ASSERT_CMD, SM_BREAK"]}
{"id": "C133", "title": "type traits", "statement": "For every type T: SameType is equality of types; StripReference/StripConstReference remove the reference (and const); StripConstPtr removes the pointer and the pointee's const; AddReference/AddConstReference/AddPtr/AddConstPtr give (const) reference and pointer types to the referred or pointed-to type without adding a second level; IsReferenceType/IsPointerType recognise references and pointers. No use is ambiguous.", "quantifier": "all C++ types", "why_tests_cant": "There are infinitely many types, and which partial specialisation is selected depends on the type's structure.", "anchors": ["sm_common/include/sm/typetraits.hpp"]}
{"id": "C134", "title": "The timing tables list every timer once, with its statistics, in the requested order", "statement": "After any history of getHandle, completed timings and resets, Timing::print and Timing::print(sort) return a table with the header and exactly one line per registered tag: the tag padded to the longest tag, the number of samples since the last reset in 7 columns, and - if there are samples - the total, the mean +- the standard deviation and [minimum, maximum] of those samples, each as H:MM:SS.UUUUUU text accurate to the last digit plus the rounding errors of the double accumulators. The sorted table lists the tags by decreasing total, mean, deviation, minimum, maximum or number of samples, tags without samples first.", "quantifier": "all histories over any tags and durations, all iteration orders of the hash map, all sort criteria", "why_tests_cant": "the error of the accumulated doubles and the order depend on every recorded duration; the standard deviation becomes NaN only for particular sequences", "anchors": ["sm_timing/src/Timer.cpp: Timing::print, secondsToTimeString, TimerMapValue, getHandle", "sm_timing/include/sm/timing/Timer.hpp: SortType"]}
{"id": "C135", "title": "Rigid transformations in double precision stay rigid and stay close to the exact motion", "statement": "A Transformation built in double arithmetic by any expression of constructors (quaternions of length between 2^-400 and 2^290), products and inverses - up to 2^30 operations - has a unit quaternion to within 8 roundings (2^-53) and a rotation matrix C() within 21 roundings of a true rotation, however long the expression; its quaternion is within 44 roundings per operation of the exact one, its matrix within 100 per operation, its translation and the image of any point within 1024 roundings per operation (times one plus the nesting of inversions) of the exact motion, relative to the lengths involved; nothing becomes infinite or NaN. Hence T*T.inverse() is the identity, and (A*B)*C equals A*(B*C), to within these bounds, whatever order Eigen uses to add the squares.", "quantifier": "all expressions, all doubles as quaternion and translation coefficients, all points, all orders of summation in squaredNorm, division or multiplication by the reciprocal in normalize", "why_tests_cant": "rounding errors of a chain depend on every coefficient; tests compare a few random transformations with a loose tolerance and never bound long chains", "anchors": ["sm_kinematics/src/Transformation.cpp: Transformation(q,t), inverse, operator*, C", "sm_kinematics/src/quaternion_algebra.cpp: qplus, quatInv, quatRotate, quat2r"]}
{"id": "C136", "title": "Rotation matrices become quaternions, in double precision, for every rotation", "statement": "r2quat run in double arithmetic on a matrix within d (at most 1e-4 per entry) of any rotation gives a finite quaternion with non-negative scalar part, of length one to within 6 d + 30 roundings (2^-53), within the same distance of an exact unit quaternion of that rotation, and its rotation matrix is within 13 d + 65 roundings of the rotation: no branch (not even half turns, where the trace is -1) loses accuracy or takes the root of a negative number. Rebuilding a Transformation from its own matrix T() keeps the translation bit for bit and the quaternion, up to its sign, to within 170 roundings; a Transformation built from a matrix moves every point as that rigid motion does.", "quantifier": "all rotations, all perturbed double matrices, all transformations whose quaternion is of unit length to rounding, all points", "why_tests_cant": "the four branches meet on surfaces of the rotation group; random tests rarely hit the places where square roots of nearly cancelled sums are taken", "anchors": ["sm_kinematics/src/quaternion_algebra.cpp: r2quat", "sm_kinematics/src/Transformation.cpp: Transformation(T), set, T"]}
{"id": "C137", "title": "angleMod, deg2rad and rad2deg in double precision", "statement": "angleMod(x) gives the angle x less a whole number of turns, between -pi and pi and with the same sine and cosine, for every double; deg2rad and rad2deg are accurate to rounding and undo each other. (False as stated: angleMod is exact only to 2 roundings of the input - 1e16 gives -4, outside the range, and 1e17 gives 0 - and the constant of deg2rad has 14 digits, so deg2rad(180) misses pi by more than 100 spacings. Proved: angleMod is a whole number of turns away from x, and preserves sine and cosine, to within 2^-53 (2|x|+9); it stays within pi + 2^-53(4|x|+30) and returns angles already inside unchanged; deg2rad within 154 roundings, rad2deg within 2.)", "quantifier": "all finite doubles up to 2^1000 (2^1017 for rad2deg), both the old and the new algorithm of boost::math::round", "why_tests_cant": "the loss depends on the magnitude of the angle; tests use a few angles of a few turns", "anchors": ["sm_kinematics/src/rotations.cpp: angleMod, deg2rad, rad2deg", "sm_kinematics/include/sm/kinematics/rotations.hpp: SM_2PI, SM_DEG2RAD, SM_RAD2DEG"]}
{"id": "C138", "title": "Rotation vectors to quaternions, updateQuat and oplus in double precision", "statement": "axisAngle2quat turns every rotation vector into the quaternion of that rotation, accurate to numerical precision (the comment in the code), of length one to within a few roundings; an orientation updated by any sequence of rotation vectors (updateQuat), and a transformation updated by any sequence of increments (oplus), stays finite, keeps length one and stays close to the exact orientation and position. (False as stated for vectors shorter than 2^-13: the series has the wrong sign, so (2^-14,0,0) is more than 16 spacings off whatever the C library. Proved: distance at most 2^-53 (11+6n), plus n^3/24 for short vectors; length within 11 roundings; over N updates the length drifts by at most 21 roundings per step - it is never renormalised - and the errors of the steps add up without growing; the position error is at most 2N roundings of the travelled path.)", "quantifier": "all rotation vectors of doubles up to length 2^100, all sequences of up to 2^30 updates, every C library whose sin and cos are within two roundings, every order in which Eigen adds the squares of the norm", "why_tests_cant": "the error depends on the length of the vector and accumulates over the sequence; a test sees a few vectors and loose tolerances", "anchors": ["sm_kinematics/src/quaternion_algebra.cpp: axisAngle2quat, updateQuat, isLessThenEpsilons4thRoot", "sm_kinematics/src/Transformation.cpp: Transformation::oplus"]}
{"id": "C139", "title": "Rotation matrices from angles, rotation vectors and Rodrigues parameters in double precision", "statement": "The matrix built from any finite parameters (rph2R, rph2C, Rx..Cz, parametersToRotationMatrix of the Euler angle, rotation vector and Euler-Rodriguez classes, axisAngle2R) is, coefficient by coefficient, within a fixed small number of roundings of the exact rotation matrix, hence orthonormal to that accuracy, and the quaternion made from it represents the same rotation. (Proved: principal rotations 3 roundings of 2^-53; Euler angles of any size 16, rows orthonormal to 56, quaternion to 126; Rodrigues parameters 33; rotation vectors 100 + 9 times the angle. False for axisAngle2R: rotations shorter than 1e-12 become exactly the identity, e.g. (2^-40,0,0) is 8000 roundings off where RotationVector is within 101; from 1e-12 on it is within 50 + 9 times the angle.)", "quantifier": "all finite angles; all rotation vectors up to length 10^12; all Rodrigues parameters up to length 2^290; every C library whose sin and cos are within two roundings; every order in which Eigen adds the squares", "why_tests_cant": "the bound must hold for every combination of angles, including huge and denormal ones; tests sample a few and compare with loose tolerances", "anchors": ["sm_kinematics/src/rotations.cpp: Rx, Ry, Rz, rph2R, rph2C, Cx, Cy, Cz, axisAngle2R", "sm_kinematics/src/EulerAnglesZYX.cpp: parametersToRotationMatrix", "sm_kinematics/src/EulerAnglesYawPitchRoll.cpp: parametersToRotationMatrix", "sm_kinematics/src/EulerAnglesZXY.cpp: parametersToRotationMatrix", "sm_kinematics/src/RotationVector.cpp: parametersToRotationMatrix", "sm_kinematics/src/EulerRodriguez.cpp: parametersToRotationMatrix"]}
{"id": "C140", "title": "Angles and rotation vectors read off rotation matrices in double precision", "statement": "Reading parameters off a rotation matrix in double precision (R2rph, C2rph, rotationMatrixToParameters of the Euler angle, rotation vector and Euler-Rodriguez classes) gives back the parameters the matrix was built from, to within rounding. (Proved for the five Euler angle pairs: for all outer angles up to the double nearest pi and middle angles up to the double nearest pi/2, the outer angles come back within 14 roundings of 2^-53 however close the middle angle is to a right angle, the middle one within (2.1/cos + 3.2) roundings where its cosine is at least 1e-6 and within 2.2e-8 always; on any finite matrix the outer angles exist and the middle one exists exactly if its entry is at most 1 in size. Rotation vectors up to 1e-3 short of a half turn come back within 5e-7, and within 1e-9 if longer than 1e-3; Euler-Rodriguez parameters p with 1e-3 <= |p| <= 1000 come back within 1e-10 (1 + |p|^2). False: the C() of a Transformation pitched by a right angle has C(2,0) = 1.0000000000000002 and its pitch is NaN; a rotation by 2^-27 and a half turn both read as no rotation; EulerRodriguez gives NaN on a matrix within 5 roundings of a rotation.)", "quantifier": "all finite angles in range; all finite matrices; all matrices within 200 roundings of a rotation; every C library whose sin, cos, asin, acos, atan2 are within two roundings and which returns NaN outside the domain; every order in which Eigen adds the squares", "why_tests_cant": "the failures sit on single doubles (a right angle, a half turn, angles below 1e-8) and the bounds must hold for all angles; random tests avoid the singular points", "anchors": ["sm_kinematics/src/rotations.cpp: R2rph, C2rph", "sm_kinematics/src/EulerAnglesZYX.cpp: rotationMatrixToParameters", "sm_kinematics/src/EulerAnglesYawPitchRoll.cpp: rotationMatrixToParameters", "sm_kinematics/src/EulerAnglesZXY.cpp: rotationMatrixToParameters", "sm_kinematics/src/RotationVector.cpp: rotationMatrixToParameters", "sm_kinematics/src/EulerRodriguez.cpp: rotationMatrixToParameters"]}
{"id": "C141", "title": "the exception of a failed assertion tells what failed and where", "statement": "When an SM_ASSERT_* (or, in a debug build, SM_ASSERT_*_DBG) macro throws, the exception's text consists of the exception type, file, line and function, the asserted relation as written in the program, the same relation with the actual values, which is false of them, and the user's message; type, position and message can be read back from the text; when the relation holds nothing changes; in release builds a _DBG macro evaluates nothing. (False: SM_ASSERT_NONPOSITIVE reports x >= 0.0, a relation that holds; the arguments are evaluated a second time for the text, so SM_ASSERT_EQ(E, i++, 1, ..) with i = 0 reports 1 == 1; doubles are shown with six digits, so 1.0000001 == 1 is reported as 1 == 1.)", "quantifier": "all macros, all ints and all doubles but NaN, all argument texts, types, files, functions, lines and messages; all arguments without side effects (and, in release, all arguments)", "why_tests_cant": "the text must be right for every macro, value and position; tests catch the exception and do not read it", "anchors": ["sm_common/include/sm/assert_macros.hpp: SM_THROW, SM_ASSERT_*, sm_throw_exception", "sm_common/include/sm/source_file_pos.hpp: toString, operator<<"]}
{"id": "C142", "title": "clock readings become seconds and microseconds", "statement": "On Windows, sm::gettimeofday gives the seconds and microseconds since 1970 of the system clock's reading, and writes only what it is asked for. It does so exactly for clock readings from 1970 until the seconds need more than 31 bits (refuted from 2038-01-19 03:14:08 on, when the seconds become negative, and before 1970). ptimeToTimeval should give the seconds and microseconds of a time; it has no return statement, so every call is undefined (refuted).", "quantifier": "all 64-bit clock readings, all time zones, null and non-null pointers; all times", "why_tests_cant": "a test sees today's clock only; the failing readings are in the future", "anchors": ["sm_logging/src/gettimeofday.hpp: gettimeofday", "sm_boost/include/sm/boost/ptime.hpp: ptimeToTimeval"]}
{"id": "C143", "title": "frames are drawn as they are, tabs in the order they were added, containers converted element by element", "statement": "plotCoordinateFrame draws a frame given by a rigid transformation as three lines of length |size| from the frame's origin along its x (red), y (green) and z (blue) axes, perpendicular and right handed; after any sequence of add_figure and delete_figure, show() shows one tab for each name that still has a figure, with the figure added last, in the order in which the names came in, and no window if there is none; stlToList appends the elements in order, stlToDict gives every key its last value and leaves the others alone. (False: plot2DCoordinateFrame on a two-dimensional axes draws four lines, the red and green ones showing the z coordinate over 0 and 1; on a three-dimensional axes it draws the x and y axes.)", "quantifier": "all unit quaternions, translations and sizes; all histories of calls; all ranges and previous contents", "why_tests_cant": "drawings are looked at, not checked; histories are unbounded", "anchors": ["sm_python/python/sm/plotCoordinateFrame.py: plotCoordinateFrame, plot2DCoordinateFrame", "sm_python/python/sm/PlotCollection.py: add_figure, delete_figure, show", "sm_python/include/sm/python/stl_converters.hpp: stlToList, stlToDict"]}
{"id": "C144", "title": "homogeneous points in double precision", "statement": "In double arithmetic: sums, differences and multiples of homogeneous points made from Euclidean points (scale 1), however nested, read back with toEuclidean exactly as plain vector arithmetic would give them, bit for bit; a Transformation acts on them bit for bit as on the plain vector. For other scales the Euclidean point of any nested sum or difference is right to a few roundings per operation, a Transformation keeps the scale and moves the coordinates to a few roundings, toEuclidean divides to two roundings and normalize gives length one to eight roundings. (False without range conditions: adding points multiplies their scales, so a point at distance one with scale 2 doubled ten times gives NaN and with scale 1/2 doubled eleven times becomes a point at infinity; toEuclidean is infinite for a scale of 2^-1074; normalize makes four coefficients 2^600 zero and the zero vector NaN.)", "quantifier": "all expressions of any depth over Euclidean points (infinities and NaN included); all expressions of up to 2^20 nodes whose multiplied scales stay within 2^-300..2^300 and whose coordinates stay below 2^300; all finite points; all summation orders of Eigen", "why_tests_cant": "the scale drifts with the number of additions; tests add two points", "anchors": ["sm_kinematics/src/HomogeneousPoint.cpp: operator+, operator-, scale, toEuclidean, normalize, convertToPoint, atInfinity", "sm_kinematics/src/homogeneous_coordinates.cpp: fromHomogeneous, toHomogeneous", "sm_kinematics/src/Transformation.cpp: operator*(HomogeneousPoint), operator*(Vector4d)"]}
{"id": "C145", "title": "severity macros: the header and the script that writes it", "statement": "For every value of SMCONSOLE_MIN_SEVERITY, including macros_generated.hpp defines SM_<SEVERITY>[_STREAM][_COND|_ONCE|_THROTTLE][_NAMED] for all eleven severities with the same parameters whatever the minimum, and nothing else; a call vanishes exactly if the minimum exceeds the severity and otherwise becomes the SM_LOG macro of the same variant with condition or rate, the level of that name, the stream name (package, or package dot name) and the message in their places, whatever tokens the arguments consist of; the severities are the numbers of the enumerators; a comma outside parentheses in a STREAM message is rejected at compile time at every minimum. Running generate_macros.py again reproduces the file. (False of the code: the script writes five severities only, so running it removes SM_ALL, SM_FINEST, SM_VERBOSE, SM_FINER, SM_TRACE and SM_FINE in all variants; the other five come out with the same meaning.)", "quantifier": "all integers for the minimum severity, all eleven severities, all sixteen variants, all argument texts with matching parentheses, all texts after the call", "why_tests_cant": "a test compiles with one minimum severity and a few calls; the arguments of a macro are arbitrary program text, and nobody runs the generator in a test", "anchors": ["sm_logging/include/sm/logging/macros_generated.hpp", "sm_logging/scripts/generate_macros.py: add_macro", "sm_logging/include/sm/logging/Levels.hpp: SMCONSOLE_SEVERITY_*, Level", "sm_logging/include/sm/logging/macros.h: SMCONSOLE_NAME_PREFIX, SMCONSOLE_DEFAULT_NAME, SMCONSOLE_MIN_SEVERITY"]}
{"id": "C146", "title": "4x4 transformation matrices in floating point", "statement": "For a 4x4 double matrix with last row (0,0,0,1) and rotation block within d of a rotation M (every stored Transformation's T() has d = 21 u, u = 2^-53; toTEuler's matrices 16 u): T*[p;w] keeps w exactly and its first three components are within (4d+9u)|p| + 9u|w||t| of M p + w t; inverseTransform's rotation block is the transpose bit for bit, its translation is within (4d+7u)|t| of -M^T t; applying T and then its inverse gives back the point within (9d+35u)(|p| + |w||t|) (224 u for T() of a stored Transformation); inverting twice gives back rotation block and last row bit for bit and the translation within (9d+15u)|t|; the two toTEuler overloads agree; fromTEuler(toTEuler) gives back the translation bit for bit and the angles as accurately as the Euler round trip; transformationAndJacobian returns the product and exactly its boxMinus matrix; inverseTransformationAndJacobian returns the product with the inverse and the exact Jacobian up to a few roundings; all whatever the order in which the matrix products are summed, with no overflow up to 2^400. (False: inverting twice is not the identity; fromTEuler of a stored Transformation's matrix can be NaN at pitch 90 degrees.)", "quantifier": "all 4x4 double matrices near a rigid motion, all rotations and distances d up to 1e-4, all finite points, scales and translations up to 2^400, all orders of summation, all accurate libm functions", "why_tests_cant": "a test evaluates a few matrices and compares with a tolerance picked by hand; the bound for every matrix, point and order of summation (compiler, vector width) needs a rounding error analysis", "anchors": ["sm_kinematics/src/transformations.cpp: rt2Transform, boxMinus, inverseTransform, fromTEuler, toTEuler, transformationAndJacobian, inverseTransformationAndJacobian", "sm_kinematics/src/Transformation.cpp: T"]}
{"id": "C147", "title": "the logarithm of a unit quaternion in double precision", "statement": "quat2AxisAngle (qlog) of a unit quaternion of doubles is the quaternion's rotation vector, of length at most a full circle, accurate to numerical precision, and axisAngle2quat turns it back into the quaternion. (Proved: for every quaternion of length one to within 32 roundings that has a positive scalar part or a vector part longer than 2^-400, the result is finite and within 64 u |v| of the exact rotation vector v, u = 2^-53, plus |v|^3/24 if |v| < 1/4090; the round trip comes back within (12 + 39|v|) u plus at most |v|^3/12 for such short vectors and has length one to 11 u. False as stated: the series term Scalar_(1/6) is an integer division, 0, so at (2^-14,0,0,1-2^-29) the result is more than a million roundings off whatever the C library; and minus the identity, (0,0,0,-1), gives three NaNs.)", "quantifier": "all quaternions of doubles of length one up to 32 roundings, on both sides of the half turn, every C library whose sin, cos, asin and acos are within two roundings, every order in which Eigen adds the squares", "why_tests_cant": "three branches with different error behaviour, a removable and a real singularity, and a series whose wrong coefficient shows only below 2^-13; a test samples a few quaternions with tolerances above the defect", "anchors": ["sm_kinematics/src/quaternion_algebra.cpp: quat2AxisAngle, arcSinXOverX, isLessThenEpsilons4thRoot, axisAngle2quat", "sm_kinematics/include/sm/kinematics/quaternion_algebra.hpp: qlog, qexp"]}
{"id": "C148", "title": "interpolation of quaternions, positions and transformations in double precision", "statement": "qslerp, lerp, slerpTransformations and interpolateTransformations of doubles return a finite quaternion and position the requested fraction of the short way from the first to the second, to numerical precision; at or before the start the first comes back and at or after the end the second; exchanging the two (time, transformation) pairs changes nothing. (Proved: for quaternions within 8u of length one and a parameter in (0,1), qslerp has length one to 29u and is within 206u of the exact point of the short arc, u = 2^-53, plus 4e-13 where the fraction of the turn is below 1/4000; lerp is within 3.1u((1-t)|a|+t|b|) + 2^-1000; slerpTransformations returns a valid transformation within 243u; interpolateTransformations, for times at least 1.001e-14 apart and below 2^1000, within 253u at the fraction (si-s0)/(s1-s0) of real arithmetic, as a rotation, position within 7u(|a|+|b|) + 2^-400. qslerp and lerp return the end points bit for bit, the exchange is exact for different times. False as stated: slerpTransformations and interpolateTransformations normalise once more, so that a transformation made by the constructor comes back at its own time with a changed bit.)", "quantifier": "all transformations, parameters and times in doubles within the ranges given, every C library within two roundings, every order in which Eigen adds four squares", "why_tests_cant": "a continuum of inputs through three nested branches (which of q and -q is nearer, two branches of the logarithm, two of the exponential) whose choices are themselves subject to rounding", "anchors": ["sm_kinematics/src/quaternion_algebra.cpp: qslerp, lerp", "sm_kinematics/src/Transformation.cpp: slerpTransformations, interpolateTransformations"]}
{"id": "C149", "title": "numerical Jacobians in double precision", "statement": "In doubles, estimateJacobian evaluates the function at the point and at points that differ from it in one coordinate by the step max(|x_c| eps, eps), all other coordinates bit for bit, returns the matrix of the central difference quotients, and approximates the derivative: for a function with three derivatives computed to within delta the entry is within 1.01 (K h^2/6 + delta/h) + (|F'| + h|F''|) (1.03 u/eps + 5u) of F', u = 2^-53, h the step, K a bound of the third derivative near the point; for a function whose derivative varies by at most L over three steps within 1.01 (L + delta/h) + |F'| (1.03 u/eps + 5u). With the default step the numerical derivative of the identity is 1 to 2^-26 at every point. (False: exactness on polynomials of degree two, or even one - at 1.1 the identity's numerical derivative is not 1; and 'any positive eps' - with 2^-60 the identity's derivative at 1 comes out as 0.)", "quantifier": "all functions from double vectors to double vectors with constant output size, all points below 2^900, all steps eps from 2^-40 to 1/2, both ways Eigen divides a vector by a number", "why_tests_cant": "functions, points and steps range over infinite sets; the loss of accuracy comes from how each point is rounded, which a few sample points with loose tolerances do not show", "anchors": ["sm_eigen/include/sm/eigen/NumericalDiff.hpp: NumericalDiffFunctor::update, NumericalDiff::estimateJacobian"]}
{"id": "C150", "title": "covariance arithmetic of uncertain vectors in double precision", "statement": "In doubles, whatever the order in which Eigen sums, the covariance J U J' computed for a linear map of an uncertain vector of dimension n is entry by entry within 2.02 n u (|J||U||J|')_ij + 4 n 2^-1075 (1 + sum |J_jk|) of the exact one (u = 2^-53); so its entries (i,j) and (j,i) differ by at most the two bounds and x'Fx is at least minus the corresponding form for a covariance U. Sums, differences and multiples of uncertain vectors keep symmetry bit for bit and nonnegative variances, with relative errors u (sums) and 2.01u (multiples, plus underflow); inner products and their variances are within the analogous bounds; uncertain scalars (+, -, *, /) keep a nonnegative variance. It is false that J U J' of a covariance is symmetric or has nonnegative variances, that a sum or a multiple of covariances is positive semidefinite, or that the variance of v.x is nonnegative.", "quantifier": "all dimensions up to 2^20, all doubles of magnitude at most 2^200, all summation orders", "why_tests_cant": "dimensions, entries and summation orders range over infinite sets; an indefinite covariance appears only for particular entries", "anchors": ["sm_kinematics/include/sm/kinematics/implementation/UncertainVector.hpp: operator*, operator+, operator-, dot, UncertainVector<1>"]}
{"id": "C151", "title": "covariances of uncertain transformations in double precision", "statement": "In doubles, whatever the order in which Eigen sums, boxTimes of a transformation with entries of the rotation at most 2 and translation at most 2^90 is a 6x6 matrix from which the covariance U1 + B U2 B' of a composition is computed within u|U1| + 21u (|B||U2||B|') + 2^-699, entry by entry, of the exact value for the stored doubles, B U B' (inverse, certain times uncertain) within 19u (|B||U||B|') + 2^-700, and the covariance J U J' + T P T' of a transformed point within the bounds of C150 (boxMinus is exact); up to those bounds the results are symmetric and positive semidefinite. It is false that the composition of two covariances has nonnegative variances: for the identity rotation there are a translation and a rank-one covariance with a negative computed variance.", "quantifier": "all rotations and translations in doubles of the given sizes, all covariances up to 2^200, all points up to 2^200, all summation orders", "why_tests_cant": "transformations, covariances and summation orders range over infinite sets; the tests compare with loose tolerances at random values", "anchors": ["sm_kinematics/src/UncertainTransformation.cpp: operator*, inverse", "sm_kinematics/src/transformations.cpp: boxTimes, boxMinus"]}
{"id": "C152", "title": "parameter rates and angular velocities in double precision", "statement": "In doubles, with a math library accurate to 2 ulp-halves (error at most 2u relative, u = 2^-53) and any summation order: for finite parameters, the matrix S mapping parameter rates to angular velocity computed by EulerAnglesZyx, Ypr and EulerAnglesZXY is within 6u of the exact one entry by entry, EulerRodriguez' (norm up to 2^290) within 14u (21u inside angularVelocityAndJacobian), RotationVector's within 175u of the exact formula for norms up to 1e12 (of the identity, whose rates it replaces below 1e-14, correspondingly); the angular velocity S pdot is within 13u |pdot|_1 + 6 eta (Euler angles), 28u |pdot|_1 + 6 eta (EulerRodriguez), 182u |pdot|_1 + 6 eta (RotationVector), eta = 2^-1075, and the derivative of the angular velocity with respect to the parameters within 9u |pdot|_1 + 4 eta for the Euler angles and 95u |pdot|_1 + 20 eta for EulerRodriguez (norm up to 2^100). It is false that RotationVector's derivative with respect to the parameters, or the inverse of its S, is accurate, or even a number, for small rotations: when every parameter is at most 2^-220 in size (the identity included) no entry of the derivative is a number, for parameters (a,0,0) with 2^-200 <= a <= 2^-28 an entry whose exact value is -1/2 is computed as 0, and for every vector of norm between 2^-300 and 2^-28 no entry of the inverse S matrix is a number.", "quantifier": "all finite parameters and rates in doubles (of the sizes given), all accurate math libraries, all summation orders and both associations of c2 * A * A", "why_tests_cant": "parameters, rates, libraries and summation orders range over infinite sets; the unit tests try random rotations of ordinary size", "anchors": ["sm_kinematics/src/RotationVector.cpp: parametersToSMatrix, angularVelocityAndJacobian, parametersToInverseSMatrix", "sm_kinematics/src/EulerAnglesZYX.cpp, EulerAnglesYawPitchRoll.cpp, EulerAnglesZXY.cpp: parametersToSMatrix, angularVelocityAndJacobian", "sm_kinematics/src/EulerRodriguez.cpp: parametersToSMatrix, angularVelocityAndJacobian"]}
{"id": "C153", "title": "Python computeMatrixSqrt", "statement": "sm.computeMatrixSqrt(M) raises RuntimeError exactly for a matrix that is not square; the text names file, line, function, the compared expressions and the two sizes. For a symmetric positive semidefinite M it returns S with S S^T = M; only the lower triangle of M is read. For any other square M the function reports that there is no root.", "quantifier": "all matrices of all sizes (exact arithmetic), all LDLT implementations that factorize positive semidefinite matrices exactly", "why_tests_cant": "sizes and entries are unbounded, and the result on matrices without a root depends on Eigen's choice of pivots", "anchors": ["sm_python/src/exportEigen.cpp: matrixSqrt", "sm_eigen/include/sm/eigen/matrix_sqrt.hpp: computeMatrixSqrt", "sm_common/include/sm/assert_macros.hpp: SM_ASSERT_EQ"]}
{"id": "C154", "title": "random transformations, points and vectors", "statement": "quatRandom and setRandom give unit quaternions; Transformation::setRandom() a translation with coordinates in [-150, 50] (not centred at 0), and every such transformation can come out; setRandom(translationMax, rotationMax) a translation no longer than translationMax and a rotation by no more than rotationMax, and every such transformation can come out, tiny angles apart. The covariances drawn are symmetric; those of uncertain points and vectors are at least the identity, hence positive definite, those of uncertain transformations positive semidefinite but not always positive definite. Two runs with the same sm::random seed agree in the angle, the length of the translation and uncertain scalars, but not in directions, which come from Eigen's generator. A result is NaN exactly for the draws at which a norm is zero.", "quantifier": "all sequences of numbers the two generators may deliver, all bounds, vectors of every dimension (exact arithmetic)", "why_tests_cant": "the generators can deliver infinitely many sequences; a test sees the few that a seed produces", "anchors": ["sm_kinematics/src/quaternion_algebra.cpp: quatRandom", "sm_kinematics/src/Transformation.cpp: setRandom", "sm_kinematics/src/UncertainTransformation.cpp: setRandom", "sm_kinematics/src/HomogeneousPoint.cpp, UncertainHomogeneousPoint.cpp: setRandom", "sm_kinematics/include/sm/kinematics/implementation/UncertainVector.hpp: setRandom"]}
{"id": "C155", "title": "Jacobians of homogeneous points in double precision", "statement": "In double arithmetic: toHomogeneousAndJacobian gives every entry as the exact half of a coefficient (up to half the smallest positive double; exactly for coefficients that are zero or at least 2^-1021) and never overflows; toEuclideanAndJacobian returns the point of toEuclidean and, for the Euclidean point X, the derivative (I + [X]x + X X^T)/2 of the oplus, each entry right to four roundings of 1 + |X|^2 whatever the scale of the point and the order in which Eigen sums; fromHomogeneousJacobian has the rounded reciprocal of the scale on its diagonal, zeros beside it and -X/scale in its last column to five roundings, and is exactly [I | -X] at scale one, infinities and NaN included. (False without range conditions: a scale of at most 2^-1024 leaves no number in either Jacobian although the exact one does not depend on the scale; the point with four coefficients 2^-1074 gets the zero Jacobian.)", "quantifier": "all finite points with scale between 2^-200 and 2^200 and coefficients below 2^200; all finite points for the halves; all points of scale one, infinities and NaN included; all summation orders, one per entry", "why_tests_cant": "rounding and underflow depend on the scale of the point, which no caller sees; tests compare with numerical differences to 1e-6 at a few points", "anchors": ["sm_kinematics/src/HomogeneousPoint.cpp: toEuclideanAndJacobian, toHomogeneousAndJacobian", "sm_kinematics/src/homogeneous_coordinates.cpp: fromHomogeneous, fromHomogeneousJacobian"]}
{"id": "C156", "title": "normalising with a Jacobian in double precision", "statement": "normalizeAndJacobian<N> in double arithmetic, for any dimension N up to 2^20, any order in which the squares are added and lengths between 2^-300 and 2^300: every coordinate of the result is right to N+4 roundings and every entry of the Jacobian is that of the derivative (I - v v^T/|v|^2)/|v| up to 3N+15 roundings of 1/|v|. (False beyond: at length 2^400 the vector is still right but the cube of the reciprocal underflows to zero and the Jacobian in the direction of the vector is 1/|v| instead of 0; at length 2^-400 the cube overflows and that entry is not a number; the zero vector leaves no number anywhere.)", "quantifier": "all vectors of doubles of every dimension up to 2^20 with length in the range, all summation orders", "why_tests_cant": "the error depends on the length, the dimension and the summation order; the test compares one 3-vector and one 4-vector with numerical differences", "anchors": ["sm_kinematics/include/sm/kinematics/homogeneous_coordinates.hpp: normalize, normalizeAndJacobian", "sm_kinematics/src/UncertainHomogeneousPoint.cpp: normalize", "sm_kinematics/include/sm/kinematics/implementation/UncertainVector.hpp: normalize, normalized"]}
