{"id": "C01", "title": "A map Value is a finite map under any history of set calls", "statement": "Starting from an empty map and applying any sequence of set(key, value) calls (every one returns Ok), get(k) returns the value of the last set on k and Value::None if k was never set; len() is the number of distinct keys set. A set on one key never changes what get returns for another key.", "quantifier": "every finite sequence of set calls, every key and every value", "why_tests_cant": "the claim is about every call history and every key; a test fixes one history", "anchors": ["src/model/value.rs::Value::set", "src/model/value.rs::Value::get", "src/model/value.rs::Value::len", "src/model/new.rs::Value::new_map"]}
{"id": "C02", "title": "An array Value is a sequence under any history of push calls", "statement": "Starting from an empty array and applying any sequence of push calls (every one returns Ok), len() is the number of pushes, at(i) is the i-th pushed value, at(i) is Value::None for every i >= len(), and iter() yields exactly the pushed values in order and then None on every further call.", "quantifier": "every finite sequence of push calls, every index, every number of next() calls", "why_tests_cant": "needs all lengths, all indices and arbitrarily many next() calls", "anchors": ["src/model/value.rs::Value::push", "src/model/value.rs::Value::at", "src/model/value.rs::Value::len", "src/model/iter.rs::ValueIter::next", "src/model/new.rs::Value::new_array"]}
{"id": "C03", "title": "Container operations on the wrong kind of Value are harmless", "statement": "set on a non-map and push on a non-array return OperationOnlyForMapValue / OperationOnlyForArrayValue and leave the receiver unchanged; get on a non-map, at on a non-array and iter on a non-array yield Value::None / nothing; len of None, booleans and numbers is 0 and len of a string is its UTF-8 byte length.", "quantifier": "every Value of every kind and every key, index or argument", "why_tests_cant": "ranges over all values of all ten kinds and all arguments", "anchors": ["src/model/value.rs::Value::set", "src/model/value.rs::Value::push", "src/model/value.rs::Value::get", "src/model/value.rs::Value::at", "src/model/value.rs::Value::len", "src/model/iter.rs::ValueIter::next"]}
{"id": "C04", "title": "value_map! and value_vec! never panic and build exactly what is listed", "statement": "value_map!{k1: v1, ...} never panics and yields a map in which each key holds the value of its last occurrence; value_vec![v1, ...] never panics and yields an array with exactly these elements in order.", "quantifier": "every list of key/value pairs (resp. values)", "why_tests_cant": "macro expansion length and the values are unbounded; the unwrap inside must be unreachable in every case", "anchors": ["src/model/new.rs::value_map!", "src/model/new.rs::value_vec!", "src/model/value.rs::Value::set", "src/model/value.rs::Value::push"]}
{"id": "C05", "title": "Equality of Values ignores how a map was built or iterates", "statement": "== on Values is symmetric and transitive, does not depend on the insertion or iteration order of any map at any depth, distinguishes numeric kinds (Integer(1) != UInteger(1)), and v == v.clone() holds exactly when v contains no NaN.", "quantifier": "every pair / triple of Values and every reordering of map entries at any nesting level", "why_tests_cant": "HashMap iteration order is randomised per process; a test sees one order", "anchors": ["src/model/value.rs::Value (derive PartialEq)"]}
{"id": "C06", "title": "Nested reads are total and compose along a path", "statement": "v.get(k1).get(k2)...get(kn) never fails; it returns the value stored at that key path if every step is a present key of a map and Value::None otherwise.", "quantifier": "every Value and every key path of any length", "why_tests_cant": "paths are unbounded in depth and values are arbitrary trees", "anchors": ["src/model/value.rs::Value::get"]}
{"id": "C07", "title": "Display agrees with string conversion on scalars", "statement": "For every boolean, number or string Value, to_string() equals try_into_string().unwrap(); arrays print as [e1, ..., en] and maps as {k1: v1, ...} with every element printed by the same rule, and None prints as none.", "quantifier": "every Value", "why_tests_cant": "ranges over all values and all nesting depths", "anchors": ["src/model/value.rs::Display for Value", "src/model/into.rs::TryInto<String>"]}
{"id": "C08", "title": "Integer-to-integer conversion is exact or an error, never a wrap", "statement": "For every integer Value (i64, i128, u64 or u128 backed) and each target type i8..i128, u8..u128, try_into returns Ok(n) iff the mathematical value fits the target and then n is that value; otherwise it returns a ConversionError 'Number value is out of target bounds' naming the source and target types.", "quantifier": "all integers of the four variants and all ten target types", "why_tests_cant": "the domain has 2^128 points per variant; boundaries differ per pair of types", "anchors": ["src/model/into.rs::TryInto<i8..u128>", "src/model/into.rs::to_number!"]}
{"id": "C09", "title": "Putting a native value into a Value and taking it back is lossless", "statement": "For T in i8..i128, u8..u128, bool, f64, String: Value::from(x).try_into::<T>() is Ok(x) for every x of T (f64 compared with NaN identified); From<Option<T>> maps None to Value::None and Some(x) to Value::from(x); From<Vec>/From<HashMap> keep every element under its index/key; From<f32> stores exactly the same number (sign, infinities and NaN kept).", "quantifier": "every value of every listed Rust type", "why_tests_cant": "full ranges of twelve types, unbounded containers", "anchors": ["src/model/from.rs", "src/model/into.rs"]}
{"id": "C10", "title": "Float-to-integer conversion truncates toward zero whenever the result is representable", "statement": "For every finite Float f and each integer target T, if the real number f truncated toward zero lies in T then try_into::<T>() = Ok(trunc f), with one exception: for T = u128 a truncation above i128::MAX gives the wrong value i128::MAX instead; for i8,i16,i32,u8,u16,u32 (and a negative truncation for u128) it is an error otherwise.", "quantifier": "every finite f64 and all ten integer targets", "why_tests_cant": "2^64 floats times ten targets; boundary floats are rounding sensitive", "anchors": ["src/model/into.rs::TryInto<i8..u128> (Float arm)"]}
{"id": "C11", "title": "Out-of-range floats: small integer types refuse them, wide ones saturate silently", "statement": "For every Float f and integer target T: NaN becomes 0; when f is infinite or its truncation n toward zero does not fit T, i8..i32 and u8..u32 return an out-of-range error, i64, u64 and i128 silently give the nearer of their two bounds, and u128 is an error below zero; u128 gives i128::MAX for every f from 2^127 on, even where n fits. In all other cases C10 applies.", "quantifier": "every f64 including NaN and infinities, all ten integer targets", "why_tests_cant": "needs every float; the violating inputs are not in the test suite", "anchors": ["src/model/into.rs::TryInto<i64>", "src/model/into.rs::TryInto<u64>", "src/model/into.rs::TryInto<i128>", "src/model/into.rs::TryInto<u128>"]}
{"id": "C12", "title": "String-to-integer conversion accepts exactly the in-range decimal numerals", "statement": "try_into::<T>() on a String succeeds iff the text is an optional '+' (or '-' for signed T) followed by one or more ASCII digits whose decimal value lies in T, and then returns that value; everything else (empty, blanks, '_', lone sign, overflow) is ConversionError 'can't parse string'.", "quantifier": "every string and all ten integer targets", "why_tests_cant": "unbounded strings", "anchors": ["src/model/into.rs::TryInto<i8..u128> (String arm)"]}
{"id": "C13", "title": "Integers survive a trip through their decimal string", "statement": "For every integer x of every type T, Value::from(x).try_into_string() is Ok(s) with s the canonical decimal numeral and Value::from(s).try_into::<T>() is Ok(x); distinct integers give distinct strings.", "quantifier": "every integer of every integer type", "why_tests_cant": "2^128 values", "anchors": ["src/model/into.rs::TryInto<String>", "src/model/into.rs::TryInto<i8..u128>", "src/model/from.rs"]}
{"id": "C14", "title": "Boolean conversion", "statement": "try_into::<bool>() on a number is Ok(x != 0) (false exactly for 0, +0.0 and -0.0; NaN is true), on a boolean is itself, on a string is Ok(true)/Ok(false) iff the string equals true/false ignoring ASCII case and an error otherwise. Conversely true and false convert to 1 and 0 in every integer type, to 1.0 and 0.0, and to the texts true and false.", "quantifier": "every Value", "why_tests_cant": "all numbers and all strings", "anchors": ["src/model/into.rs::TryInto<bool>"]}
{"id": "C15", "title": "Integer-to-float conversion is correctly rounded and exact up to 2^53", "statement": "try_into::<f64>() of an integer Value is the f64 nearest to it (ties to even); it is exactly the integer when |n| <= 2^53, and converting that f64 back gives n again.", "quantifier": "every i64, i128, u64 and u128", "why_tests_cant": "2^128 inputs; rounding ties", "anchors": ["src/model/into.rs::TryInto<f64>"]}
{"id": "C16", "title": "Floats survive a trip through their printed form", "statement": "For every f64 x, Value::from(x).try_into_string() is Ok(s) and Value::from(s).try_into::<f64>() is Ok(x) (NaN to NaN, signed zeros and infinities preserved).", "quantifier": "every f64", "why_tests_cant": "2^64 inputs; shortest-digits printing and correctly rounded parsing must be inverse at every one", "anchors": ["src/model/into.rs::TryInto<String> (Float arm)", "src/model/into.rs::TryInto<f64> (String arm)"]}
{"id": "C17", "title": "Character conversion", "statement": "try_into::<char>() of a non-empty string is its first character, of an integer 0..=255 the Latin-1 character with that code, of a boolean '1'/'0', and an error for the empty string, other integers, floats, None, arrays and maps.", "quantifier": "every Value", "why_tests_cant": "all strings and integers", "anchors": ["src/model/into.rs::TryInto<char>"]}
{"id": "C18", "title": "None, arrays and maps never convert to a scalar, and failures fall back to the default", "statement": "Every scalar try_into on None, an Array or a Map is ConversionError{why: 'conversion not supported'} naming the kind; into_T_or(d) returns the converted value when try_into succeeds and exactly d when it fails; conversions by reference and by value agree and leave the Value unchanged.", "quantifier": "every Value, all fourteen target types, every default", "why_tests_cant": "ranges over all values and defaults", "anchors": ["src/model/into.rs::try_into_types!", "src/model/into.rs"]}
{"id": "C19", "title": "merge is a right-biased deep merge, key by key", "statement": "After a.merge(&b) with a and b maps: a key only in a keeps its value, a key only in b gets b's value, a key in both whose two values are maps holds the merge of these two maps, and any other key in both holds b's value; no other key appears.", "quantifier": "all pairs of map Values of any size and depth, every key", "why_tests_cant": "unbounded trees", "anchors": ["src/model/merge.rs::Value::merge"]}
{"id": "C20", "title": "What merge does to every nested path", "statement": "For maps a, b and any non-empty key path p: a non-map found in b at p wins; where b has a map and a has a map the result is their merge; where a proper prefix of p is a non-map in b nothing survives from a below it; and where b says nothing about p or its prefixes a's value is untouched.", "quantifier": "all pairs of maps and all key paths", "why_tests_cant": "unbounded depth", "anchors": ["src/model/merge.rs::Value::merge"]}
{"id": "C21", "title": "merge does not depend on HashMap iteration order", "statement": "Whatever order the entries of either operand are iterated in, at any depth, and wherever the hash table places inserted keys, the merged Values are equal as maps.", "quantifier": "all pairs of Values and all iteration orders at all levels", "why_tests_cant": "the order is randomised by the runtime; all n! orders matter", "anchors": ["src/model/merge.rs::Value::merge"]}
{"id": "C22", "title": "merge has identities and is idempotent", "statement": "Merging an empty map changes nothing, merging b into an empty map gives b, merging a value into itself changes nothing, and merging b twice is the same as once.", "quantifier": "all Values", "why_tests_cant": "unbounded trees", "anchors": ["src/model/merge.rs::Value::merge"]}
{"id": "C23", "title": "merge with a non-map on either side is a no-op", "statement": "If the receiver or the argument is not a map, merge leaves the receiver exactly as it was.", "quantifier": "all pairs of Values with at least one non-map", "why_tests_cant": "ranges over all values", "anchors": ["src/model/merge.rs::Value::merge"]}
{"id": "C24", "title": "merge is associative exactly when no scalar separates two maps", "statement": "For maps a, b, c: (a merge b) merge c equals a merge (b merge c) if and only if there is no path at which a and c hold maps, b holds a non-map, and a's map contributes something that c's map does not have; in particular it holds whenever b never has a non-map where a has a map. The unconditional law is false of the code.", "quantifier": "all triples of maps", "why_tests_cant": "unbounded trees; the counterexample needs a kind conflict between layers", "anchors": ["src/model/merge.rs::Value::merge"]}
{"id": "C25", "title": "merge and clone_merge preserve well-formedness and the operands", "statement": "Merging Values whose maps have unique keys and whose numbers are in range gives such a Value; clone_merge returns what merge would produce and leaves both operands unchanged.", "quantifier": "all pairs of Values", "why_tests_cant": "representation invariant over all trees", "anchors": ["src/model/merge.rs::Value::merge", "src/model/merge.rs::Value::clone_merge"]}
{"id": "C26", "title": "The effective value at every path is resolved by layer precedence", "statement": "build_value on any list of readable layers gives, at every key path, the value defined by the last layer that defines it: descending key by key, only layers after the last non-map definition of a prefix still count, a non-map in the last defining layer wins, and maps from the remaining layers are combined. Nothing else appears. The result is always a map.", "quantifier": "every number of layers, all their values, every key path", "why_tests_cant": "unbounded layers, depth and keys", "anchors": ["src/config.rs::BakuninConfig::build_value", "src/model/merge.rs::Value::merge"]}
{"id": "C27", "title": "Adding layers: first registration of a name wins, order is registration order", "statement": "After any sequence of push_layer / with_layer / add_*_layer calls the registered layers are exactly the first registration of each name, in order; get_layer(n) returns that first layer (None if never added), and re-adding a name changes neither get_layer nor build_value.", "quantifier": "every sequence of add operations and every name", "why_tests_cant": "all histories", "anchors": ["src/config.rs::BakuninConfig::push_layer", "src/config.rs::BakuninConfig::get_layer"]}
{"id": "C28", "title": "Strict build fails iff some layer fails, with the first error", "statement": "build_value(false) is Ok iff every layer reads Ok; otherwise it returns the error of the earliest failing layer.", "quantifier": "every configuration and every state of files and environment", "why_tests_cant": "all layer lists and failure patterns", "anchors": ["src/config.rs::BakuninConfig::build_value"]}
{"id": "C29", "title": "Lenient build never fails and skips exactly the failing layers", "statement": "build_value(true) is always Ok and equals build_value(false) of the configuration without its failing layers; if build_value(false) is Ok both agree.", "quantifier": "every configuration and every state of files and environment", "why_tests_cant": "all layer lists and failure patterns", "anchors": ["src/config.rs::BakuninConfig::build_value"]}
{"id": "C30", "title": "A top-level non-map layer contributes nothing", "statement": "A layer whose value is not a map (e.g. a memory layer holding a string or an array) leaves the effective value exactly as without it.", "quantifier": "every configuration and every non-map value", "why_tests_cant": "all configurations", "anchors": ["src/config.rs::BakuninConfig::build_value", "src/config_layer/layer_mem.rs"]}
{"id": "C31", "title": "A missing file layer contributes nothing", "statement": "While its path does not exist, a file layer reads Ok(empty map), has_value() is false and the effective value equals that of the configuration without the layer.", "quantifier": "every configuration, path and file-system state in which the path does not exist", "why_tests_cant": "all configurations and states", "anchors": ["src/config_layer/layer_file.rs::FileConfigLayer::read_value", "src/config.rs::BakuninConfig::build_value"]}
{"id": "C32", "title": "Environment variables with the prefix override every earlier layer", "statement": "With an environment layer added last, for every variable P+k (k non-empty, not itself starting with P, no other variable mapping to k) build_value().get(k) is String(value), replacing whatever scalar, array or whole map earlier layers had at k; keys without a matching variable are unaffected.", "quantifier": "every environment, every earlier configuration, every prefix", "why_tests_cant": "all environments", "anchors": ["src/config_layer/layer_env.rs::EnvironmentConfigLayer::read_value", "src/config.rs::BakuninConfig::build_value"]}
{"id": "C33", "title": "The environment layer reads exactly the matching variables", "statement": "read_value with a non-blank prefix P is a flat map of strings: k maps to w iff some UTF-8 variable (name trimmed) starts with the trimmed prefix, strips to k, and w is the value of the last such variable; variables with non-UTF-8 names or values and non-matching names contribute nothing; a blank prefix is always an error and writing is always WriteNotSupported.", "quantifier": "every environment (arbitrary bytes) and every prefix", "why_tests_cant": "arbitrary byte strings", "anchors": ["src/config_layer/layer_env.rs::EnvironmentConfigLayer"]}
{"id": "C34", "title": "The environment prefix is removed as often as it repeats", "statement": "A variable named P+k is exposed under the key k if and only if k does not itself begin with P; in general it is exposed under what is left after removing every leading copy of P, so P+P+k and P+k collide (the documented 'prefix is removed' reading, once, is false of the code), and a variable named exactly P is exposed under the empty key.", "quantifier": "every prefix and key", "why_tests_cant": "the failing keys are not in any test", "anchors": ["src/config_layer/layer_env.rs::EnvironmentConfigLayer::read_value"]}
{"id": "C35", "title": "Writing a file layer touches only its file", "statement": "write_value on a file layer never changes any other file; if it returns Ok every path leading to its file (links, other spellings) holds exactly the serialised text; if it returns a serialisation error or the file cannot be opened nothing changes; if the OS fails in the middle of the write its own path holds a proper prefix of the new text (the old content is lost: the write is not atomic). Memory and environment layers never change any file, whatever the history of writes.", "quantifier": "every file-system state, path, value and serialiser behaviour", "why_tests_cant": "all states; frame property over all other paths", "anchors": ["src/config_layer/layer_file.rs::FileConfigLayer::write_value", "src/config_layer/handlers/toml.rs::TomlFileHandler::write"]}
{"id": "C36", "title": "What is written to a file layer is what is read back", "statement": "If the format round-trips a value, then after a successful write_value(v) read_value of the same layer, and of any layer whose path leads to the same file, is Ok(v') with v' the format's image of v, until that file is written again.", "quantifier": "every value accepted by the format, every file-system state and every later history of writes to other files", "why_tests_cant": "all values and histories", "anchors": ["src/config_layer/layer_file.rs", "src/config_layer/handlers/toml.rs"]}
{"id": "C37", "title": "Every built-in layer reports can_write() = false, but file layers can be written", "statement": "can_write() is false for memory, environment and file layers; write_value on memory and environment layers always returns WriteNotSupported and changes nothing, while write_value on a file layer can succeed (so 'can_write() is false only if write_value cannot succeed' is false of file layers, for every path).", "quantifier": "every layer and state", "why_tests_cant": "universally quantified over states; the code contradicts it", "anchors": ["src/config_layer/layer_file.rs::can_write", "src/config_layer/layer_file.rs::write_value"]}
{"id": "C38", "title": "add_file_layer accepts exactly .toml paths", "statement": "With default features add_file_layer(name, path) is Ok iff the path's extension is exactly toml (case-sensitive); otherwise it returns UnsupportedExtension with the actual extension (empty if none) and leaves the configuration unchanged.", "quantifier": "every configuration, name and path string", "why_tests_cant": "all path strings", "anchors": ["src/config.rs::BakuninConfig::add_file_layer", "src/file_finder/file_extension.rs::FileExtension::match_path"]}
{"id": "C39", "title": "find_first returns the first existing candidate in folder-major order", "statement": "Among folder x extension candidates (folders in the order added, extensions in the order added within a folder) find_first returns the first existing one; if none exists it returns the very first candidate when allow_missing is true and NoFilesFound otherwise; with no folder / no extension it is NoFoldersDefined / NoExtensionsDefined.", "quantifier": "every finder configuration and every file-system state", "why_tests_cant": "all folder/extension lists and all existence patterns", "anchors": ["src/file_finder/alg_find_first.rs", "src/file_finder/finder.rs::FileFinder::validate"]}
{"id": "C40", "title": "find_last returns the last existing candidate", "statement": "find_last returns the last existing candidate in the same order, else the very last candidate when allow_missing is true, else NoFilesFound; same validation errors.", "quantifier": "every finder configuration and every file-system state", "why_tests_cant": "all folder/extension lists and all existence patterns", "anchors": ["src/file_finder/alg_find_last.rs", "src/file_finder/finder.rs::FileFinder::validate"]}
{"id": "C41", "title": "find_all returns exactly the existing candidates, in order", "statement": "find_all(false) returns exactly the existing candidates in order (NoFilesFound if there is none); find_all(true) returns all candidates; every result's exists flag is the actual existence.", "quantifier": "every finder configuration and every file-system state", "why_tests_cant": "all folder/extension lists and all existence patterns", "anchors": ["src/file_finder/alg_find_all.rs", "src/file_finder/find_result.rs"]}
{"id": "C42", "title": "find_all_or_first falls back to the first candidate", "statement": "find_all_or_first returns what find_all(false) returns when some candidate exists and otherwise the single first candidate with exists = false; it never fails on a validated finder.", "quantifier": "every finder configuration and every file-system state", "why_tests_cant": "all folder/extension lists and all existence patterns", "anchors": ["src/file_finder/alg_find_all_or_first.rs"]}
{"id": "C43", "title": "The four searches agree with each other", "statement": "If find_all(false) is Ok(l) then find_first is Ok(head of l) and find_last is Ok(last of l) up to the index field; all four fail on the same unvalidated finders.", "quantifier": "every finder configuration and every file-system state", "why_tests_cant": "all configurations", "anchors": ["src/file_finder/alg_find_first.rs", "src/file_finder/alg_find_last.rs", "src/file_finder/alg_find_all.rs", "src/file_finder/alg_find_all_or_first.rs"]}
{"id": "C44", "title": "Result indices number the results consecutively up to 65535 results", "statement": "find_all and find_all_or_first give their i-th result index i and do not panic as long as there are at most 65535 results; with 65536 or more results a build with overflow checks panics and one without wraps the counter, so indices are only correct modulo 65536.", "quantifier": "every finder configuration and file-system state", "why_tests_cant": "needs more results than any test has", "anchors": ["src/file_finder/alg_find_all.rs", "src/file_finder/alg_find_all_or_first.rs", "src/file_finder/find_result.rs::FindResult::index"]}
{"id": "C45", "title": "A candidate path is folder/name.ext for plain names", "statement": "For a folder d, a file name n without separators and without interior dots (a single leading dot is allowed) and an extension e, the candidate is the path d/n.e; for a name with an interior dot the text after its last dot is replaced by e (so 'd/n.e' is false there), the empty name gives d.e-style paths outside the folder, and '..' gives a path without extension.", "quantifier": "every folder, name and extension string", "why_tests_cant": "all strings", "anchors": ["src/file_finder/alg_find_first.rs", "src/file_finder/alg_find_all.rs", "src/file_finder/finder.rs"]}
{"id": "C46", "title": "Searches are honest under concurrent file-system changes", "statement": "Even if files appear and disappear between any two existence checks of a search, find_first returns a candidate that was observed to exist when checked, or (allow_missing) the first candidate after every candidate was observed missing; find_all(false) returns exactly the candidates observed to exist at their check.", "quantifier": "every schedule of file creations/deletions interleaved with the checks", "why_tests_cant": "schedules cannot be enumerated by tests", "anchors": ["src/file_finder/alg_find_first.rs", "src/file_finder/alg_find_last.rs", "src/file_finder/alg_find_all.rs", "src/file_finder/alg_find_all_or_first.rs", "src/file_finder/find_result.rs::FindResult::new"]}
{"id": "C47", "title": "A FindResult's extension names the extension searched for, but never matches its path", "statement": "For a result found with an extension e that is not the text '.toml', result.extension.as_str() is e; and for every result found with the built-in extension 'toml', result.extension.match_path(&result.path) is false although the path has the extension toml (FileExtension::from only recognises '.toml' with the dot). A result found with the text '.toml' is called 'toml' and matches exactly the paths with the extension toml; with_toml and with_supported_extensions search the extension 'toml'.", "quantifier": "every extension string and path", "why_tests_cant": "all strings", "anchors": ["src/file_finder/file_extension.rs", "src/file_finder/find_result.rs"]}
{"id": "C48", "title": "Unresolvable OS directories are skipped, the others keep their order", "statement": "Building a finder from any list of OS directories keeps exactly the resolvable ones, in order, and never panics.", "quantifier": "every list of OSDirectory values and every resolution outcome", "why_tests_cant": "platform dependent resolution results", "anchors": ["src/file_finder/os_directory.rs::with_os_directory"]}
{"id": "C49", "title": "create_config! never fails and registers layers in the documented order", "statement": "create_config! always yields a configuration whose first layer is 'default' (the given default map), followed by the file layers in source order whose search and extension succeeded, followed by 'environment' if env: is given (names assumed distinct).", "quantifier": "every macro invocation, file-system state and environment", "why_tests_cant": "all invocations and states", "anchors": ["src/config_macro.rs::create_config!"]}
{"id": "C50", "title": "create_config! never modifies an existing file when layer names are distinct", "statement": "With pairwise distinct layer names (also distinct from 'default'), running create_config! creates at most the missing files of init layers and never changes any path that existed before; this also holds at every crash point; with a repeated name it can overwrite an existing file with the defaults.", "quantifier": "every macro invocation and file-system state", "why_tests_cant": "data-loss case needs a particular combination of names and file states", "anchors": ["src/config_macro.rs::create_config!", "src/config.rs::push_layer"]}
{"id": "C51", "title": "init creates the missing file with the defaults", "statement": "If an init layer's file does not exist, its folder is writable and the defaults serialise, then after create_config! the file exists and holds the serialised defaults; without init: true no file is ever created.", "quantifier": "every macro invocation and file-system state", "why_tests_cant": "all invocations and states", "anchors": ["src/config_macro.rs::create_config!", "src/config_layer/handlers/toml.rs"]}
{"id": "C52", "title": "A second run changes nothing", "statement": "Running create_config! again on the file system left by a run leaves the file system unchanged (distinct names); the second run may settle on a file created by a later clause of the first.", "quantifier": "every macro invocation and file-system state", "why_tests_cant": "history property over all states", "anchors": ["src/config_macro.rs::create_config!"]}
{"id": "C53", "title": "Initialising files does not change the effective configuration, unless an existing layer comes before", "statement": "If the format reads back the defaults unchanged and no existing file layer precedes a file created by the run, the effective value of the configuration is the same before and after the files were created; if an existing customised layer precedes a created one, the created defaults override it.", "quantifier": "every default map, invocation and file-system state", "why_tests_cant": "all defaults and states", "anchors": ["src/config_macro.rs::create_config!", "src/model/merge.rs", "src/config_layer/handlers/toml.rs"]}
{"id": "C54", "title": "A crash while a file is being written never makes a lenient start fail", "statement": "After a crash at any point of write_value (the file holds any prefix of the new text) every other file is intact, build_value(true) still succeeds, and the layer contributes either nothing or the parse of that prefix; a later create_config! run does not repair the torn file, so a strict start can keep failing.", "quantifier": "every crash point (every prefix length), state and configuration", "why_tests_cant": "crash points cannot be enumerated by tests", "anchors": ["src/config_layer/handlers/toml.rs::TomlFileHandler::write", "src/config_layer/layer_file.rs", "src/config.rs::build_value"]}
{"id": "C55", "title": "Serialising a Value into a Value is the identity, except for 128-bit integers", "statement": "Value::serialize(v) is Ok(v) if v contains no 128-bit integer and is Err(SerializationError), naming the integer type of one of them, if it does, at any depth.", "quantifier": "every Value", "why_tests_cant": "all trees; the failing kind is not tested", "anchors": ["src/model/ser.rs::ValueSerializer", "src/model/ser.rs::Serialize for Value"]}
{"id": "C56", "title": "Deserialising a Value into a Value is the identity", "statement": "v.deserialize::<Value>() is Ok(v) for every Value, including 128-bit integers, at any depth.", "quantifier": "every Value", "why_tests_cant": "all trees", "anchors": ["src/model/visitor.rs::ValueVisitor", "src/model/de.rs::Deserializer for Value"]}
{"id": "C57", "title": "Typed data survives serialise then deserialise", "statement": "For every Rust type built from booleans, integers up to 64 bits, f32/f64, char, String, unit, Option, Vec, tuples, maps with scalar keys, structs, newtype/tuple/unit structs (no enums, bytes, 128-bit integers, and no Option around a type that can itself serialise to none) and every value x of it, Value::serialize(&x)?.deserialize() is Ok(x).", "quantifier": "every type in the grammar and every value of the type", "why_tests_cant": "infinitely many types and values", "anchors": ["src/model/ser.rs", "src/model/de.rs"]}
{"id": "C58", "title": "No enum value can be deserialised", "statement": "Deserialising any Value into an enum type panics, including every Value obtained by serialising an enum value, so no enum survives the round trip.", "quantifier": "every enum type and value", "why_tests_cant": "universally quantified; contradicted by the code for all of them", "anchors": ["src/model/de.rs::deserialize_enum", "src/model/ser.rs::serialize_unit_variant"]}
{"id": "C59", "title": "Deserialisation never panics", "statement": "v.deserialize::<T>() returns Ok or Err and never panics, for every type without enums and byte buffers and every Value (enums and byte buffers panic).", "quantifier": "every Value and every type of the grammar", "why_tests_cant": "all values and types", "anchors": ["src/model/de.rs"]}
{"id": "C60", "title": "Scalar deserialisation agrees with try_into", "statement": "For bool, the integer types up to 64 bits, f64, char and String, v.deserialize::<T>() equals v.try_into::<T>() in result and error; for f32 it is the f64 conversion rounded to the nearest f32 (ties to even, infinity from 2^128-2^103 on); i128/u128 always fail.", "quantifier": "every Value", "why_tests_cant": "all values", "anchors": ["src/model/de.rs", "src/model/into.rs"]}
{"id": "C61", "title": "Struct deserialisation depends only on the named fields", "statement": "Deserialising a map into a struct succeeds iff every non-optional field is present with a convertible value and every present optional field converts; unknown keys are ignored, missing Option fields become None, a missing other field is an error, and the result does not depend on map order.", "quantifier": "every struct type, every map Value, every iteration order", "why_tests_cant": "all maps, all orders", "anchors": ["src/model/de.rs::deserialize_struct", "src/model/de.rs::ValueMap"]}
{"id": "C62", "title": "Sequences and tuples deserialise element by element", "statement": "A Vec<T> deserialises from exactly the arrays all of whose elements deserialise to T, in order; a tuple of n types needs at least n elements, uses the first n and ignores the rest; non-arrays are errors.", "quantifier": "every array and element types", "why_tests_cant": "unbounded lengths", "anchors": ["src/model/de.rs::deserialize_seq", "src/model/de.rs::ValueSeq"]}
{"id": "C63", "title": "Map keys are stringified without collisions", "statement": "Serialising a map with integer, bool, char or string keys stores each entry under its key's text; distinct keys of one such type stay distinct, so no entry is lost; keys that are none, arrays or maps make serialisation fail.", "quantifier": "every map and key type", "why_tests_cant": "unbounded maps", "anchors": ["src/model/ser.rs::ValueSerMap"]}
{"id": "C64", "title": "Nested options collapse", "statement": "For every Option<Option<T>>, Some(None) and None serialise to the same Value::None and deserialise to None: Some(None) does not survive the round trip; Option<T> around a type that never serialises to none does.", "quantifier": "every nested option type", "why_tests_cant": "universally quantified; contradicted by the code", "anchors": ["src/model/ser.rs::serialize_some", "src/model/de.rs::deserialize_option"]}
{"id": "C65", "title": "Deserialisation does not depend on map order", "statement": "For every type whose maps are keyed by String (or newtypes of it), deserialising two Values that differ only in the order in which their maps list entries gives the same data; with integer, bool or char keys this is false: {\"1\": x, \"+1\": y} yields x or y depending on the (random) HashMap order.", "quantifier": "every type of the grammar, every Value, every iteration order", "why_tests_cant": "HashMap order is random per process: a test sees one order", "anchors": ["src/model/de.rs::deserialize_map", "src/model/de.rs::ValueMap"]}
{"id": "C66", "title": "Serialisation never panics and fails for exactly two reasons", "statement": "Value::serialize(&x) never panics; it is Ok iff x contains no 128-bit integer and no map key represented by none, an array or a map; otherwise the error is a SerializationError only if x contains a 128-bit integer and a ConversionError to String only if x contains such a key.", "quantifier": "every datum of the serde data model (any depth, enums and bytes included)", "why_tests_cant": "unbounded data", "anchors": ["src/model/ser.rs::ValueSerializer"]}
{"id": "C67", "title": "The map handed to a visitor answers in order and panics only when overrun", "statement": "For every sequence of next_key and next_value calls a (hand-written) visitor makes: next_key does not advance and gives the current entry's key or none at the end, next_value gives the current entry's value and advances; the only panic is a next_value when all values have been taken.", "quantifier": "every map and every call sequence", "why_tests_cant": "unbounded call histories", "anchors": ["src/model/de.rs::ValueMap"]}
{"id": "C68", "title": "String to f64 accepts exactly the decimal float texts and rounds correctly", "statement": "try_into::<f64>() on a String succeeds iff the text is, after an optional sign, a decimal (digits with at most one point, at least one digit, optional e/E exponent) or one of the words nan, inf, infinity in any case; a decimal text gives the nearest f64 (ties to even), infinity from 2^1024-2^970 on, with the text's sign; every other text is ConversionError 'can't parse string'.", "quantifier": "every string", "why_tests_cant": "unbounded strings and exponents; rounding ties", "anchors": ["src/model/into.rs::TryInto<f64> (String arm)"]}
{"id": "C69", "title": "A serialised datum has the documented shape", "statement": "Whenever Value::serialize(d) succeeds, the Value is: the same boolean, text or number (i8..i64 as Int, u8..u64 as UInt, f32 as the same real number in Float); a char as a one-character String; bytes as an array of UInt; unit, None and unit structs as None; Some and newtypes as their content; sequences, tuples and tuple structs as an Array of their elements in order; structs as a Map from field names, maps as a Map from the text of each key (the last entry wins when texts coincide); a unit variant as the String of its name and any other variant as the one-entry Map {name: content}. The shape determines the Value up to the listing order of maps.", "quantifier": "every serialisable datum, at any nesting depth", "why_tests_cant": "unbounded nesting of all 22 serde data-model kinds", "anchors": ["src/model/ser.rs::ValueSerializer", "src/model/ser.rs::Value::serialize"]}
{"id": "C70", "title": "Reading a Value from any serde format says what the format presented", "statement": "Deserialising a Value from any Deserializer succeeds iff the format presents no bytes, newtype or enum, no map key that is not text, and reports no error of its own; the Value then is: the same boolean, text or number (i8..i64 as Int, i128 as Long, u8..u64 as UInt, u128 as ULong, f32 as the same real number), a char as text, unit and none as None, some as its content, sequences element by element in order, maps under the text of their keys with the last of several equal keys winning. The result is a well-formed Value and determined up to map order. A failure reports the format's own error, or serde's description of the first thing in the way, front to back.", "quantifier": "every finite tree of visitor calls a Deserializer can make", "why_tests_cant": "unbounded documents of every format", "anchors": ["src/model/visitor.rs::ValueVisitor"]}
{"id": "C71", "title": "A format that keeps everything gives the Value back", "statement": "Serialising any Value with a format that keeps the type of every number, and reading the result as a Value, gives an equal Value (128-bit integers included), whatever order the format lists map entries in and however it spells keys and optional values.", "quantifier": "every Value, every such format", "why_tests_cant": "unbounded Values; any format", "anchors": ["src/model/ser.rs::Serialize for Value", "src/model/visitor.rs::ValueVisitor"]}
{"id": "C72", "title": "A format that keeps numbers but not their type changes no answer", "statement": "Through a format that may change the integer type of a number to any type holding it, reorder maps and leave out map entries without a value (as TOML does), every get/at path of the Value read back gives the same answer as before to every typed conversion and to is_none, is_array, is_map, and to len except of maps that lost an entry.", "quantifier": "every well-formed Value, every such format, every access path, every target type", "why_tests_cant": "unbounded Values and paths", "anchors": ["src/model/ser.rs::Serialize for Value", "src/model/visitor.rs::ValueVisitor", "src/model/into.rs::TryInto", "src/model/value.rs::get", "src/model/value.rs::at"]}
{"id": "C73", "title": "Typed data survives Value, format, Value", "statement": "For every type of C57 without Value inside, serialising to a Value, writing it with a format as in C72, reading a Value and deserialising gives the original data; if the format leaves out entries without a value this needs map values that are never none, and Option for the struct fields that can be.", "quantifier": "every such type, every datum without 128-bit integers, every such format", "why_tests_cant": "unbounded types and data", "anchors": ["src/model/ser.rs::ValueSerializer", "src/model/de.rs", "src/model/visitor.rs::ValueVisitor"]}
{"id": "C74", "title": "A written file layer answers every question like the Value written", "statement": "After a successful write_value on a file layer, with a format as in C72, and any later writes to other layers, reading the layer gives a Value that answers every path and typed conversion like the one written; but with a format that leaves out entries without a value, an override of a lower layer by None is lost.", "quantifier": "every well-formed Value, every such format, every file system, every later history of writes to other layers", "why_tests_cant": "unbounded Values and histories", "anchors": ["src/config_layer/layer_file.rs", "src/config_layer/handlers/toml.rs", "src/model/visitor.rs::ValueVisitor"]}
{"id": "C75", "title": "A build while other processes write reads every layer at one moment of its own", "statement": "While other processes change files and environment arbitrarily, build_value reads its layers one after the other, each in the state of one single moment, and returns what layers holding those values for ever would give; a lenient build never fails. Not guaranteed: the result need not be the configuration of any single moment, and a file removed between the existence check and the read is an IO error in a strict build.", "quantifier": "every interference of other processes between any two accesses, every configuration", "why_tests_cant": "all schedules of all other processes", "anchors": ["src/config.rs::BakuninConfig::build_value", "src/config_layer/layer_file.rs::FileConfigLayer::read_value"]}
{"id": "C76", "title": "create_config! overwrites nothing it saw existing, whatever other processes do", "statement": "With distinct layer names, while other processes act arbitrarily: create_config! does not fail, registers the default layer first, and each file it writes was missing at its last check, just before the write; a file that exists from the start, is never removed and to which nobody redirects another path is not written; a path no one else touches or redirects to ends up unchanged, or was missing and holds (the beginning of) the defaults. Not guaranteed: a file another process creates between check and write is overwritten, and a link planted at a missing path between check and write is followed, replacing the contents of the linked file.", "quantifier": "every interference between any two accesses, every macro argument, every world", "why_tests_cant": "all schedules of all other processes", "anchors": ["src/config_macro.rs::create_config!", "src/config_layer/layer_file.rs::FileConfigLayer::write_value"]}
{"id": "C77", "title": "A float prints as the shortest decimal that reads back, and the nearest of that length", "statement": "The string form of a finite non-zero float is an optional minus and a positional decimal (never an exponent) without superfluous zeros, of at most 17 significant digits; every decimal text (of any spelling) that converts back to the same float has at least as many significant digits, and among those with equally many none denotes a number closer to the float (of two equally close ones the greater in magnitude is printed), which settles the text. Zeros print as 0 and -0, infinities as inf and -inf, NaN as NaN.", "quantifier": "every f64, every decimal text", "why_tests_cant": "2^64 floats against infinitely many texts; minimality is a claim about all of them", "anchors": ["src/model/into.rs::TryInto<String>", "src/model/value.rs::Display for Value", "src/model/from.rs::From<f64>"]}
{"id": "C78", "title": "A configuration read into a struct takes every field from the environment or the layers", "statement": "With an environment layer registered last, deserialising the built value into a struct succeeds iff every field does, and each field is the deserialisation of the text of the last environment variable exposed under its name or, if no variable is, what the other layers give for it (None for a missing optional field); one variable whose text its field rejects (any text, for struct, sequence, tuple, map and unit fields) fails the whole struct. With a serialised struct of defaults in a memory layer registered first, a field that no other layer mentions comes back unchanged.", "quantifier": "every environment, every list of layers, every struct type, strict and lenient builds", "why_tests_cant": "all environments, layer stacks and types at once", "anchors": ["src/config.rs::BakuninConfig::build_value", "src/config_layer/layer_env.rs::EnvironmentConfigLayer::read_value", "src/model/de.rs::Deserializer for Value", "src/model/ser.rs::Value::serialize"]}
{"id": "C79", "title": "Writing a layer back and building again uses the written value", "statement": "get_layer(name) of a file layer followed by a successful write_value(v) makes every later build_value (strict or lenient) return what it would return if that layer held v (as the TOML codec reads it back) and all other layers were untouched, provided no other layer is the same file; a write refused for any reason but running out of space changes no build.", "quantifier": "every configuration of built-in layers, every world, every value", "why_tests_cant": "all layer stacks and file-system states", "anchors": ["src/config.rs::BakuninConfig::get_layer", "src/config_layer/layer_file.rs::FileConfigLayer::write_value", "src/config.rs::BakuninConfig::build_value", "src/config_layer/handlers/toml.rs::TomlFileHandler::write"]}
{"id": "C80", "title": "What a configuration and its layers say about themselves", "statement": "After any history of additions, Debug lists exactly the first registration of every name with the kind of its layer (Memory, Environment, File, or what a custom layer reports); has_value is true iff the file exists for file layers and always true otherwise; get_prefix and Display show the prefix without surrounding white space; with_file_layer succeeds and fails exactly as add_file_layer. Not guaranteed: has_value does not tell whether read_value succeeds.", "quantifier": "every history of layer additions, every world", "why_tests_cant": "all histories", "anchors": ["src/config.rs::Debug for BakuninConfig", "src/config_layer/layer_env.rs::EnvironmentConfigLayer::get_prefix", "src/config_layer/layer_env.rs::Display for EnvironmentConfigLayer", "src/config_layer/layer_file.rs::FileConfigLayer::has_value", "src/config.rs::BakuninConfig::with_file_layer"]}
{"id": "C81", "title": "Every failing conversion says what could not be converted to what", "statement": "Whenever try_into to an integer type, bool, f64 or String fails, the error is ConversionError with the kind of the Value as source (None, Array, Map, i64, i128, u64, u128, f64, String), the name of the requested type as target, and the reason that fits the kind: not supported, out of target bounds, or can't parse (\"as boolean\" exactly for bool). Not so for char: numeric sources report the target u8, and a u128 reports the source i64.", "quantifier": "every Value, every target type", "why_tests_cant": "all Values and all targets", "anchors": ["src/model/into.rs::TryInto", "src/model/errors.rs::conversion_error!"]}
{"id": "C82", "title": "Errors can be told apart", "statement": "Two ModelErrors compare equal iff they are the same variant with the same contents; every error has exactly the documented text; the text of a BakuninError tells which subsystem it comes from and, provided the operating system gives different texts to different IO errors, two errors returned by the API have the same text only if they are the same error.", "quantifier": "every pair of errors with arbitrary messages", "why_tests_cant": "messages are unbounded texts", "anchors": ["src/model/errors.rs::ModelError", "src/model/errors.rs::PartialEq for ModelError", "src/config_layer/error.rs::ConfigLayerError", "src/file_finder/error.rs::FileFinderError", "src/bak_error.rs::BakuninError"]}
{"id": "C83", "title": "A reader racing with a writer gets old bytes continued by new bytes", "statement": "While one process writes a configuration file and any number of others read it, with arbitrary scheduling of their system calls and crashes: each reader gets the first k bytes of the old content followed by the bytes k, k+1, ... of a beginning of the new one (and each such mixture can occur); the file holds the old content or a beginning of the new one, and the new one once write_value has returned Ok. A read that does not overlap the write gets one of the two contents. Not guaranteed: that an overlapping read gets a version that somebody wrote.", "quantifier": "every old and new content, every number of readers, every schedule of system calls, every crash point", "why_tests_cant": "all interleavings", "anchors": ["src/config_layer/handlers/toml.rs::TomlFileHandler::write", "src/config_layer/handlers/toml.rs::TomlFileHandler::read", "src/config_layer/layer_file.rs::FileConfigLayer::write_value"]}
{"id": "C84", "title": "Processes writing the same file agree if they write the same text, and otherwise may mix", "statement": "When several processes write the same text to one file and all return, the file holds it, whatever the schedule; with equally long texts each written in one system call the file holds the old content, nothing or one of the texts, and one of the texts when all have returned. Not guaranteed: with texts of different lengths the file may hold a mixture although every write returned Ok, and if one process dies another's Ok does not mean that the file holds its text.", "quantifier": "every number of processes, every text, every schedule of system calls, every crash point", "why_tests_cant": "all interleavings", "anchors": ["src/config_layer/handlers/toml.rs::TomlFileHandler::write", "src/config_layer/layer_file.rs::FileConfigLayer::write_value"]}
{"id": "C85", "title": "What each kind of layer reads", "statement": "A memory layer always reads the Value it was created with. A TOML file layer reads: the empty map if nothing is at its path; an IO error if a directory is there, if the file may not be read or is not UTF-8; a ParseError with the parser's message if the text is not TOML; otherwise exactly the parsed Value. A strict build whose layers before the file are readable fails with exactly that error.", "quantifier": "every file-system state, every byte content, every TOML codec, every configuration", "why_tests_cant": "all contents and states", "anchors": ["src/config_layer/layer_file.rs::FileConfigLayer::read_value", "src/config_layer/handlers/toml.rs::TomlFileHandler::read", "src/config_layer/layer_mem.rs::MemoryConfigLayer::read_value", "src/config.rs::BakuninConfig::build_value"]}
{"id": "C86", "title": "A build depends only on its own files and variables", "statement": "build_value (strict or lenient) gives the same result in any two worlds that agree on the files of its file layers and on the text the environment gives to each key of its environment layers; so variables that no environment layer exposes make no difference, nor does the order of the variables - unless two variables give different texts to one key, when the last one counts.", "quantifier": "every pair of worlds, every configuration of built-in layers", "why_tests_cant": "all worlds and all configurations", "anchors": ["src/config.rs::BakuninConfig::build_value", "src/config_layer/layer_env.rs::EnvironmentConfigLayer::read_value", "src/config_layer/layer_file.rs::FileConfigLayer::read_value"]}
{"id": "C87", "title": "What a program sees after create_config! and build_value", "statement": "With distinct layer names (also distinct from \"default\" and \"environment\"), create_config! followed by a lenient build_value yields the resolution of: the defaults, then the files its clauses settled on in order, then the environment; unreadable files contribute nothing. Key by key: a text given by an exposed variable wins over everything; otherwise the last file that has the key; otherwise the default. A strict build gives the same Value or fails, and succeeds exactly when every one of the files is readable and the environment prefix is not blank. (With a clause named \"environment\" the variables have no effect.)", "quantifier": "every macro argument with distinct names, every file-system state, every environment, every TOML codec", "why_tests_cant": "all worlds and all macro arguments", "anchors": ["src/config_macro.rs::create_config", "src/config.rs::BakuninConfig::build_value", "src/config_layer/layer_env.rs::EnvironmentConfigLayer::read_value", "src/config_layer/layer_file.rs::FileConfigLayer::read_value"]}
{"id": "C88", "title": "When the order of layers does not matter", "statement": "Merging two maps in either order gives the same map (up to the order of keys) exactly when they never say different things at one path: wherever both have something, both have a map or both have the same Value. So neighbouring layers that do not contradict each other may be registered in either order, and layers that agree pairwise in any order, without changing a strict or lenient build; two layers that read maps which disagree always build differently in the two orders.", "quantifier": "every pair of maps, every configuration, every world", "why_tests_cant": "all Values and permutations", "anchors": ["src/model/into.rs::impl_merge", "src/model/merge.rs::Value::merge", "src/config.rs::BakuninConfig::build_value"]}
{"id": "C89", "title": "A search looks only at its candidates, and adding folders keeps what was found", "statement": "The four searches depend on the file system only through their candidates, also while it changes. Further with_folder/with_os_directory calls put folders behind the earlier ones: an existing file found by find_first stays the result, the results of find_all stay the beginning of the new list, and find_last returns the last existing file of the folders added last if they have one. Adding an extension has the same effect within a single folder, but with several folders it can replace an existing file found first by another.", "quantifier": "every finder, every chain of builder calls, every file-system state or history of states", "why_tests_cant": "all finders and file systems", "anchors": ["src/file_finder/finder.rs::FileFinder", "src/file_finder/alg_find_first.rs::FileFinder::find_first", "src/file_finder/alg_find_last.rs::FileFinder::find_last", "src/file_finder/alg_find_all.rs::FileFinder::find_all", "src/file_finder/alg_find_all_or_first.rs::FileFinder::find_all_or_first"]}
{"id": "C90", "title": "A loaded configuration can be saved and loaded again", "statement": "Whatever Value::deserialize hands over for a type of C57 is a datum of that type (integers in range, valid floats, distinct map keys), whatever well-formed Value it was read from. It can be saved exactly when no Value inside it holds a 128-bit integer; what was saved, listed in any order, loads as the same datum, and saving that gives the same Value again. A saved struct holds exactly the names of its fields: keys the type does not know are gone, missing optional fields appear as none.", "quantifier": "every type without enums and 128-bit integers, every well-formed Value", "why_tests_cant": "all types and Values", "anchors": ["src/model/de.rs", "src/model/ser.rs", "src/model/into.rs"]}
{"id": "C91", "title": "Recursive types can be read and survive at every depth", "statement": "For a recursive struct whose recursion goes through a list, tuple, map or struct field (such as struct Person { name: String, children: Vec<Person> }), deserialize looks only as deep into the type as the Value is nested, never panics if no enum occurs, and every value of the type (of whatever depth) survives serialise then deserialise. All other recursive structs wrap themselves in newtypes and Options only (struct Wrap(Option<Box<Wrap>>)): for them deserialize does not end, except on none.", "quantifier": "every recursive type expression, every Value and datum of any depth", "why_tests_cant": "unbounded depth, infinitely many types", "anchors": ["src/model/de.rs", "src/model/ser.rs"]}
{"id": "C92", "title": "Exactly what every type reads, and exactly why it refuses", "statement": "For every Rust type built from scalars, Option, newtypes, unit structs, lists, tuples, maps, structs and Value, and every well-formed Value, deserialize gives a datum exactly when the type's shape fits: scalars as their conversion (C60), unit only from none, Option from none or the inner type, newtypes as what they wrap, lists element by element, tuples one component after the other ignoring the rest, maps with the last entry of each key read, structs by name with unknown keys ignored and missing Options none. Otherwise the error is that of the first element, component, entry or field refused in order, or names the first missing field, the index at which a tuple ran out, or the kind of Value needed, with exactly the documented text; a Value is read or refused, never both, and there is one error.", "quantifier": "every type (at any nesting), every well-formed Value, every error text", "why_tests_cant": "infinitely many types and Values; first-error order", "anchors": ["src/model/de.rs", "src/model/into.rs"]}
{"id": "C93", "title": "A later layer updates typed settings field by field, at every depth", "statement": "If a configuration can be read as a Rust type (its maps keyed by text) and one more layer holding a map is registered last, then reading the new configuration as that type gives exactly: fields the new layer does not mention are kept; a field it mentions is replaced by what the field's type reads from the mentioned Value, except that structs, maps and map Values (also inside Option or newtypes) overridden by a map are updated field by field and entry by entry in turn; no entry disappears; if some mentioned Value cannot be read, the whole read fails. A layer mentioning one field changes that field only.", "quantifier": "every such type at any nesting, every Value it was read from, every later layer", "why_tests_cant": "all types, Values and layers; unbounded nesting", "anchors": ["src/model/merge.rs", "src/model/de.rs", "src/config.rs"]}
{"id": "C94", "title": "A setting can be handed over as its text", "statement": "The text an integer Value converts to (what an environment variable or a quoted file entry would hold) is read by every integer type, by f64 and by String exactly as the Value itself; a float's text is read by f64 as the same float; a boolean's text as the same boolean; so a typed setting can be overridden from the environment by the text of its Value with the same result. A whole float prints as an integer numeral (the number itself up to 2^53, minus zero excepted). The exceptions are exact: the text of a float with a fraction, of an infinity or of NaN is refused by every integer type (the float itself would be truncated), a number's text is never a boolean, a boolean's text never a number, and floats beyond 2^53 may read as a different integer.", "quantifier": "every integer, float and boolean Value, every target type built from them with Option and newtypes, every environment and prefix", "why_tests_cant": "all 2^64 floats and all integers; shortest printing must never lose a whole number", "anchors": ["src/model/into.rs", "src/model/from.rs", "src/config_layer/layer_env.rs", "src/model/de.rs"]}
{"id": "C95", "title": "What a visitor is given", "statement": "A hand-written Deserialize implementation gets from Value's deserializer exactly the documented call for each hint: any and ignored_any show the Value as it is (different Values differently; integers keep their width); scalar hints hand over what TryInto gives; str and identifier the text of the Value; option visits none for None and otherwise the Value itself; newtype the Value itself; unit, seq/tuple, map/struct only the matching kind, otherwise the \"Can't deserialize … to …\" error; bytes, byte_buf and enum panic for every Value and nothing else panics. A sequence yields its elements in order, then None for ever, with an exact size hint at every moment. serde's own visitors never meet a call they do not expect, and what a type reads is its visitor's reply to these calls.", "quantifier": "every hint, every Value, every sequence of next_element/size_hint calls, every Rust type", "why_tests_cant": "all hints, Values, visitor call sequences and types", "anchors": ["src/model/de.rs"]}
{"id": "C96", "title": "Types with serde attributes", "statement": "A struct derived with #[serde(default)], skip_deserializing, alias, rename or deny_unknown_fields (at any depth, also inside Option, Vec, newtypes and String-keyed maps) reads from a Value exactly: each field from the entry under its name or one alias; its default if it is skipped, or if it has one and no such entry exists; None if it is a missing Option; and refuses with the first unreadable entry's error, \"duplicate field\" if name and alias both occur, \"unknown field …, expected …\" for the first key no field answers to under deny_unknown_fields, or \"missing field\". In a layered configuration a default is used exactly when no layer mentions the field; an empty configuration yields all defaults; denying unknown fields changes nothing else, but then one unrelated environment variable under the prefix makes the configuration unreadable; a Value with exactly the struct's fields (a saved one) reads the same whatever defaults there are.", "quantifier": "every attributed type, every Value with unique keys, every configuration and environment", "why_tests_cant": "all types, attribute combinations, Values and layer histories", "anchors": ["src/model/de.rs", "src/config.rs", "src/config_layer/layer_env.rs"]}
{"id": "C97", "title": "Hand-written Serialize implementations", "statement": "Whatever sequence of calls a Serialize implementation makes on the serialisers for maps, sequences, tuples and structs, with errors possibly ignored: a map ends up holding, for each key, the last value written under it, where a value goes under the most recent key call that produced a text and has not had a value since; a key without a value leaves nothing; a key that fails and is ignored leaves the earlier key in force, so the value lands under that one; a value without a key panics, and nothing else does except an argument's own panic; a sequence holds exactly the elements that serialised, in order; a struct the last value of each field, skipped and failed fields absent; variants wrap the same under their name. The length announced to serialize_seq never matters, unless it exceeds isize::MAX bytes of Values, when opening the sequence panics.", "quantifier": "every sequence of serialiser calls, every outcome of each argument, every announced length", "why_tests_cant": "unbounded call sequences", "anchors": ["src/model/ser.rs", "src/model/value.rs"]}
{"id": "C98", "title": "A Value through a TOML file", "statement": "Writing a Value to a .toml file layer succeeds exactly when it is a map TOML has a place for (no 128-bit integer, no u64 above i64::MAX, no none inside an array, at any depth), otherwise it is reported and touches nothing (for reading back: nested no deeper than the crate's limit, see C128; under the crate's strict rule for nones in arrays; under the lenient rule such entries are silently lost). What is then read back, whatever is written elsewhere in between, holds the same numbers, texts and structure, every integer as i64 and without the map entries that held none, so that no typed question at any path tells the difference; it is the very same Value exactly when the original had only i64 integers and no none. Every document loads as its own content (a date as a map with one special key), and loading, saving and loading again gives an equal Value, though a date is no longer a date in the file.", "quantifier": "every Value, every document, every syntax that parses what it prints, every sequence of writes to other layers", "why_tests_cant": "all Values of any nesting and all documents", "anchors": ["src/config_layer/handlers/toml.rs", "src/model/ser.rs", "src/model/visitor.rs", "src/config_layer/layer_file.rs"]}
{"id": "C99", "title": "A first start writes the defaults without changing any answer", "statement": "If none of the files of create_config! exists and its default: block holds only what TOML has a place for, nested no deeper than the crate's limit, then after the run (which creates the init files) the effective value answers every typed question at every path as before it; it is the very same Value if the defaults are plain TOML data (only i64 integers, no none). If TOML has no place for a default, no file is created and no error appears.", "quantifier": "every default block, list of layers, folder layout, environment and platform", "why_tests_cant": "all defaults and layer lists", "anchors": ["src/config_macro.rs", "src/config_layer/handlers/toml.rs", "src/config.rs"]}
{"id": "C100", "title": "What serde reads through its buffer", "statement": "Types that serde reads through its private buffer (parts of untagged, internally tagged and flattened types) are read strictly: from a Value without 128-bit numbers exactly the data the type spells out, numbers only from numbers (integers that fit; integers and floats as floats), text only from text, arrays of exactly the right length, arrays also for structs, empty containers for units where serde takes ownership; a 128-bit number anywhere in the Value is refused with a message naming the first one, even if nobody asked for it; never a panic. Where the ordinary deserialiser also succeeds the data are the same (f32 aside, which is rounded once instead of twice). None of the conversions of C60 apply: no number or truth value is read from text. If all present fields of a struct can be read, the first required field that is missing is named in the error.", "quantifier": "every Rust type without enums and byte strings, every Value with unique keys", "why_tests_cant": "all types and Values of any depth", "anchors": ["src/model/de.rs", "src/model/visitor.rs"]}
{"id": "C101", "title": "Untagged and internally tagged enums", "statement": "A #[serde(untagged)] enum is read as the first variant, in declaration order, whose shape the Value has under the strict rules of C100; if there is none the error is serde's 'data did not match any variant', and a 128-bit number anywhere is refused first. So a text, such as an environment variable, is never read as a variant holding a number or truth value, whatever it looks like. A #[serde(tag)] enum is read exactly from a map with one tag entry (whose text, converted as by TryInto, names a variant) and a rest without 128-bit numbers read strictly as the variant's content, or from an array that starts with the tag; a map without the tag, and an empty array, is refused as a missing field of the tag's name. Neither ever panics (externally tagged enums always do, C58).", "quantifier": "every list of variants of all shapes, every tag name, every Value with unique keys", "why_tests_cant": "all enums, variants and Values", "anchors": ["src/model/de.rs"]}
{"id": "C102", "title": "Flattened structs", "statement": "A struct with #[serde(flatten)] parts reads its own fields as always (C92), and from the remaining entries (none of which may hold a 128-bit number) each part in turn: a struct part the fields it names that no earlier struct part took, a map part all entries not taken; strictly (C100); exactly then it succeeds; it never panics, and what is not a map is refused with a message naming the Value and Map. Moving fields into a flattened struct changes no data as long as both forms read. But an environment variable under the prefix that sets a flattened number makes the whole configuration unreadable, and next to a flattened map of numbers so does any variable that is not one of the struct's own fields.", "quantifier": "every struct with any number of flattened structs and String-keyed maps, every Value with unique keys, every configuration ending in an environment layer", "why_tests_cant": "all types, Values, layer lists and environments", "anchors": ["src/model/de.rs", "src/config.rs", "src/config_layer/layer_env.rs"]}
{"id": "C103", "title": "Several paths to one file", "statement": "If two paths lead to one file (links, different spellings), layers on them read alike for ever, whatever the library writes and through whichever path; a successful write through one path makes the next build that of the same layers with every layer on that file holding the new value (so writing one layer can change another); registering one file twice in a row counts once, but with a layer in between the second registration overrides that layer again; create_config! creates a file at most once, through whichever paths its clauses reach it, also through a dangling link, and also while other processes act as long as they neither remove the file nor redirect paths to it.", "quantifier": "every assignment of paths to files, every file-system state, history of writes, list of layers, macro invocation and interference", "why_tests_cant": "all link structures, histories and layer lists", "anchors": ["src/config_layer/layer_file.rs", "src/config_layer/handlers/toml.rs", "src/config.rs::BakuninConfig::build_value", "src/config_macro.rs::create_config!"]}
{"id": "C104", "title": "Untagged enums, written and read back", "statement": "A value of a #[serde(untagged)] enum (no 128-bit numbers, maps keyed by text, otherwise the types of C57) is always written, and what was written, however it is reordered, is always read; it comes back as the same variant with the same data exactly if no variant declared earlier can read it. So it may come back as another variant. Maps keyed by numbers or truth values are written but, unless empty, are not read back out of such an enum, although they survive everywhere else (C57).", "quantifier": "every list of variants of every shape, every value of them, every reordering of the written maps", "why_tests_cant": "all enums and values of any depth", "anchors": ["src/model/ser.rs", "src/model/de.rs"]}
{"id": "C105", "title": "Internally tagged enums, written and read back", "statement": "A #[serde(tag)] enum is written as one map: the tag with the variant's name, then the entries of the content in their order, a later entry replacing an earlier one of the same name; a newtype variant can be written exactly if its content can and is a unit, struct, map, enum value or newtype of these. It comes back as the same variant with the same data unless the content has an entry named like the tag; that entry replaces the tag, and says which variant is read back.", "quantifier": "every tag name, list of variants, value, content, and every reordering of the written maps", "why_tests_cant": "all enums and values of any depth", "anchors": ["src/model/ser.rs", "src/model/de.rs"]}
{"id": "C106", "title": "Flattened structs, written and read back", "statement": "A struct with flattened parts is written as one map: its own fields, then each part's entries in declaration order, a later entry replacing an earlier one of the same name. If all field names are distinct, a flattened map comes last and has no key that is a field name, every value comes back. Otherwise it may not: an entry of a flattened map replaces a field of that name, and a flattened map declared before a flattened struct comes back with that struct's fields in it.", "quantifier": "every struct with any number of flattened structs and maps, every value of it, every reordering of the written map", "why_tests_cant": "all types and values of any depth", "anchors": ["src/model/ser.rs", "src/model/de.rs"]}
{"id": "C107", "title": "Adjacently tagged enums", "statement": "A #[serde(tag, content)] enum is written as a map with the tag (the variant's name) and, unless the variant is a unit, the content as it is written elsewhere, and nothing else. Nothing can ever be read as such an enum: reading panics exactly if the tag is present and no content holding a 128-bit number is listed before it, and is an error otherwise (which one is determined). So reading back what was written always panics, and whether a Value gives an error or a panic can depend on the arbitrary order of its map.", "quantifier": "every pair of tag and content names, every enum value, every Value with unique keys, every reordering of the written maps", "why_tests_cant": "all enums and Values of any depth", "anchors": ["src/model/ser.rs", "src/model/de.rs::deserialize_enum"]}
{"id": "C108", "title": "Types of the standard library", "statement": "A HashSet or BTreeSet is read from exactly what a Vec of its members is read from and holds each element once; [T; N] from an array with at least N elements, the first N (otherwise the error is that of the first element refused, or names the length found and the length expected); NonZero from what converts to the integer unless that is zero; Duration from a map with exactly secs and nanos, nanoseconds of a second or more carried over, an overflow being an error; SystemTime likewise, below 2^63 seconds; Range from a map with exactly start and end; types with FromStr (addresses, ...) from what converts to text they parse. All of these come back after being written (times before 1970 cannot be written). Borrowed text (&str, &Path) is never read: always an error.", "quantifier": "every member type that is a map key type (sets) or round-trips (arrays, ranges), every set, array, number, time and range, every Value, every reordering of the written maps", "why_tests_cant": "all types, values and Values", "anchors": ["src/model/ser.rs", "src/model/de.rs"]}
{"id": "C109", "title": "Layers that change things when they are read", "statement": "With any implementations of ConfigLayer (interior mutability, global state, panics): get_layer gives the layer registered first under a name; build_value reads the registered layers (the first of each name) in registration order, each at most once and in the state the reads before it left; it stops at the first panic, and if strict at the first error, which is its result, without reading the layers behind; otherwise it reads all of them, and the result is that of layers holding for ever what was answered. A lenient build never returns an error. With the built-in layers this is the build of C26-C31 and changes nothing. A value written to a layer that keeps it is what the next build finds there. But two builds in a row need not agree.", "quantifier": "every state space, every implementation of the trait, every history of registrations, every state, strict and lenient", "why_tests_cant": "all layer implementations and states", "anchors": ["src/config.rs", "src/config_layer/layer.rs::ConfigLayer"]}
{"id": "C110", "title": "Configuration files in the long run", "statement": "Over any history of starts of any versions of any programs (create_config! with distinct layer names), crashed starts, writes to other files and foreign actions that spare a file: if the file exists it keeps its content; if it changed, it was created by exactly one of the starts, holds (the beginning of) that start's defaults and is unchanged since. Once every program has been started, further starts in any order change nothing, also if files were added or edited meanwhile. So a key in a file that an old version created keeps the old version's default after an upgrade: a new default does not take effect.", "quantifier": "every codec, every file, every finite history of events, every macro invocation", "why_tests_cant": "all histories of any length", "anchors": ["src/config_macro.rs::create_config!", "src/config_layer/layer_file.rs", "src/config_layer/handlers/toml.rs"]}
{"id": "C111", "title": "Typed settings out of many layers", "statement": "A program that asks the built configuration for its settings type gets, at every place of the type, what the layers mention there: if the last mention is no map, it alone, read as in C92; if it is a map, it and the maps directly before it, place by place; a map type has an entry for every key any of these mentions; only an Option field may be mentioned nowhere. If this settles nothing the read is an error, never a panic. A field of a type that reads no map comes from the last layer that mentions it, so whatever earlier layers say of it (even unreadable) does not matter. Layers that cannot be read and layers that give no map contribute nothing.", "quantifier": "every settings type with text-keyed maps and distinct field names, every configuration, every world, any number of layers, strict and lenient", "why_tests_cant": "all types, layer contents and orders of any size", "anchors": ["src/config.rs", "src/model/merge.rs", "src/model/de.rs"]}
{"id": "C112", "title": "Ordinary enums in buffered places", "statement": "An externally tagged enum, which panics when read directly (C58), can be read where serde buffers: as the content of an untagged variant or as a field of a flattened struct. It is read from the name of a unit variant or from a map with exactly one entry, the variant's name, and a content of the variant's shape without conversions; anything else, and any 128-bit number anywhere, is an error, never a panic. Every value of such an enum is written there and comes back, also after any reordering of maps. From text (environment variables) exactly the unit variants are read.", "quantifier": "every enum with distinct variant names and enum-free contents, every Value with unique keys, every value of the enum, every reordering of the written maps", "why_tests_cant": "all enums and Values of any depth", "anchors": ["src/model/ser.rs", "src/model/de.rs::deserialize_enum"]}
{"id": "C113", "title": "What is logged, exactly", "statement": "Logging changes no result. Reading a layer logs exactly: nothing for a memory layer or a missing file, one trace record for an existing file, and for the environment one trace record, one more per variable whose name is no text and one debug record per matching variable whose value is no text. A lenient build warns exactly once per unreadable layer, in order, with its name and error; it is without warnings exactly when the strict build succeeds; a strict build never warns. create_config! warns exactly about unresolvable folders, clauses without any folder, and defaults that could not be written; a start with distinct names and without warnings has resolved every folder, registered every clause with a usable file name and created every init file. But a clause whose path is refused (file name '..') is dropped without any record.", "quantifier": "every world, layer, configuration, environment, macro invocation and codec", "why_tests_cant": "ranges over all environments, file systems and clause lists, and speaks about the absence of records", "anchors": ["src/config.rs::build_value", "src/config.rs::push_layer", "src/config_macro.rs::create_config", "src/config_layer/layer_env.rs::read_value", "src/file_finder/os_directory.rs::with_os_directory"]}
{"id": "C114", "title": "Values are not logged", "statement": "What the library logs depends on names, paths and prefixes, not on values: two environments with the same variables whose matching values are text give the same records; two configurations with the same layers by name and place, all readable, leave the same records in builds, whatever they hold; two starts of one create_config! with different defaults, in worlds with the same files holding anything, leave the same records unless a default could not be written. Exceptions: a matching variable's value that is no UTF-8 is logged as it is (debug), and the parse error of an unreadable file, which may quote the file, is logged as a warning.", "quantifier": "every pair of worlds, environments, configurations and default blocks that differ only in values", "why_tests_cant": "a relation between all pairs of runs (non-interference)", "anchors": ["src/config_layer/layer_env.rs::read_value", "src/config.rs::build_value", "src/config_macro.rs::create_config", "src/config_layer/layer_file.rs"]}
{"id": "C115", "title": "Typed settings after a start", "statement": "After create_config! with distinct layer names, building and deserialising gives exactly what the defaults, the files of the clauses in order and the environment settle. Field by field of a struct: the text of its environment variable decides; without one, the last file that has the key (unless it is a table); without one, the default; a field nobody mentions must be an Option and is none. One setting its field's type does not accept, or one required field nobody mentions, fails the whole read with an error. Creating missing files with the defaults (init: true) loses nothing if they are nested no deeper than the TOML crate's limit: what could be read before the files were written is read afterwards as the same data. (The converse fails: TOML drops a none inside a list of maps, so settings unreadable before the first start's write can become readable after it.)", "quantifier": "every type, default block, set of clauses, file system and environment", "why_tests_cant": "an equation over all types, worlds and default blocks", "anchors": ["src/config_macro.rs::create_config", "src/config.rs::build_value", "src/model/de.rs::Deserializer", "src/config_layer/layer_env.rs::read_value", "src/config_layer/layer_file.rs"]}
{"id": "C116", "title": "When searches panic, and how much they look", "statement": "While the file system does not change during a search: find_first panics exactly if an extension containing a separator is reached, i.e. no candidate of the first folder with an earlier extension exists; find_last panics exactly if any extension contains a separator, whatever exists; find_all and find_all_or_first exactly then, or if, with overflow checks on, there are more than 65535 results. Number of exists() calls: find_first checks every candidate up to the first existing one, once more for that result and once for a kept missing one; find_last checks every candidate, existing ones twice, and (allowing missing files) missing ones before the first existing one twice; find_all once each, plus once per result if missing files are not allowed; find_all_or_first once each, existing ones and the first missing one twice. So no search checks more than twice per candidate, and a finder without folders or without extensions checks nothing.", "quantifier": "every finder, every file system that is constant during the search, both overflow modes", "why_tests_cant": "exact for all numbers of folders, extensions and existing files", "anchors": ["src/file_finder/alg_find_first.rs", "src/file_finder/alg_find_last.rs", "src/file_finder/alg_find_all.rs", "src/file_finder/alg_find_all_or_first.rs", "src/file_finder/finder.rs::FileFinder::validate", "src/file_finder/find_result.rs::FindResult::new"]}
{"id": "C117", "title": "The README's long program and the macro", "statement": "The README gives a long program and says create_config! simplifies it. For every file name, default block, prefix and world: the long program panics exactly if the global file is missing and writing the defaults to it fails (the macro only warns); otherwise both leave the same files, and every build gives the same result, at once and at any later time, as long as a local file that was missing at the start stays missing. If it appears later they differ: the macro has registered its path, the long program (find_first(false)) has not.", "quantifier": "every file name, default block, prefix, file system, environment and later world", "why_tests_cant": "two programs compared over all worlds and later changes", "anchors": ["README.MD:240-312", "src/config_macro.rs::create_config", "src/config.rs::add_file_layer", "src/config.rs::build_value", "src/file_finder/alg_find_first.rs"]}
{"id": "C118", "title": "Types made of parts with their own impls", "statement": "For every struct, list, tuple, String-keyed map, option and newtype whose parts have their own Deserialize impl (attribute structs, tagged and untagged enums, hand-written ones), Value::deserialize gives exactly what the parts give: all parts read gives the whole, otherwise the first part that stops, in the order of the Value, decides with its own error (or panic); a wrong kind, a short tuple and a missing field have their own messages. Panics only come from parts. A variable exposed by the environment layer decides its field as text, so one variable for a field of an internally tagged enum type makes the whole configuration unreadable.", "quantifier": "every such type, every part's reading function, every Value, environment and configuration", "why_tests_cant": "the parts are arbitrary functions and the nesting is unbounded", "anchors": ["src/model/de.rs::deserialize", "src/model/de.rs::deserialize_seq", "src/model/de.rs::deserialize_map", "src/model/de.rs::deserialize_struct", "src/model/de.rs::deserialize_option", "src/config_layer/layer_env.rs"]}
{"id": "C119", "title": "Round trips of types made of parts", "statement": "For every such type and datum of it, Value::serialize writes exactly what the parts write, the first part that fails deciding; the datum comes back from what was written exactly when every part in it comes back from what it wrote and no part under Some was written as None. (An untagged enum's unit variant under Some comes back as None.)", "quantifier": "every such type, every part's reading and writing function, every datum", "why_tests_cant": "the parts are arbitrary functions and the nesting is unbounded", "anchors": ["src/model/ser.rs::serialize", "src/model/ser.rs::serialize_seq", "src/model/ser.rs::serialize_struct", "src/model/ser.rs::serialize_some", "src/model/de.rs::deserialize"]}
{"id": "C120", "title": "The questions a search asks while files come and go", "statement": "Whatever appears or disappears between any two exists() calls, each search asks one fixed pattern of questions and its result is what the answers say. find_first asks the candidates in order until one exists, asks that one again and reports the second answer as its flag; find_last and find_all(false) ask every candidate, existing ones twice; find_all(true) asks every candidate once; with allow_missing find_first also asks the first missing candidate twice, find_last every missing one before the first existing one, and these second answers are the flags of the fallback; find_all_or_first asks the first missing candidate twice. No candidate is asked more than twice and nothing else is asked. Without allow_missing, exists = false on a result means the file was there and gone at the very next question.", "quantifier": "every finder, every behaviour of the file system during the search, both overflow modes", "why_tests_cant": "ranges over all interleavings of file-system changes with the checks", "anchors": ["src/file_finder/alg_find_first.rs", "src/file_finder/alg_find_last.rs", "src/file_finder/alg_find_all.rs", "src/file_finder/alg_find_all_or_first.rs", "src/file_finder/find_result.rs::FindResult::new"]}
{"id": "C121", "title": "Paths are bytes", "statement": "Folders may have names that are no UTF-8. Every search over byte paths is the search over texts with each path written as its UTF-8 bytes, also while files come and go; the candidate for a folder of any bytes, a plain name and an extension is the folder, a separator if needed, the name, a dot and the extension, byte for byte: nothing is normalised, and two different texts (even if they look the same, as composed and decomposed letters do) never lead to the same file. FileExtension::match_path holds exactly for Toml and paths whose extension is toml (a custom extension matches no path); add_file_layer accepts a path of any bytes exactly if its extension is toml; otherwise the error carries the extension if it is valid UTF-8 and the empty text if it is not or if there is none.", "quantifier": "every byte path, finder and file-system behaviour", "why_tests_cant": "ranges over all byte strings, valid UTF-8 or not", "anchors": ["src/file_finder/alg_find_first.rs", "src/file_finder/alg_find_last.rs", "src/file_finder/alg_find_all.rs", "src/file_finder/alg_find_all_or_first.rs", "src/file_finder/file_extension.rs::match_path", "src/config.rs::add_file_layer", "src/file_finder/os_directory.rs::to_path_buf"]}
{"id": "C122", "title": "What a TOML write keeps, leaves out and refuses", "statement": "Every Value has exactly one TOML document or exactly one reason for having none, never both: a write to a .toml layer succeeds exactly for maps that have a document, writes that document, and a file layer then reads exactly its content (if nested no deeper than the crate's limit); it is refused with the reason of the first thing, front to back, that TOML has no place for (none outside a map entry, u64 above i64::MAX, i128, u128; or 'unsupported rust type' for anything but a map) and changes nothing. A key is left out exactly if its value is none or, under the lenient rule of some crate versions, if the first thing its value stops at is a none: the whole entry is lost without an error, and a lower layer's value shows through. What the strict rule writes the lenient one writes alike. Reading a file fails exactly with the parser's own error.", "quantifier": "every Value, both rules, every syntax that parses what it prints, every history of writes to other files", "why_tests_cant": "exact for all nested values and orders of entries", "anchors": ["src/config_layer/handlers/toml.rs::write", "src/config_layer/handlers/toml.rs::read", "src/model/ser.rs::Serialize for Value", "src/config_layer/layer_file.rs::write_value"]}
{"id": "C123", "title": "Settings made of parts after a start", "statement": "For a settings struct whose fields have their own Deserialize impls, after create_config! and build_value each field is read by its own impl from exactly the value that decides its key (the environment variable as text, else the last file layer holding the key, else the default), and never from anything else; if every field is decided or mentioned nowhere, the struct can be read exactly when every field's impl accepts the value deciding it and only Option fields are mentioned nowhere; an Option field nobody mentions is None.", "quantifier": "every such struct, every part's reading function, every macro call, environment, file system and codec", "why_tests_cant": "the parts are arbitrary functions; ranges over all layer stacks", "anchors": ["src/config_macro.rs::create_config", "src/config.rs::build_value", "src/model/de.rs::deserialize_struct", "src/config_layer/layer_env.rs", "src/model/merge.rs::merge"]}
{"id": "C124", "title": "Settings made of parts through a TOML file", "statement": "A datum of a type made of parts, written to a TOML file layer, comes back from that file (through any path to it, after any writes to other files) as the same datum up to the order of map entries, provided each part reads its datum back from whatever TOML keeps of what it wrote (integers as i64, order free, none-valued entries gone) only Option fields were written as None and the datum is nested no deeper than the crate's limit. A field that is no Option and was written as None makes the file unreadable as that type, although the datum survives the trip through the Value alone (for instance a unit variant of an untagged enum). Parts of the plain types of C103 meet the condition.", "quantifier": "every such type and datum, every part's reading and writing function, every TOML syntax that parses what it prints, every history of writes to other files", "why_tests_cant": "the parts are arbitrary functions, nesting is unbounded, histories are arbitrary", "anchors": ["src/config_layer/handlers/toml.rs::write", "src/config_layer/handlers/toml.rs::read", "src/model/ser.rs::serialize", "src/model/de.rs::deserialize", "src/config_layer/layer_file.rs::write_value"]}
{"id": "C125", "title": "Parts that convert and check what they read", "statement": "A type with serde's from / try_from / into attributes reads exactly what its inner type reads and the conversion accepts; a rejected conversion is a Deserialization error with the conversion's message; it never panics unless the inner type does. It round trips exactly if the inner type gives back something that converts to the datum. An invariant that all such parts check holds in every datum that can be read, whatever the layers hold; an environment variable whose text is rejected makes the whole read fail instead of falling back to a lower layer; an Option field with its own reader (with, deserialize_with) is required.", "quantifier": "every inner type, conversion, Value, environment and configuration", "why_tests_cant": "conversions are arbitrary functions; ranges over all layer contents", "anchors": ["src/model/de.rs::deserialize", "src/model/de.rs::deserialize_struct", "src/model/errors.rs::custom", "src/config.rs::build_value", "src/config_layer/layer_env.rs"]}
{"id": "C126", "title": "The TOML text that is saved", "statement": "The text a .toml layer writes for a Value is itself one the crate reads: for every Value that can be written and is nested no deeper than the crate's limit, reading the file back gives a Value with the same numbers, texts and structure (integers as i64, entries holding none gone), the very same Value exactly if the original had only i64 integers and no none; nothing need be assumed about quoting, escapes, number formats or section order. Two Values saved as the same text answer every question alike. A saved file is empty or ends with a line feed.", "quantifier": "every Value, key and text (quotes, control characters, non-ASCII), every world and path to the file", "why_tests_cant": "all Values of any shape up to the nesting limit; all texts as keys and values", "anchors": ["src/config_layer/handlers/toml.rs", "src/config_layer/layer_file.rs", "src/model/ser.rs", "src/model/visitor.rs"]}
{"id": "C127", "title": "TOML files edited by hand", "statement": "Comments and empty lines put between the lines of a loadable text never change what is loaded, nor does turning line feeds into CR LF or back. Settings written before the text of a file are loaded together with it exactly if both can be loaded and they have no key in common; sections written after a file are added if the keys differ. Settings (not sections) written after a file are not added at the top: they fall into the last section.", "quantifier": "every loadable text, every comment, every pair of texts", "why_tests_cant": "all file contents", "anchors": ["src/config_layer/handlers/toml.rs", "src/model/visitor.rs", "src/config_layer/layer_file.rs"]}
{"id": "C128", "title": "Nesting and the TOML crate's limit", "statement": "It is false that everything a .toml layer saves can be loaded again: a Value nested deeper than the crate's recursion limit is written without an error and the file cannot be read any more; a file that can be loaded may even be saved as one that cannot. Up to the limit both hold: what is writable or was loaded is saved as a text that loads as the same data.", "quantifier": "every limit, world and path; every Value", "why_tests_cant": "a deep Value for every limit; all Values within it", "anchors": ["src/config_layer/handlers/toml.rs", "src/config_layer/layer_file.rs", "src/model/ser.rs"]}
{"id": "C129", "title": "Numbers, booleans and texts in TOML files", "statement": "After 'key = ', a word is loaded as the integer z exactly if it is z written in decimal without leading zeros, with or without sign, or in hexadecimal, octal or binary with its prefix, single underscores between digits allowed, and z is an i64; integers beyond i64 are refused. Numbers with a fraction or an exponent are loaded as the nearest float, refused if that is plus infinity; inf and nan with or without a sign are floats; nothing else is. true and false and nothing else are booleans. A text between double quotes (without quotes, backslashes and control characters in it) or single quotes is loaded as it stands, backslashes included in the latter; a word without quotes is never loaded as a text.", "quantifier": "every word, number and text", "why_tests_cant": "all spellings of all numbers", "anchors": ["src/config_layer/handlers/toml.rs", "src/model/visitor.rs", "src/config_layer/layer_file.rs"]}
{"id": "C130", "title": "Hand-written TOML documents load as what they say", "statement": "Take a TOML document written by hand: settings 'key = value', then tables under headers '[a.b]'; keys bare or quoted, dotted, with white space around the dots; values that are words, a day and a time with a space between them, texts in single or double quotes with all escapes, texts over several lines in three quotes of either kind, arrays over several lines with comments and a trailing comma, inline tables with dotted keys, nested below the reader's limit; comments and empty lines anywhere between. If no path is set twice, inside another set path or set and also a table, no header occurs twice, and no header goes to or through a table made by a dotted key, then the document loads, and the Value has at each setting's full path exactly the value written, a map at each header, and nothing else. A table may come after its subtables.", "quantifier": "every document of the grammar, every content, every layout", "why_tests_cant": "all texts of a grammar, of any size and nesting", "anchors": ["src/config_layer/handlers/toml.rs", "src/model/visitor.rs", "src/config_layer/layer_file.rs"]}
{"id": "C131", "title": "Contradictory TOML documents are refused", "statement": "If a document of the same grammar loads, then no path is set twice, set inside another set path, or both set and a table, no header occurs twice, and the loaded Value holds exactly the document's settings and tables and nothing else. So a document whose keys are not dotted loads exactly if nothing clashes, and a document without headers, dotted keys or not, exactly if no setting's path begins another's; nothing is ever silently overwritten.", "quantifier": "every document of the grammar", "why_tests_cant": "all pairs of settings and headers at any distance in documents of any size", "anchors": ["src/config_layer/handlers/toml.rs", "src/model/visitor.rs", "src/config_layer/layer_file.rs"]}
{"id": "C132", "title": "Dates, times and long texts in TOML files", "statement": "A word in a TOML file is loaded exactly when it is an integer of 64 bits, a float, true or false, or a date or time; all other words are refused. A date is yyyy-mm-dd in the Gregorian calendar (leap years as they are); a time is hh:mm:ss with 23, 59 and 60 as the greatest, with a fraction of which nine digits count; a date and a time have T, t or a space between them and may be followed by Z, z or an offset. It is loaded as a map with the one key $__toml_private_datetime and the normalised text (T, Z, no zeros at the end of the fraction, +00:00 for a zero offset). So a date is not a text: reading it as a String is an error, and a date loaded and saved becomes a table. A text in three quotes loads as written, line ends as line feeds, without a line end after the opening quotes, with escapes and joined lines (a backslash at a line's end) in double quotes only, and with one or two quotes in a row anywhere.", "quantifier": "every word; every date and time; every text in three quotes", "why_tests_cant": "all texts of a grammar; calendar arithmetic over all years", "anchors": ["src/config_layer/handlers/toml.rs", "src/model/visitor.rs", "src/config_layer/layer_file.rs"]}
{"id": "C133", "title": "Writing a type with serde attributes, and when it comes back", "statement": "A struct derived with skip_serializing, skip_serializing_if, skip or different names for writing and reading is written as a map of exactly the fields that are not left out, in order, under the names for writing, each as its own type is written, at any depth (through options, sequences, maps keyed by text, newtypes). The value reads back as the datum exactly when every field is written under a name it is read under and comes back itself, or is not (left out, or under another name) and is what an absent field is read as (its default, or None); with deny_unknown_fields, no field may be written under a name that is not read. A Some whose content is written as None does not come back. Merged over another map, a field that is left out changes nothing under its name, while a None that is written replaces whatever is there. Without attributes nothing changes.", "quantifier": "every type with these attributes, every condition for leaving out, every datum of the type, every map merged into", "why_tests_cant": "all types and data, all conditions; an equivalence over all of them", "anchors": ["src/model/ser.rs", "src/model/de.rs"]}
{"id": "C134", "title": "Arrays of tables in TOML files written by hand", "statement": "A TOML document of settings, then tables, then arrays of tables ([[a.b]], one block for each element; an element may have settings, tables [a.b.t] and arrays of tables [[a.b.c]] of its own, to any depth), in which nothing clashes and the first key of an array's path is used for nothing else in its table, loads, and the value holds every setting and table at its path, and at each array's path an Array with one map for each block, in order, each being what its block says, and nothing else. A document of settings and tables followed anywhere later by [[k]] where k is already the first key of a setting or table is refused, whatever follows; so is a document with an array of tables k followed by a header [k].", "quantifier": "every such document, at any depth, with any white space, comments and line ends; every text after the clash", "why_tests_cant": "all texts of a recursive grammar", "anchors": ["src/config_layer/handlers/toml.rs", "src/model/visitor.rs", "src/config_layer/layer_file.rs"]}
{"id": "C135", "title": "The order of sections and settings in a TOML file", "statement": "In a TOML file two neighbouring sections (a header [path] or [[path]] with the settings below it) may be swapped when neither header's path begins the other's: what loads in one order loads in the other, as a value that differs at most in the order of map keys; what does not load in one order does not load in the other. The same holds for neighbouring settings of one section when no path of one begins a path of the other, whatever text follows. Hence tables and arrays of tables may be mixed: a file whose sections become, by any number of such swaps, a document with tables first and arrays of tables after them, loads as what that document says. Where one path begins the other the order matters ([[a]] before [a.b] loads, after it does not; two elements [[a]] swapped give another array).", "quantifier": "every file written by the grammar up to the swap, every two neighbouring sections or blocks of settings, every text after them (beginning with a header, for sections); any number of swaps", "why_tests_cant": "all files and all orders", "anchors": ["src/config_layer/handlers/toml.rs", "src/model/visitor.rs", "src/config_layer/layer_file.rs"]}
{"id": "C136", "title": "The last line of a TOML file", "statement": "Whether the last line of a TOML file is ended makes no difference: a text that does not end in a carriage return loads as a Value exactly if it loads as that Value with a line feed, or CR LF, put behind it - whatever the last line holds (a setting, a header, the end of a long text, a comment, white space). Behind a loadable text of whole lines, a last line of white space and a comment that is not ended changes nothing. It is false for a text ending in a carriage return alone: 'a = 1' with a CR behind it cannot be loaded until the line feed follows. And a text is not joined to the next without a line end between them.", "quantifier": "every text, every way of writing the last line, both line ends, both crate renderings, every recursion limit", "why_tests_cant": "all file contents", "anchors": ["src/config_layer/handlers/toml.rs", "src/model/visitor.rs", "src/config_layer/layer_file.rs"]}
{"id": "C137", "title": "What a saved TOML file looks like, character by character", "statement": "A successful TOML save writes one text, fixed by rules that mention only the document: the settings first, one 'key = value' line each in their order; then, with an empty line between blocks, a '[path]' block for every table and a '[[path]]' block for every element of an array that holds tables only, each followed by its own settings and then by the blocks of the tables inside; a table that is no array element, is not empty and holds no setting itself has no header. Keys stand bare if they are ASCII letters, digits, '_' and '-', else between double quotes. Texts stand between double quotes with \\b \\t \\n \\f \\r \\\" \\\\ and \\u00XX for control characters, between three double quotes if they have a line feed; literally between single quotes (three of them if needed) if they hold a double quote or backslash, no three single quotes in a row, no single quote at the end and no control character but tab and line feed. Whole numbers are plain decimals; floats the shortest text that reads back, with a point, or nan, inf, -inf; arrays of two or more elements stand over several lines, indented by four spaces; tables inside arrays are inline. The file holds the UTF-8 encoding of that text. It has no control characters but tabs and line feeds, and its last line is ended.", "quantifier": "every Value, every nesting, both crate renderings, every world", "why_tests_cant": "all Values; all texts and all documents", "anchors": ["src/config_layer/handlers/toml.rs", "src/model/visitor.rs", "src/config_layer/layer_file.rs"]}
{"id": "C138", "title": "Nothing but TOML loads", "statement": "A text that loads is a sequence of lines in the TOML grammar, after a byte order mark at most: every line is blank, a comment, 'key = value', '[path]' or '[[path]]', with white space around it and a comment behind it; keys are parts with dots between them, each bare or in quotes; values are quoted texts of the four kinds with valid escapes only, integers of 64 bits, floats, true, false, dates and times, arrays (over several lines, with comments and a last comma) and inline tables (on one line, without a last comma), nested less deep than the crate allows. So a TOML file layer that answers has no file at all or a UTF-8 file of that form, and a strict build that succeeds needs this of every file registered. A text without '=' and '[' is loaded only if it holds empty lines and comments, and then as the empty map. The form is necessary, not sufficient: nothing may be set twice (C131).", "quantifier": "every text, every nesting and key length, every world, every registration of layers", "why_tests_cant": "the claim is about the texts that are not accepted, of which there are infinitely many", "anchors": ["src/config_layer/handlers/toml.rs", "src/config_layer/layer_file.rs", "src/config.rs"]}
{"id": "C139", "title": "What a TOML file says is what is loaded", "statement": "Whatever text loads as a Value v, it is a sequence of lines in the TOML grammar (C138), each saying something: an integer says that integer, a float that float, a quoted text its characters with escapes and line ends resolved, a date or time its own form, an array its items in order, an inline table exactly its pairs with no pair setting what another one sets. If the text has no '[[path]]' header, v holds at its full path everything that the settings say, at the top or below a '[path]' header, has a map at the path of every header, and holds nothing else; no two settings and no header and setting clash; nothing is made up: whatever in v is not a map was set by a line, at its path or inside a Value set further up. So a text without brackets is settings line by line and v holds exactly them, and a TOML file layer that answers v has no file (and v is the empty map) or a UTF-8 file that says v; and every Value other than a map in a configuration built strictly from TOML files was set, at its path, by a line of one of the files. Of texts with a '[[path]]' header it is claimed here that v holds the settings before the first header at their paths, none clashing with another (C134 says what the rest means).", "quantifier": "every text that loads, every nesting and key length, every world, every registration of TOML file layers", "why_tests_cant": "the claim is about every text that loads, not only about texts of a form written down beforehand: a reader that misread a single one would break it", "anchors": ["src/config_layer/handlers/toml.rs", "src/config_layer/layer_file.rs"]}
