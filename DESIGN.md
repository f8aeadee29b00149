# Formal model of BakuninConfig in Rocq (Coq 8.16.1)

Layout (`rocq/theories`):

| directory | content |
|---|---|
| `Model/` | executable Gallina transcription of /repo, one definition per Rust function, each citing file:lines |
| `Spec/` | small independent specifications (extensional equality of Values, deep-merge and layer-resolution specs, numerals, candidate lists, ...) that mention no helper of the model |
| `Proofs/` | lemmas and proofs |
| `Properties/` | one theorem per claim, closed by `exact`, with `Print Assumptions` and non-vacuity `Example`s |
| `Tests/` | the assertions of /repo's own unit tests, examples and README evaluated on the model (evidence that the transcription is faithful; no claim rests on them) |

A Rust `Value` is an inductive `value`; a `HashMap<String, Value>` is the list of its
entries in its current iteration order.  Iteration order is arbitrary in Rust, so every
theorem either quantifies over arbitrary entry lists or states its conclusion up to
`vequiv` (equality of maps as finite maps, at every depth), and order-independence of
`==`, `merge`, `build_value`, struct deserialisation is itself a theorem.

Panics are explicit (`outcome := Done | Fail | Panic`), `Result` is `result := Ok | Err`,
a `&mut` method returns the new receiver.

## Per-property plan

| id | what is modelled | how it is proved |
|---|---|---|
| C01 | `set/get/len` on `VMap` under a fold of set calls | induction over the history, against a "last binding wins" function; length = number of distinct keys (`nodup`) |
| C02 | `push/at/len/iter` under a fold of pushes | induction over the history; `nth_error`; iterator run for any number of `next` calls |
| C03 | `set/push/get/at/iter/len` on wrong kinds | case analysis on the receiver |
| C04 | the loops generated by `value_map!`/`value_vec!` | induction on the listed entries, `Panic` excluded |
| C05 | derived `PartialEq` (`v_eqb`) | structural induction; `v_eqb` = `vequiv` on NaN-free values; symmetry/transitivity; permutation invariance |
| C06 | iterated `get` | induction on the path, against an independent path-lookup relation |
| C07 | `Display` and `TryInto<String>` | structural induction / cases |
| C08 | integer arms of ten `TryInto` impls | cases on type and variant, `lia` |
| C09 | `From` impls and `TryInto` | cases; induction for Vec/HashMap |
| C10, C11 | `as` casts of floats, bounds check | reals of Flocq (`SF2R`, `Ztrunc`); C11 is refuted with witnesses and its exact behaviour characterised |
| C12, C13 | `FromStr`/`Display` of integers | independent numeral semantics (`foldr` of digit weights); induction on digits |
| C14 | `TryInto<bool>` | cases; lower-casing lemma for ASCII targets |
| C15 | `as f64` | Flocq `binary_normalize_correct` (round to nearest even) |
| C16 | shortest printing and correctly rounded parsing | the printed digits are the first k-digit decimal (k = 1..17) that rounds back; Flocq rounding theorems for both directions |
| C17, C18 | `TryInto<char>`, `into_*_or`, refs | cases |
| C19-C25 | `merge`, `clone_merge` | key-wise characterisation, then path-wise; congruence of merge for `vequiv`; C24 refuted + proved without kind conflicts |
| C26 | `build_value` over arbitrary readable layers | resolution spec on the list of layer values (per-key descent), induction over layers |
| C27-C31 | `push_layer`, `get_layer`, `build_value` | induction over operation histories / layer lists |
| C32-C34 | `EnvironmentConfigLayer` | induction over the environment list; C34 refuted + conditional |
| C35-C37 | file layer read/write on a file-system model with faults | cases; C37 refuted |
| C38 | `add_file_layer` | path lemmas: extension of a path |
| C39-C44, C46 | the four searches with a time-indexed existence oracle | nested loops = one loop over the candidate list; induction; C44 partly refuted (u16) |
| C45, C47, C48 | `join`/`with_extension`, `FileExtension`, OS directories | list lemmas on separators and dots; refutations |
| C49-C53 | expansion of `create_config!` | induction over layer clauses; C50 refuted for duplicate names |
| C54 | crash states of `fs::write` | cases on the crash point |
| C55-C64 | `ValueSerializer`, `Deserializer for Value`, `ValueVisitor`, on a grammar of Rust types/data | mutual induction on types/data; refutations for C55, C58, C64 |
| C65 | deserialisation of permuted maps | induction on types with text keys; refuted for other keys |
| C66 | failure set of `ValueSerializer` | mutual induction on data: success iff no 128-bit integer and no text-less key |
| C67 | `MapAccess` of `Value` (`Map` iterator pair) under any call sequence | simulation by (entries, number of values taken) |
| C68 | `str::parse::<f64>` as `TryInto<f64>` uses it | independent grammar of decimal texts (`Numerals`), Flocq `round_mode` |
| C69 | `ValueSerializer`: the shape of every datum | relational spec `shape` (Spec/ShapeSpec.v), mutual induction, determinism |
| C70 | `ValueVisitor` on everything a `Deserializer` can present | relational spec (Spec/VisitorSpec.v), induction on presentations |
| C71-C74 | composition Value -> format -> Value for abstract formats (`keeps_all`, `keeps_numbers`) | path-wise relation "answers alike" preserved by every step |
| C75, C76 | `build_value` and `create_config!` re-run in a monad where other processes change the world before every access (Model/Concurrent.v) | simulation; `alone` = the sequential model; invariants over the access sequence |
| C77 | the digit search of float printing | minimality: a shorter decimal in the rounding interval would have been found; nearest: Flocq rounding intervals |
| C78 | environment + layers + `Deserializer for Value` composed | C26/C32/C61 composed per field |
| C79 | `get_layer(..).write_value(..)`, then `build_value` | frame property of `fs_write`, congruence of `build_value` in the layer values |
| C80 | `Debug`, `has_value`, `get_prefix`, `Display`, `with_file_layer` | induction over the history |
| C81 | `conversion_error!` arguments of every `TryInto` | cases against a table of labels |
| C82 | `PartialEq for ModelError`, the `Display` texts of all error enums (Model/Errors.v) | injectivity of the message templates; IO texts are a parameter |
| C83, C84 | one file under interleaved `open/read/write` system calls and crashes (Model/Bytes.v) | invariants of schedules; converse by construction of schedules; refutations by explicit schedules |
| C85 | `read_value` of file and memory layers | relation `file_answer` (Spec/ReadsSpec.v), equivalence |
| C86 | `build_value` in two worlds | congruence of `merge` up to map order, layer by layer |
| C87 | `create_config!` and `build_value` composed | each layer's contribution (Spec/StartSpec.v), resolution of C26 over the contributions, per-key corollaries |
| C88 | `merge` and `build_value` under permutations of layers | characterisation by path-wise agreement (Spec/AgreeSpec.v), induction on Values and on permutations |
| C89 | the four searches on grown finders and in two file systems | candidates of an appended folder list; congruence of the flattened searches |
| C90 | `deserialize`, then `serialize`, then `deserialize` | induction on the type: loaded data have the type (ranges from `into.rs`, validity of floats from Flocq), then C57; serialisation respects sameness of data |
| C91 | recursive types as type expressions with a name for themselves and their finite unfoldings (Spec/RecSpec.v); `deserialize`, `serialize` | deserialisation is congruent in what stands for Self on Values nested less deeply; induction on the depth of the Value |
| C92 | `deserialize` into every type; the separate relations `reads_as` and `refuses` (Spec/ReadSpec.v) refer only to the conversions and `Display` | induction on the type: `de` computes both relations (Proofs/ReadAs.v) |
| C93 | `merge` / `build_value` followed by `deserialize`; the separate relation `updated` (Spec/OverrideSpec.v) on typed data mentions neither | induction on the type with C19 (keys of a merged map) and C92 (Proofs/Override.v) |
| C94 | `TryInto<String>`, Rust's float printing and the parsers, `deserialize`, the environment layer | shortest digits (C77) of a whole float have no fraction and are the number itself up to 2^53; canonical numerals (C12, C13) (Proofs/AsText.v) |
| C95 | every `deserialize_*` method (de.rs:9-262) and `ValueSeq` (de.rs:264-295) as functions from hints to visitor calls (`Model/Deserializer.v`); serde's visitors on top | cases against the table `Spec/CallsSpec.v`; `de = de_calls` by induction on types (Proofs/Calls.v) |
| C96 | serde's derive attributes (default, skip, alias, rename, deny_unknown_fields) on top of `Deserializer for Value` (`Model/Attributes.v`), configurations, the environment layer | relational spec (Spec/AttrSpec.v), induction on types, loop invariant on filled slots (Proofs/Attrs.v), layer resolution (C26) |
| C97 | the compound serialisers as call-by-call machines with replies (`Model/SerCalls.v`), including a failed call being ignored, `Vec::with_capacity`'s capacity panic (the size of `Value` is a parameter) | invariant relating the serialiser's state to the history of calls (`pending`, `writes` in Spec/SerCallsSpec.v), induction on the calls from the right (Proofs/SerCallsProofs.v) |
| C98 | `Model/Toml.v`: the toml crate's data rules (what can be written, what document, what is presented on reading); the text syntax a parameter | documents as Values, induction on Values; writing succeeds iff `writable`; image by `same_numbers true`; `right_syntax lim` (documents nested at most `lim` deep) is met by the crate's own syntax, C126 |
| C99 | C98 with `create_config` | `same_numbers` is preserved by merging on the left and by merging two images of one Value; replay of the C53 argument |
| C100 | `Model/Buffered.v`: serde's `Content` buffer, its two deserialisers with the visitors of all types of `ty`, over `deserialize_any` and the map/sequence accesses of de.rs | `strict` specification (mutual with tuples), induction on types; buffer is injective with image "no 128-bit number"; comparison with `de` by induction; refuted examples |
| C101 | `de_untagged`, `de_tagged` | induction on the variant list / the entries |
| C102 | `de_flat`: own fields as in `de_struct`, the rest buffered, parts in turn | reduction to C92 for own fields and to C100 for parts; environment statements from C32 |
| C103 | `w_target` in `Model/World.v`: the file each path leads to; all file operations go through it | frame lemma per file, replacement of layer readings, invariant on the log of own writes (Proofs/Aliases.v) |
| C104 | serde's derived `Serialize` of untagged enums as calls on `ValueSerializer` (`Model/BufferedSer.v`), read back by `Model/Buffered.v` | induction on types: the strict rules accept what was written (Proofs/BufferedTrips.v) |
| C105 | derived `Serialize` of internally tagged enums and serde's `TaggedSerializer` on `ValueSerMap` | entries written in order, "last one remains" specification, strict reading of the rest (Proofs/BufferedTripsMore.v) |
| C106 | derived `Serialize` of flattened structs and `FlatMapSerializer` on `ValueSerMap` | as C105, parts taken in turn |
| C107 | derived `Serialize`/`Deserialize` of adjacently tagged enums on the model's (de)serialiser (Model/Adjacent.v) | case analysis on the first relevant entry; the tag is read with `deserialize_enum`, which is `unimplemented!()` |
| C108 | serde's impls for sets, arrays, NonZero, Duration, SystemTime, Range, FromStr types, `&str` (Model/StdTypes.v) | fold invariant for sets; reduction to tuples and attributed structs (C96); integer division for times |
| C109 | `BakuninConfig` over arbitrary trait implementations with state (Model/Stateful.v) | induction over the registered layers; refinement to `build_value` for built-in layers |
| C110 | nothing new: histories of `create_config`, `macro_crash`, `layer_write` (Spec/LifeSpec.v) | induction over the history with C50, `run_twice` for settling, C87 for the upgrade |
| C111 | nothing new: `build_value` then `de`; the specification (Spec/SettleSpec.v) decides place by place from the list of mentions, without merging | mutual induction over the type with `defs` and `trailing_maps` of the override specification (C61) and `reads_as` (C92) |
| C112 | `deserialize_enum` of serde's buffer on top of C100 (Model/BufferedEnum.v), in an untagged wrapper and in a flattened struct | C100's exact characterisation per variant; round trip from `strict_returns` (C104) |
| C113 | the same functions once more with the records they log (Model/Logging.v): reading, building, registering, the finder's folders, the whole macro | projection to the unlogged functions; an inductive description of the records per layer, build and start, matched by induction; warnings = failing layers; quiet starts by induction over the run |
| C114 | C113's model in two worlds | non-interference: simultaneous induction over two descriptions whose layers agree in kind and place |
| C115 | nothing new: `create_config`, `build_value`, then `de`; specification of what decides a key in Spec/TypedStartSpec.v | C87 (key by key), C111 (`settled`) and C92 (`reads_as`); for the first start, induction over the type: Values with the same numbers are read alike (Proofs/SameReads.v) |
| C116 | Model/Checks.v: the number of `exists()` calls, read off the check counter the searches of Model/Finder.v already carry | induction over the flat candidate lists for a constant file system; first extension with a separator by decidability |
| C117 | Model/Readme.v: the README's long program, with its literals as parameters | clause by clause against `run_layer`; the layers of both are compared as ordered lists, a missing file layer reads as the empty map |
| C118 | Model/Readers.v: types built from parts `ROwn r w` with arbitrary reading and writing functions; containers as in Model/Serde.v; map keys are Strings, option-like hand-written parts are not covered | induction over the type; each loop is split at the first part that stops |
| C119 | the same types, written by `ser_r` | induction over the type, for an arbitrary part; the written Value is described by `writes`, then read back part by part |
| C120 | the searches of Model/Finder.v with their time-indexed existence oracle | dialogues (lists of questions and answers) specified without the code in Spec/SearchSpec.v; flat loops simulate them; existence and determinism of the dialogue for every oracle |
| C121 | Model/BytePaths.v: the finder, `add_file_layer`'s decision and `OSDirectory` over byte paths (`std::path` on Unix), names and extensions as their UTF-8 bytes | UTF-8 keeps ASCII bytes apart from all others, so every path function commutes with encoding; simulation of the four searches |
| C122 | the writer of Model/Toml.v under both rules; specification `becomes` / `stuck` (Spec/TomlSpec.v) | soundness by induction over the Value, completeness by mutual induction over the specification |
| C123 | C118's types over the whole start (Model/Macro.v, Layers.v, Readers.v); `decides` / `unmentioned` of C115 | the built Value holds at each key what decides it; inversion of the struct reader, both directions |
| C124 | C118's types over the TOML layer; specification `outlives`, `same_datum` (Spec/PartsSpec.v) | induction over the datum: what a file keeps of the written Value is read by the same parts; C122 for the lost entries |
| C125 | Model/Converted.v: serde's `from` / `try_from` / `into` as derive expands them, over C118's types | case analysis of the inner read; invariants by induction over the datum |
| C126 | Model/TomlText.v: the writer (`toml_edit`'s pretty document: keys, quotes, escapes, arrays, sections) and the reader (its grammar) of TOML text | read-back of every printed token, value, line and section, by induction over the document (Proofs/TomlLex.v, TomlNum.v, TomlValues.v, TomlDoc.v, TomlProper.v) |
| C127 | the reader of Model/TomlText.v on arbitrary texts; Spec/TomlTextSpec.v | simulation between the readings of two texts (Proofs/TomlSim.v, TomlJoin.v); frame lemmas for the tables built (Proofs/TomlFrame.v) |
| C128 | the reader's nesting limit (a parameter `lim`) | a Value nested `lim` deep for every `lim`; C126 below the limit |
| C129 | numbers, booleans and quoted texts of Model/TomlText.v; `toml_integer`, `toml_float` in Spec/TomlTextSpec.v | inversion of the scanner in both directions (Proofs/TomlWords.v); correct rounding from C68 |
| C130 | documents: keys, values, tables of Model/TomlText.v; a grammar and `holds_exactly` in Spec/TomlGrammar.v | mutual induction over the grammar for the reader (Proofs/TomlRead*.v); an invariant on the kind of node at every path for the tables (Proofs/TomlKinds.v, TomlTables.v); TomlMeaning.v |
| C131 | as C130 | the converse invariant (`thist`) over the headers, for every document of the grammar that loads |
| C132 | dates, times, multi-line strings of Model/TomlText.v; Spec/TomlDates.v (calendar, times, offsets) and Spec/TomlGrammar.v | reader and grammar are equivalent, by cases (Proofs/TomlDates.v); induction over the grammar of long texts (TomlReadLong.v); two refuted claims by computation |
| C133 | Model/SkipSer.v (which fields serde hands to `serialize_field`, src/model/ser.rs:211-217, 375-386; reading as in C96) | `writes` and `comes_back` (Spec/SkipSpec.v) by induction over the type; distinctness of written keys; C19 for the layers |
| C134 | `put_section`, `descend`, `on_last` of Model/TomlText.v; Spec/TomlArrays.v (recursive grammar of documents, `says`) | mutual induction over the grammar; an element is a document run inside the last table of the array (Proofs/TomlArrays.v), C130 for its settings and tables; refusals by what the key holds |
| C135 | the same definitions of Model/TomlText.v; Spec/TomlOrder.v (sections, swaps) | tables under construction up to the order of keys: every step respects it, and two steps at paths that part commute (Proofs/TomlOrder.v); C134 for mixed files |
| C136 | the reader of Model/TomlText.v on arbitrary texts; Spec/TomlTextSpec.v (no_cr_end) | the simulation of C127, in which the second text may also lack the last line end (Proofs/TomlSim.v, TomlJoin.v, TomlHand.v) |
| C137 | the writer of Model/TomlText.v; Spec/TomlLook.v says in inductive rules, without the writer's functions, what a text, key, value, line, header and file look like | the rules hold of exactly one text, the writer's (Proofs/TomlLook.v); no control characters by induction over the rules |
| C138 | the reader of Model/TomlText.v; Spec/TomlForm.v is a grammar of files without values (strings, escapes, keys, paths and words from Spec/TomlGrammar.v and Spec/TomlTextSpec.v) | every function of the reader inverted: what it takes off the text has the form (Proofs/TomlForm.v), by induction over length or nesting |
| C139 | as C138; Spec/TomlSays.v is the grammar of Spec/TomlForm.v with what everything says | the inversions of C138 with values; what tables hold from the invariant of C131 (Proofs/TomlSays.v) |

No property was found to be inexpressible in a model.  Where the code violates the statement
a user would expect, `properties.jsonl` states the exact behaviour of the code instead and a
theorem with suffix `_refuted` gives the witness against the expected one.  Where a statement
depends on an external library (the TOML codec, OS error texts) the needed fact is an explicit
hypothesis of the theorem.

## Trusted base

* Coq 8.16.1's kernel (and `vm_compute` for closed computations), the standard library,
  Flocq 4.1.0 as a library of lemmas.
* `Print Assumptions` stands below every theorem in `Properties/`.  It prints
  `Closed under the global context` except for the following, which go through real numbers
  and rest on axioms of the standard library only:
  - `C10_float_truncates_when_representable`, `C10_truncation_is_a_function`,
    `C10_small_types_reject_the_rest`, `C10_u128_refuted`, `C11_64_bit_and_i128_saturate`,
    `C11_small_types_are_errors`, `C11_u128`, `C11_every_float_is_covered`,
    `C94_large_floats_differ_refuted`:
    `ClassicalDedekindReals.sig_forall_dec`,
    `FunctionalExtensionality.functional_extensionality_dep`;
  - `C09_f32_is_the_same_number`, `C15_integers_round_to_nearest`, `C15_exact_up_to_2_53`,
    `C16_floats_survive_printing`, `C16_distinct_floats_print_differently`,
    `C57_typed_data_survives`, `C57_map_free_data_survives_exactly`,
    `C60_f32_is_the_f64_rounded`, `C64_plain_option_survives`,
    `C68_decimal_texts_round_to_nearest`, `C69_serialised_shape`,
    `C69_the_shape_determines_the_value`, `C70_reads_what_is_presented`,
    `C70_what_is_presented_determines_the_value`, `C70_values_read_are_well_formed`,
    `C73_typed_data_survives_a_format`, `C77_shortest_text_that_reads_back`,
    `C78_untouched_fields_keep_their_default`, `C90_loaded_data_have_their_type`,
    `C90_loaded_data_can_be_saved`, `C90_saved_data_load_and_save_alike`,
    `C90_saved_struct_has_exactly_its_fields`, `C91_recursive_data_survive`,
    `C94_integer_as_text`, `C94_float_as_text`, `C94_whole_float_as_text`,
    `C94_fractions_are_no_integers_as_text`, `C94_numbers_are_no_booleans_as_text`,
    `C94_typed_read_as_text`, `C94_through_the_environment`,
    `C104_survives_unless_an_earlier_variant_reads_it`, `C104_is_always_read_back`,
    `C105_survives`, `C106_survives`,
    `C100_numbers_round_once`, `C100_floats_round_to_f32`,
    `C108_sets_come_back`, `C108_arrays_come_back`, `C108_range_comes_back`,
    `C112_wrapped_comes_back`, `C112_flattened_comes_back`, `C124_plain_parts_outlive_a_file`,
    `C126_the_syntax_is_right`, `C126_what_is_saved_is_loaded`, `C126_the_text_tells_values_apart`,
    `C127_settings_put_first_are_added`, `C127_sections_put_last_are_added`,
    `C128_within_the_limit_both_hold`, `C129_floats`, `C130_documents_load`,
    `C131_what_loads_has_no_clash`, `C131_simple_keys`, `C131_without_tables`,
    `C132_what_a_word_can_be`, `C134_arrays_of_tables_load`,
    `C134_no_array_over_something_else`, `C134_no_table_over_an_array`,
    `C135_sections_in_any_order`, `C135_settings_in_any_order`, `C135_rearranged_files_load_the_same`,
    `C135_mixed_sections_load`, `C137_saved_file_looks`, `C137_saved_text_is_plain`, `C138_what_loads_has_the_form`,
    `C138_a_layer_that_answers`, `C138_a_strict_build_that_succeeds`,
    `C138_without_equals_and_brackets`, `C138_the_form_is_enough_refuted`,
    `C139_what_is_said_is_loaded`, `C139_files_of_settings`, `C139_what_a_layer_answers`,
    `C139_what_says_something_has_the_form`, `C139_nothing_is_made_up`,
    `C139_a_built_value_is_written`:
    the two above, `ClassicalDedekindReals.sig_not_dec` and `Classical_Prop.classic`.

  A tool that lists all axioms of the loaded libraries also shows the fields of the
  standard library's opaque modules `Coq.Reals.Rdefinitions.RbaseSymbolsImpl`/`RinvImpl` and
  `Coq.ssr.ssrunder.Under_rel`; they have bodies (sealed by a module type) and are no axioms.
* The faithfulness of the transcription in `Model/` (comments cite every source line range).

### External behaviour written down in the model (trusted)

* Rust std: strings, UTF-8, `trim`, `trim_start_matches`, `to_lowercase` (only what can affect
  a comparison with an ASCII literal), integer/float parsing and printing, `as` casts,
  `HashMap` (finite map with arbitrary iteration order), `Path::{join,with_extension,extension,exists}`
  on Unix and valid-UTF-8 paths, `std::fs::{read_to_string,write}`, `std::env::vars_os`.
* `f64` printing is "the shortest digits that read back, the nearest of that length, the upper
  one of two equally near" and parsing is correctly rounded (Flocq's `binary_normalize`);
  there is a single NaN.
* `serde`: which `Serializer`/`Visitor` method each standard or derived impl calls; derived
  structs: unknown fields ignored through `IgnoredAny` (which accepts every Value, 128-bit
  integers included), duplicate fields impossible (a `HashMap`), a missing field is `None` for
  `Option` and an error for every other type.
* serde's buffer (`serde::__private::de`, C100-C102): `ContentVisitor` has no `visit_i128`/`visit_u128`;
  `ContentDeserializer` (flattened structs, tagged enums) takes empty maps and sequences for units,
  `ContentRefDeserializer` (untagged enums, flattened maps) does not; arrays must be used up; a derived
  struct also has `visit_seq`, an untagged struct variant does not; the wording of "invalid type",
  "invalid value" and "invalid length" errors out of the buffer is not modelled.
  Writing such types (C104-C106): derived untagged enums serialise their content alone; tagged unit and struct
  variants are structs with the tag first, newtype variants go through `TaggedSerializer`; flattened structs open a
  map and go through `FlatMapSerializer`; the wording of "cannot serialize tagged newtype variant" is not modelled.
  Enums out of the buffer (C112): `deserialize_enum` takes a string or a one-entry map, a unit variant's content is read as `()`.
  Adjacently tagged enums (C107): since serde 1.0.181 the tag is read with `deserialize_enum`.
  Standard types (C108): serde's impls as written in `Model/StdTypes.v`; the wording of the errors of NonZero,
  FromStr types and borrowed text is not modelled; `Range<Option<T>>` is not covered.
* `toml` crate: an arbitrary pair of functions `codec`; theorems that need round-tripping
  have it as a hypothesis.  That TOML is a `keeps_numbers` format in the sense of C72-C74
  (each entry survives, with a possibly different integer type; entries without a value are
  left out) is not proved about the crate.
  For C98/C99 its data rules are written down in `Model/Toml.v` (toml 0.8): map entries holding none are
  left out; a none inside an array is an error (strict) or drops the entry (lenient: both are treated);
  u64 above i64::MAX and 128-bit integers are errors; a document is a table; integers are presented as i64,
  a date as a map with the key `$__toml_private_datetime`.  There the text syntax is a parameter (`toml_syntax`);
  for C126-C132 and C134-C139 it is written down in `Model/TomlText.v` (toml 0.8 over toml_edit 0.22; the crate's source is not in the
  sandbox, so the grammar and the printing rules are transcribed from knowledge of that crate): what `to_string_pretty` prints, and which texts are read as
  which documents.  `lim` is its recursion limit (80 in toml_edit).  The wording of parse errors is not modelled, nor the order
  of keys in what is printed beyond what the rules fix; a date is read and printed as a normalised text.
* `directories::BaseDirs` and `current_dir`: arbitrary values (`platform`), read at the start of
  a finder run or macro clause.
* `Path::with_extension` panics on a separator in the extension (C45): behaviour of recent
  std versions; older ones accept it.
* Links: `w_target` says which file each path text leads to; it is arbitrary, the library's own
  operations do not change it (`fs::write` follows links), other processes may (C76).  Writing one
  file never changes what is at another one (a full disk is `w_room`, fixed per file).
* Model/Concurrent.v: one access to the operating system (an existence check, a whole read, a
  whole write) is atomic, other processes act between accesses.  Model/Bytes.v: one system call
  is atomic, other processes act between calls, system calls on the one file do not fail.
* Model/Errors.v: the text of an `io::Error` is a parameter; the wording serde gives to
  "invalid type" messages of the visitor's key errors is not modelled (only that it is an error).

### Modelled / not modelled

Modelled: all of src/model/*.rs, src/config.rs, src/config_macro.rs, src/config_layer/*.rs
(including handlers/toml.rs), src/file_finder/*.rs, with default features.

Not modelled: the `json` feature (it does not compile in this commit: it uses the `json5`
crate, absent from Cargo.toml, and a missing `config_layer::Result`); the wording of log records, their filtering by the
installed logger, and what user-written layers and handlers log (the records themselves: C113); `Debug`
text formatting (only the set of pairs shown); allocation failure, stack overflow on deep
recursion, `usize` overflow; NaN payloads; non-UTF-8 paths (outside C121, paths are texts; C121 shows that nothing is lost);
`ConfigLayer` implementations with interior mutability outside C109 (elsewhere a custom layer is a function of the
world); serde attributes other than `default`, `skip_deserializing`, `alias`, `rename` `deny_unknown_fields` (C96), `untagged`, `tag`, `flatten` (C100-C102), `tag` with `content` (C107), `from`, `try_from`, `into`, `with` and `deserialize_with` (C118, C125), `skip_serializing`, `skip_serializing_if`, `skip` and `rename(serialize, deserialize)` (C133), e.g. `remote`; byte strings inside buffered types, enums inside buffered types other than C112's, buffered types inside the buffer (inside ordinary structs, lists, maps and options: C118, C119), `flatten` of enums and options.

## Findings (statements that are false of the code)

* C11: `NaN` converts to 0 for every integer type; i64/u64/i128 saturate silently, u128 saturates at `i128::MAX`.
* C24: `merge` is not associative when the middle layer has a non-map where both others have maps.
* C34: the env prefix is stripped repeatedly (`trim_start_matches`), so `P+P+k` and `P+k` collide.
* C37: file layers say `can_write() == false` although `write_value` works.
* C44: the u16 result index overflows at the 65536th result (panic in debug, wrap in release).
* C35: a write that runs out of space truncates the old file; C54/C83: the same for a crash, and for readers meanwhile.
* C45: `with_extension` replaces the tail of dotted names (`my.app` -> `my.toml`); empty name gives `folder.toml`.
* C47: `FileExtension::from("toml")` is `Custom`, whose `match_path` is always false.
* C50: two layers with the same name and `init: true`: the second one writes the defaults over the
  first layer's existing file.
* C55: 128-bit integers cannot be serialised into a Value. C58/C59: enums and byte buffers panic
  on deserialisation. C64: `Some(None)` collapses to `None`.
* C52: a second `create_config!` run keeps all files but need not register the same layers;
  C53: a created default file overrides earlier layers with the defaults it was created from.
* C65: maps with integer, bool or char keys may deserialise differently from run to run.
* C74: an override by `None` is lost through TOML.  C75/C76: builds are no snapshots, and a file
  created between check and write is overwritten.  C80: `has_value` does not mean readable.
* C81: char conversions report wrong type names.  C84: two writers can leave a mixture.
* `create_config!` does not compile with `AppConfig("x")`-style folder arguments or `AppHome`
  (the macro expands to names that do not exist); such calls are outside the model.
* C128: a Value nested deeper than the TOML crate's recursion limit is saved without an error and cannot be loaded again.
  C127: settings appended to a TOML file fall into its last section.
* C132: a date in a TOML file is loaded as a map with a private key, cannot be read as a `String`, and is saved as a table.
