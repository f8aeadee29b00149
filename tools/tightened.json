{
 "V17": {
  "tightened": [
   "C03_kind_predicates"
  ],
  "note": "is_map is now characterised; rerun as V17b"
 },
 "V18": {
  "tightened": [
   "C03_kind_predicates"
  ],
  "note": "rerun as V18b"
 },
 "V20": {
  "tightened": [
   "C03_kind_predicates"
  ],
  "note": "rerun as V20b"
 },
 "V04": {
  "note": "C04 is about value_vec! alone; indexing is claimed by C02, whose theorems failed"
 },
 "V10": {
  "note": "equivalent edit (control): the program is the same function"
 },
 "K03": {
  "tightened": [
   "C09_f32_is_the_same_number"
  ],
  "note": "rerun as K03b"
 },
 "K13": {
  "tightened": [
   "C14_number_of_bool"
  ],
  "note": "rerun as K13b"
 },
 "K16": {
  "tightened": [
   "C14_number_of_bool"
  ],
  "note": "rerun as K16b"
 },
 "T01": {
  "tightened": [
   "C33_environment_layer_reads_exactly_the_matching_variables",
   "C32_environment_overrides_earlier_layers",
   "C80_prefix"
  ],
  "note": "the specification of trimmed used the model's white-space test; it now has its own list (Spec/EnvSpec.v white_space); rerun as T01b"
 },
 "F07": {
  "tightened": [
   "C60_f32_is_the_f64_rounded"
  ],
  "note": "rerun as F07b"
 },
 "F11": {
  "tightened": [
   "C77_shortest_text_that_reads_back"
  ],
  "note": "new property C77; rerun as F11b"
 },
 "D02": {
  "tightened": [
   "C47_builtin_toml"
  ],
  "note": "rerun as D02b"
 },
 "D05": {
  "tightened": [
   "C39_builder_calls_add_in_order",
   "C39_builder_calls_determine_the_finder"
  ],
  "note": "chains of builder calls are now modelled; rerun as D05b"
 },
 "W01": {
  "tightened": [
   "C85_file_layers_answer"
  ],
  "note": "C31 is about missing files only; what a directory reads as is now C85; rerun as W01b"
 },
 "L01": {
  "tightened": [
   "C85_file_layers_answer",
   "C85_a_strict_build_reports_the_file"
  ],
  "note": "rerun as L01b"
 },
 "L08": {
  "tightened": [
   "C80_has_value"
  ],
  "note": "rerun as L08b"
 },
 "L12": {
  "tightened": [
   "C80_kinds",
   "C80_debug_lists_the_registered_layers"
  ],
  "note": "rerun as L12b"
 },
 "L14": {
  "tightened": [
   "C85_memory_layers_answer"
  ],
  "note": "rerun as L14b"
 },
 "O03": {
  "note": "C26 takes the registered layers as given; that histories register them is C27, whose theorem failed"
 },
 "XL10": {
  "note": "control: which of two equally near decimals is printed is no claim"
 },
 "XL16": {
  "note": "control: equivalent edit"
 },
 "XS12": {
  "note": "control: the wording of serde's message is no claim"
 },
 "O02": {
  "note": "C26 takes the registered layers as given; that histories register them is C27, whose theorem failed"
 },
 "O10": {
  "tightened": [
   "C80_with_file_layer"
  ],
  "note": "rerun as O10b"
 },
 "O11": {
  "tightened": [
   "C80_debug_lists_the_registered_layers"
  ],
  "note": "rerun as O11b"
 },
 "S14": {
  "tightened": [
   "C92_reads_exactly_this",
   "C92_refuses_exactly_this"
  ],
  "note": "rerun as S14b"
 },
 "S26": {
  "tightened": [
   "C92_reads_exactly_this",
   "C92_refuses_exactly_this"
  ],
  "note": "rerun as S26b"
 },
 "S27": {
  "tightened": [
   "C92_refuses_exactly_this"
  ],
  "note": "rerun as S27b"
 },
 "S09": {
  "note": "equivalent edit (control)"
 },
 "S14b": {
  "note": "C60 speaks of bool, numbers, char and String only, so it stays true; unit is C92's, which fails."
 },
 "S27b": {
  "note": "C61 makes no claim about error texts; C92 does and fails."
 },
 "Y08": {
  "note": "C40 is about find_last and stays true; find_first is C39's and C89's, which fail."
 },
 "AA06": {
  "note": "C35 speaks of reads and writes, not of exists(); the claim belongs to C80 and C85, whose theorems failed"
 },
 "BB06": {
  "note": "edit not applied (matched twice); rerun as BB06b"
 },
 "Y11": {
  "note": "C41 is about find_all; the edited find_last is claimed by C40, whose theorem failed"
 },
 "Y28": {
  "note": "C85 covers memory and file layers; the environment layer is claimed by C33, whose theorems failed"
 },
 "CC36": {
  "tightened": [
   "C108_arrays_refused_exactly"
  ],
  "note": "array refusals were stated only for the successful case"
 },
 "DD15": {
  "tightened": [
   "C109_get_layer_gives_the_first_registered"
  ],
  "note": "get_layer over arbitrary layers had no theorem"
 },
 "DD09": {
  "note": "equivalent edit: every name in layer_names has a layer, the edited branch is never reached"
 },
 "4c33287f": {
  "claim": "none",
  "note": "equivalent edit: without its arm, u128 to u128 goes through the checked conversion, which every u128 passes"
 },
 "76594cc4": {
  "claim": "C108",
  "tightened": [
   "C108_overflows_say_so"
  ],
  "note": "the texts of overflow errors were not stated"
 },
 "96852929": {
  "claim": "C100",
  "tightened": [
   "C100_numbers_round_once"
  ],
  "note": "the buffered integer 0 became -0; the specification used the model's own rounding"
 },
 "edbd7112": {
  "claim": "none",
  "note": "the value stands in for the number of checks of a search that panics; nothing is claimed about it"
 },
 "0d1fcf5e": {
  "claim": "none",
  "note": "equivalent edit: a second content key needs a map with a duplicate key, which no Value has"
 },
 "9d01c27f": {
  "claim": "C122",
  "tightened": [
   "C122_refused_exactly"
  ],
  "note": "the refusal texts of the TOML writer were not stated"
 },
 "03657fa1": {
  "claim": "none",
  "note": "maps keyed by Option: the theorems are about keys of key_type (bool, integers, char, String, newtypes of them)"
 },
 "fdeb1448": {
  "claim": "C70",
  "tightened": [
   "C70_the_first_obstacle_is_reported"
  ],
  "note": "which error is reported was not stated"
 },
 "b58060dc": {
  "claim": "none",
  "note": "equivalent edit: the arm is never reached, deserialize_any never calls visit_some or visit_newtype_struct"
 },
 "36563e9f": {
  "claim": "C100",
  "tightened": [
   "C100_numbers_round_once"
  ],
  "note": "buffered integers became f32 twice as large; the specification used the model's own rounding"
 },
 "8f2e737d": {
  "claim": "C121",
  "note": "run on a tree that did not build this file yet; repeated on the later tree"
 },
 "018bb869": {
  "claim": "C112",
  "tightened": [
   "C112_unknown_variants_are_named"
  ],
  "note": "new theorem"
 },
 "8a5628b8": {
  "claim": "C112",
  "tightened": [
   "C112_wrapped_refusals"
  ],
  "note": "new theorem"
 },
 "44bfa7d7": {
  "claim": "C100",
  "tightened": [
   "C100_wide_types_are_refused"
  ],
  "note": "new theorem"
 },
 "00bdebbc": {
  "claim": "none",
  "tightened": [],
  "note": "equivalent: every i128 is in the range of i128, so to_number gives the same for well-formed Values"
 },
 "fa0ff7c8": {
  "claim": "none",
  "tightened": [],
  "note": "equivalent for well-formed Values: every u64 is in the range of i128, u64 and u128"
 },
 "1c1c490e": {
  "claim": "none",
  "tightened": [],
  "note": "the wording of this serde error is not claimed (DESIGN.md)"
 },
 "56449b76": {
  "claim": "none",
  "tightened": [],
  "note": "the wording of serde's invalid type/value/length errors out of the buffer is not claimed (DESIGN.md)"
 },
 "684ec545": {
  "claim": "C116",
  "tightened": [
   "C116_incomplete_finders_check_nothing"
  ],
  "note": "a finder without folders or extensions makes no checks"
 },
 "6ccc1065": {
  "claim": "C116",
  "tightened": [
   "C116_incomplete_finders_check_nothing"
  ],
  "note": "a finder without folders or extensions makes no checks"
 },
 "710e2b94": {
  "claim": "none",
  "tightened": [],
  "note": "equivalent: only used for finite numbers when searching the shortest digits"
 },
 "7c71f9a9": {
  "claim": "C55",
  "tightened": [
   "C55_wide_integers_fail"
  ],
  "note": "the message names the type"
 },
 "f4c69e77": {
  "claim": "C55",
  "tightened": [
   "C55_wide_integers_fail"
  ],
  "note": "the message names the type"
 },
 "a84aa5e6": {
  "claim": "C100",
  "tightened": [
   "C100_missing_field_is_named"
  ],
  "note": "a missing required field is named"
 },
 "c9de5414": {
  "claim": "C101",
  "tightened": [
   "C101_empty_array_lacks_the_tag"
  ],
  "note": "the missing tag is named"
 },
 "d29f6de9": {
  "claim": "none",
  "tightened": [],
  "note": "equivalent: the number is not looked at for 128-bit types"
 },
 "c8000408": {
  "claim": "C116",
  "tightened": [
   "C116_incomplete_finders_check_nothing"
  ],
  "note": "an incomplete finder makes no exists() call; stated after this survivor"
 },
 "89148e51": {
  "claim": "C102",
  "tightened": [
   "C102_non_maps_are_refused"
  ],
  "note": "the message names the kind expected; stated after this survivor"
 },
 "5e4a3791": {
  "claim": "none",
  "tightened": [],
  "note": "equivalent: stripping the empty prefix any number of times changes nothing"
 },
 "31f86587": {
  "claim": "C121",
  "tightened": [
   "C121_match_path"
  ],
  "note": "a custom extension matches no path; stated after this survivor"
 },
 "35add73b": {
  "claim": "C77",
  "tightened": [
   "C77_shortest_text_that_reads_back"
  ],
  "note": "ties between two shortest decimals were settled by an Example only; now part of the theorem"
 },
 "5377463d": {
  "claim": "C113",
  "tightened": [
   "C113_levels_of_a_read"
  ],
  "note": "the levels below warning were not stated; now they are"
 },
 "9623955a": {
  "claim": "none",
  "tightened": [],
  "note": "the number that stands in for a search that panics; no such search exists for a finder that validates"
 },
 "c0822abd": {
  "claim": "C112",
  "tightened": [
   "C112_flattened_needs_a_map"
  ],
  "note": "the error for a Value that is not a map was not stated; now it is"
 },
 "dc21aa55": {
  "claim": "none",
  "tightened": [],
  "note": "the text of an error that no call leads to (C95)"
 },
 "f913acf5": {
  "claim": "none",
  "tightened": [],
  "note": "equivalent: an i64 always fits i64 and i128, so checking it changes nothing"
 },
 "2d86ceba": {
  "claim": "C55",
  "tightened": [
   "C55_wide_integers_fail"
  ],
  "note": "the mutant was run against a copy taken before C55_wide_integers_fail named the text; with the committed theorem the same edit no longer proves"
 },
 "261a1f6f": {
  "claim": "none",
  "tightened": [],
  "note": "equivalent: the number is a stand-in for an outcome no search of a validating finder reaches"
 },
 "b842a5d3": {
  "claim": "none",
  "tightened": [],
  "note": "equivalent: with no digits after the e the result is None either way"
 },
 "6c6224ad": {
  "claim": "none",
  "tightened": [],
  "note": "equivalent: == on floats does not tell 0.0 from -0.0, so comparing with either zero gives the same test"
 },
 "6eec4d7c": {
  "claim": "none",
  "tightened": [],
  "note": "unreachable: a map value never has the same key twice, so the duplicate-field message cannot be produced"
 },
 "f4d37bee": {
  "claim": "none",
  "tightened": [],
  "note": "unreachable: a map value never has the same key twice, so the duplicate-field message cannot be produced"
 },
 "88aeb4c2": {
  "claim": "none",
  "tightened": [],
  "note": "equivalent: ser_unit is defined as ser_none"
 },
 "a64d1625": {
  "claim": "none",
  "tightened": [],
  "note": "equivalent with the default features: adding the supported formats is adding toml"
 },
 "abf2ac10": {
  "claim": "none",
  "tightened": [],
  "note": "unreachable: the deserializer answers an integer hint with an integer of the same type"
 },
 "d8ae521a": {
  "claim": "none",
  "tightened": [],
  "note": "unreachable: the keys of one map are read as one type, so two keys compared have the same shape"
 },
 "9809e5f6": {
  "claim": "C137",
  "tightened": [
   "C137_saved_text_looks"
  ],
  "note": "the written form differs but reads back the same; new property C137 says what the written form is"
 },
 "PP16": {
  "tightened": [],
  "note": "the C137 theorems failed; C129 is about how numbers are read, so it rightly stays: it was expected by mistake"
 },
 "5f4cfc99": {
  "claim": "C137",
  "tightened": [
   "C137_saved_text_looks"
  ],
  "note": "no text would be written literally, which reads back the same; these edits were run before C137 said what the written form is"
 },
 "f986b99b": {
  "claim": "C137",
  "tightened": [
   "C137_saved_text_looks"
  ],
  "note": "no text would be written literally, which reads back the same; these edits were run before C137 said what the written form is"
 },
 "8b556941": {
  "claim": "none",
  "tightened": [],
  "note": "the wording of parse errors is not modelled (DESIGN.md)"
 }
}