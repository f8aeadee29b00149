(** C08, C09, C12-C14, C17, C18: conversions between Values and native types
    (the parts that need no real-number reasoning; see P03_Floats for C10, C11,
    C15 and C16). *)
From Coq Require Import ZArith List Bool String Lia.
From Coq Require Import Floats.SpecFloat.
Import ListNotations.
From Verif.Model Require Import Text Num Flt Value Convert.
From Verif.Spec Require Import Spec Numerals.
From Verif.Proofs Require Import Basics Conversions.
Open Scope Z_scope.

(** C08. *)
Theorem C08_int_conversion_exact_or_error : forall v z src t, wf v -> int_value v z src ->
  (fits t z -> into_int t v = Ok z)
  /\ (~ fits t z ->
      into_int t v = Err (EConversion src (type_name t) (lit "Number value is out of target bounds"))).
Proof. exact into_int_int. Qed.
Print Assumptions C08_int_conversion_exact_or_error.

(** The same read backwards: an Ok result is the number itself, and it fits. *)
Theorem C08_no_wrap : forall v z src t n, wf v -> int_value v z src ->
  into_int t v = Ok n -> n = z /\ fits t z.
Proof. exact into_int_no_wrap. Qed.
Print Assumptions C08_no_wrap.

Example C08_example :
  int_value (VULong (2 ^ 64)) (2 ^ 64) (lit "u128") /\ wf (VULong (2 ^ 64))
  /\ fits I128 (2 ^ 64) /\ ~ fits U64 (2 ^ 64)
  /\ into_int U64 (VULong (2 ^ 64))
     = Err (EConversion (lit "u128") (lit "u64") (lit "Number value is out of target bounds")).
Proof.
  split; [constructor|]. split; [reflexivity|]. split; [|split; [|reflexivity]].
  - split; cbn; intros; [lia | tauto].
  - intros [_ H]; specialize (H (fun x => x)); cbn in H; lia.
Qed.

(** C09. *)
Theorem C09_integer_round_trip : forall t z, fits t z ->
  wf (from_int t z) /\ into_int t (from_int t z) = Ok z.
Proof. exact from_into_int_wf. Qed.
Print Assumptions C09_integer_round_trip.

Theorem C09_integer_round_trip_across_types : forall t u z, fits t z ->
  (fits u z -> into_int u (from_int t z) = Ok z)
  /\ (~ fits u z -> exists e, into_int u (from_int t z) = Err e).
Proof. exact from_into_int_cross_iff. Qed.
Print Assumptions C09_integer_round_trip_across_types.

Theorem C09_other_scalars_round_trip :
  (forall b, into_bool (from_bool b) = Ok b)
  /\ (forall f, into_f64 (from_f64 f) = Ok f)
  /\ (forall s, into_string (from_str s) = Ok s)
  /\ (forall c s, into_char (from_str (c :: s)) = Ok c).
Proof. exact scalars_round_trip. Qed.
Print Assumptions C09_other_scalars_round_trip.

Theorem C09_option_vec_map : forall (T : Type) (into : T -> value),
  from_option into None = VNone
  /\ (forall x, from_option into (Some x) = into x)
  /\ (forall l, v_len (from_vec into l) = List.length l
        /\ (forall i x, nth_error l i = Some x -> v_at (from_vec into l) i = into x)
        /\ (forall i, (List.length l <= i)%nat -> v_at (from_vec into l) i = VNone))
  /\ (forall m, NoDup (map fst m) ->
        (forall k v, holds (from_map into m) k v <-> exists x, In (k, x) m /\ v = into x)
        /\ (forall k x, In (k, x) m -> v_get (from_map into m) k = into x)
        /\ v_len (from_map into m) = List.length m).
Proof. exact @from_containers. Qed.
Print Assumptions C09_option_vec_map.

Example C09_example :
  fits I8 (-128) /\ into_int I8 (from_int I8 (-128)) = Ok (-128)
  /\ NoDup (map fst [(lit "a", 1); (lit "b", 2)])
  /\ v_get (from_map (from_int I32) [(lit "a", 1); (lit "b", 2)]) (lit "b") = VInt 2.
Proof.
  split; [split; cbn; intros; [lia | tauto]|]. split; [reflexivity|]. split; [|reflexivity].
  repeat constructor; cbn; intuition discriminate.
Qed.

(** C12. *)
Theorem C12_string_to_int : forall t s z,
  into_int t (VStr s) = Ok z <-> numeral t s z /\ fits t z.
Proof. exact into_int_string. Qed.
Print Assumptions C12_string_to_int.

Theorem C12_string_to_int_error : forall t s, (forall z, ~ (numeral t s z /\ fits t z)) ->
  into_int t (VStr s) = Err (EConversion (lit "String") (type_name t) (lit "can't parse string")).
Proof. exact into_int_string_err. Qed.
Print Assumptions C12_string_to_int_error.

(** A numeral denotes one number, so the result is determined. *)
Theorem C12_numeral_has_one_value : forall t s z z', numeral t s z -> numeral t s z' -> z = z'.
Proof. exact numeral_fun. Qed.
Print Assumptions C12_numeral_has_one_value.

Example C12_example :
  numeral I8 (lit "-0128") (-128) /\ fits I8 (-128) /\ into_int I8 (VStr (lit "-0128")) = Ok (-128)
  /\ into_int I8 (VStr (lit "128")) = Err (EConversion (lit "String") (lit "i8") (lit "can't parse string"))
  /\ into_int U8 (VStr (lit "-0")) = Err (EConversion (lit "String") (lit "u8") (lit "can't parse string"))
  /\ into_int U8 (VStr (lit " 1")) = Err (EConversion (lit "String") (lit "u8") (lit "can't parse string")).
Proof.
  split; [|split; [split; cbn; intros; [lia | tauto]|repeat split; reflexivity]].
  change (lit "-0128") with (lit "-" ++ digit_text [0; 1; 2; 8]).
  change (-128) with (- dec_val [0; 1; 2; 8]).
  constructor; [exact I | discriminate | repeat constructor; unfold is_digit; lia].
Qed.

(** C13. *)
Theorem C13_decimal_round_trip : forall t z, fits t z ->
  exists s, into_string (from_int t z) = Ok s /\ canonical s z /\ into_int t (from_str s) = Ok z.
Proof. exact int_string_round_trip. Qed.
Print Assumptions C13_decimal_round_trip.

Theorem C13_distinct_integers_distinct_strings : forall t u a b s,
  into_string (from_int t a) = Ok s -> into_string (from_int u b) = Ok s -> a = b.
Proof. exact int_strings_distinct. Qed.
Print Assumptions C13_distinct_integers_distinct_strings.

(** There is only one canonical numeral per number. *)
Theorem C13_canonical_unique : forall s s' z, canonical s z -> canonical s' z -> s = s'.
Proof. exact canonical_unique. Qed.
Print Assumptions C13_canonical_unique.

Example C13_example :
  into_string (from_int I128 (- 2 ^ 127)) = Ok (lit "-170141183460469231731687303715884105728").
Proof. reflexivity. Qed.

(** C14. *)
Theorem C14_bool_of_number : forall v z src, int_value v z src ->
  (z = 0 -> into_bool v = Ok false) /\ (z <> 0 -> into_bool v = Ok true).
Proof. exact into_bool_int_cases. Qed.
Print Assumptions C14_bool_of_number.

Theorem C14_bool_of_float_and_bool :
  (forall sign, into_bool (VFloat (S754_zero sign)) = Ok false)
  /\ (forall f, (forall sign, f <> S754_zero sign) -> into_bool (VFloat f) = Ok true)
  /\ (forall b, into_bool (VBool b) = Ok b).
Proof. exact into_bool_float_cases. Qed.
Print Assumptions C14_bool_of_float_and_bool.

Theorem C14_bool_of_string : forall s,
  (into_bool (VStr s) = Ok true <-> Forall2 same_ignoring_case s (lit "true"))
  /\ (into_bool (VStr s) = Ok false <-> Forall2 same_ignoring_case s (lit "false"))
  /\ (~ Forall2 same_ignoring_case s (lit "true") -> ~ Forall2 same_ignoring_case s (lit "false") ->
      into_bool (VStr s) = Err (EConversion (lit "String") (lit "bool") (lit "can't parse string as boolean"))).
Proof. exact into_bool_string. Qed.
Print Assumptions C14_bool_of_string.

(** And the other way round. *)
Theorem C14_number_of_bool : forall t,
  into_int t (VBool true) = Ok 1 /\ into_int t (VBool false) = Ok 0
  /\ into_f64 (VBool true) = Ok (S754_finite false (2 ^ 52) (-52)) /\ into_f64 (VBool false) = Ok (S754_zero false)
  /\ into_string (VBool true) = Ok (lit "true") /\ into_string (VBool false) = Ok (lit "false").
Proof. intros t. repeat split; vm_compute; reflexivity. Qed.
Print Assumptions C14_number_of_bool.

Example C14_example :
  into_bool (VStr (lit "tRuE")) = Ok true /\ into_bool (VFloat S754_nan) = Ok true
  /\ into_bool (VStr (lit "1")) = Err (EConversion (lit "String") (lit "bool") (lit "can't parse string as boolean")).
Proof. repeat split. Qed.

(** C17. *)
Theorem C17_char : forall v,
  (forall c s, v = VStr (c :: s) -> into_char v = Ok c)
  /\ (v = VStr [] -> into_char v = Err (EConversion (lit "String") (lit "char") (lit "can't parse string")))
  /\ (forall z src, int_value v z src -> 0 <= z <= 255 -> into_char v = Ok z)
  /\ (forall z src, int_value v z src -> ~ 0 <= z <= 255 ->
        exists src', into_char v = Err (EConversion src' (lit "u8") (lit "Number value is out of target bounds")))
  /\ (v = VBool true -> into_char v = Ok 49) /\ (v = VBool false -> into_char v = Ok 48)
  /\ (forall f, v = VFloat f -> into_char v = Err (EConversion (lit "Float") (lit "char") (lit "conversion not supported")))
  /\ (forall kind, no_scalar v kind ->
        into_char v = Err (EConversion kind (lit "char") (lit "conversion not supported"))).
Proof. exact into_char_all. Qed.
Print Assumptions C17_char.

(** The source type named in the out-of-range error is the Value's own, except
    that u128-backed Values are reported as "i64" (into.rs:321). *)
Theorem C17_char_error_source : forall v z src, int_value v z src -> ~ 0 <= z <= 255 ->
  (src <> lit "u128" -> into_char v = Err (EConversion src (lit "u8") (lit "Number value is out of target bounds")))
  /\ (src = lit "u128" -> into_char v = Err (EConversion (lit "i64") (lit "u8") (lit "Number value is out of target bounds"))).
Proof. exact into_char_source. Qed.
Print Assumptions C17_char_error_source.

(** Every char produced from a well-formed Value is a Unicode scalar value. *)
Theorem C17_char_is_scalar_value : forall v c, wf v -> into_char v = Ok c ->
  0 <= c <= 1114111 /\ ~ 55296 <= c <= 57343.
Proof. exact into_char_scalar. Qed.
Print Assumptions C17_char_is_scalar_value.

Example C17_example :
  into_char (VStr [233; 97]) = Ok 233 /\ into_char (VUInt 255) = Ok 255 /\ into_char (VBool false) = Ok 48
  /\ into_char (VInt 256) = Err (EConversion (lit "i64") (lit "u8") (lit "Number value is out of target bounds")).
Proof. repeat split. Qed.

(** C18. *)
Theorem C18_no_scalar_conversion : forall v kind, no_scalar v kind ->
  into_bool v = Err (EConversion kind (lit "bool") (lit "conversion not supported"))
  /\ (forall t, into_int t v = Err (EConversion kind (type_name t) (lit "conversion not supported")))
  /\ into_f64 v = Err (EConversion kind (lit "f64") (lit "conversion not supported"))
  /\ into_char v = Err (EConversion kind (lit "char") (lit "conversion not supported"))
  /\ into_string v = Err (EConversion kind (lit "String") (lit "conversion not supported")).
Proof. exact no_scalar_err. Qed.
Print Assumptions C18_no_scalar_conversion.

Theorem C18_default_exactly_on_failure : forall (A : Type) (conv : value -> result A model_error) v d,
  (forall x, conv v = Ok x -> into_or conv v d = x)
  /\ (forall e, conv v = Err e -> into_or conv v d = d).
Proof. exact @into_or_spec. Qed.
Print Assumptions C18_default_exactly_on_failure.

Theorem C18_by_reference_agrees : forall (A : Type) (conv : value -> result A model_error) v,
  try_into_ref conv v = (conv v, v).
Proof. reflexivity. Qed.
Print Assumptions C18_by_reference_agrees.

(** Conversion of a scalar to String never fails, so None, arrays and maps are
    the only Values without a string form. *)
Theorem C18_string_conversion_total_on_scalars : forall v,
  (exists s, into_string v = Ok s) <-> ~ exists kind, no_scalar v kind.
Proof. exact into_string_total. Qed.
Print Assumptions C18_string_conversion_total_on_scalars.

Example C18_example :
  no_scalar (VArr [VInt 1]) (lit "Array") /\ into_or (into_int I32) (VArr [VInt 1]) 7 = 7
  /\ into_or (into_int I32) (VStr (lit "12")) 7 = 12.
Proof. repeat split; constructor. Qed.
