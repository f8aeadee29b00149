(** Conversions between native Rust types and [Value]:
    src/model/from.rs and src/model/into.rs. *)
From Coq Require Import ZArith List Bool String.
Import ListNotations.
From Verif.Model Require Import Text Num Flt Value.
Open Scope Z_scope.

(** ** src/model/from.rs *)

(** [From<i8> .. From<u128>], src/model/from.rs:23-81: narrow types widen to
    the 64-bit variant of the same signedness. *)
Definition from_int (t : ity) (z : Z) : value :=
  match t with
  | I8 | I16 | I32 | I64 => VInt z
  | I128 => VLong z
  | U8 | U16 | U32 | U64 => VUInt z
  | U128 => VULong z
  end.
(** src/model/from.rs:83-111. *)
Definition from_f32 (f : f32) : value := VFloat (f32_to_f64 f).
Definition from_f64 (f : f64) : value := VFloat f.
Definition from_bool (b : bool) : value := VBool b.
Definition from_str (s : str) : value := VStr s.
(** [From<Option<T>>], src/model/from.rs:11-21. *)
Definition from_option {T} (into : T -> value) (x : option T) : value :=
  match x with Some y => into y | None => VNone end.
(** [From<HashMap<String, T>>], src/model/from.rs:113-120 (collect into a new
    HashMap: insert each converted entry in iteration order). *)
Definition from_map {T} (into : T -> value) (m : list (str * T)) : value :=
  VMap (fold_left (fun acc e => minsert (fst e) (into (snd e)) acc) m []).
(** [From<Vec<T>>], src/model/from.rs:122-129. *)
Definition from_vec {T} (into : T -> value) (l : list T) : value := VArr (map into l).

(** ** src/model/into.rs *)

(** [conversion_error!(from, to)] and [conversion_error!(from, to, why)],
    src/model/errors.rs:73-88. *)
Definition not_supported : str := lit "conversion not supported".
Definition out_of_bounds : str := lit "Number value is out of target bounds".
Definition cant_parse : str := lit "can't parse string".
Definition cant_parse_bool : str := lit "can't parse string as boolean".

Definition conv_err {A} (from to why : str) : result A model_error :=
  Err (EConversion from to why).

(** [TryInto<bool>], src/model/into.rs:5-26. *)
Definition into_bool (v : value) : result bool model_error :=
  match v with
  | VBool b => Ok b
  | VInt z | VLong z | VUInt z | VULong z => Ok (negb (z =? 0))
  | VFloat f => Ok (f64_nonzero f)
  | VStr s =>
    let l := to_lowercase s in
    if str_eqb l (lit "true") then Ok true
    else if str_eqb l (lit "false") then Ok false
    else conv_err (lit "String") (lit "bool") cant_parse_bool
  | VNone => conv_err (lit "None") (lit "bool") not_supported
  | VArr _ => conv_err (lit "Array") (lit "bool") not_supported
  | VMap _ => conv_err (lit "Map") (lit "bool") not_supported
  end.

(** [to_number!], src/model/into.rs:28-33. *)
Definition to_number (z : Z) (from : str) (t : ity) : result Z model_error :=
  match try_from t z with
  | Some n => Ok n
  | None => conv_err from (ity_name t) out_of_bounds
  end.

(** The [Float] arm of the ten integer conversions: i64 (into.rs:121), i128
    (:143) and u64 (:238) cast directly, the others go through i128 and a
    bounds check labelled "f64" (:44-47, :70-73, :95-98, :163-166, :188-191,
    :213-216, :260-263). *)
Definition float_into_int (t : ity) (f : f64) : result Z model_error :=
  match t with
  | I64 | I128 | U64 => Ok (f64_as t f)
  | _ => to_number (f64_as I128 f) (lit "f64") t
  end.

(** [TryInto<i8> .. TryInto<u128>], src/model/into.rs:35-274.  The arms that
    the source writes without a check (i64 from Integer :117, i128 from
    Integer/LongInteger/UInteger :139-141, u64 from UInteger :236, u128 from
    UInteger/ULongInteger :258-259) are the ones whose source range is inside
    the target range. *)
Definition into_int (t : ity) (v : value) : result Z model_error :=
  match v with
  | VInt z =>
    match t with
    | I64 | I128 => Ok z
    | _ => to_number z (lit "i64") t
    end
  | VLong z =>
    match t with
    | I128 => Ok z
    | _ => to_number z (lit "i128") t
    end
  | VUInt z =>
    match t with
    | I128 | U64 | U128 => Ok z
    | _ => to_number z (lit "u64") t
    end
  | VULong z =>
    match t with
    | U128 => Ok z
    | _ => to_number z (lit "u128") t
    end
  | VFloat f => float_into_int t f
  | VBool b => Ok (if b then 1 else 0)
  | VStr s =>
    match parse_int t s with
    | Some z => Ok z
    | None => conv_err (lit "String") (ity_name t) cant_parse
    end
  | VNone => conv_err (lit "None") (ity_name t) not_supported
  | VArr _ => conv_err (lit "Array") (ity_name t) not_supported
  | VMap _ => conv_err (lit "Map") (ity_name t) not_supported
  end.

(** [TryInto<f64>], src/model/into.rs:276-296. *)
Definition into_f64 (v : value) : result f64 model_error :=
  match v with
  | VFloat f => Ok f
  | VInt z | VLong z | VUInt z | VULong z => Ok (f64_of_Z z)
  | VBool b => Ok (f64_of_Z (if b then 1 else 0))
  | VStr s =>
    match parse_f64 s with
    | Some f => Ok f
    | None => conv_err (lit "String") (lit "f64") cant_parse
    end
  | VNone => conv_err (lit "None") (lit "f64") not_supported
  | VArr _ => conv_err (lit "Array") (lit "f64") not_supported
  | VMap _ => conv_err (lit "Map") (lit "f64") not_supported
  end.

(** [TryInto<char>], src/model/into.rs:298-330 (the ULongInteger arm reports
    its source as "i64", :321). *)
Definition into_char (v : value) : result char model_error :=
  match v with
  | VStr s =>
    match s with
    | c :: _ => Ok c
    | [] => conv_err (lit "String") (lit "char") cant_parse
    end
  | VNone => conv_err (lit "None") (lit "char") not_supported
  | VBool b => Ok (if b then 49 else 48)
  | VInt z => to_number z (lit "i64") U8
  | VLong z => to_number z (lit "i128") U8
  | VUInt z => to_number z (lit "u64") U8
  | VULong z => to_number z (lit "i64") U8
  | VFloat _ => conv_err (lit "Float") (lit "char") not_supported
  | VArr _ => conv_err (lit "Array") (lit "char") not_supported
  | VMap _ => conv_err (lit "Map") (lit "char") not_supported
  end.

(** [TryInto<String>], src/model/into.rs:332-349. *)
Definition into_string (v : value) : result str model_error :=
  match v with
  | VStr s => Ok s
  | VInt z | VLong z | VUInt z | VULong z => Ok (print_int z)
  | VFloat f => Ok (print_f64 f)
  | VBool b => Ok (print_bool b)
  | VNone => conv_err (lit "None") (lit "String") not_supported
  | VArr _ => conv_err (lit "Array") (lit "String") not_supported
  | VMap _ => conv_err (lit "Map") (lit "String") not_supported
  end.

(** [try_into_<T>(&self)] and the [&Value]/[&mut Value] impls clone the
    receiver and call the owned conversion (src/model/into.rs:351-388): the
    receiver they leave behind is returned explicitly. *)
Definition try_into_ref {A} (conv : value -> result A model_error) (self : value)
  : result A model_error * value := (conv self, self).

(** [into_<T>_or(self, default)], src/model/into.rs:389-391. *)
Definition into_or {A} (conv : value -> result A model_error) (self : value) (d : A) : A :=
  match conv self with Ok x => x | Err _ => d end.
