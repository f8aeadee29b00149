(** Value and an arbitrary serde format: [Deserialize for Value]
    (src/model/visitor.rs) fed by any [Deserializer], and [Serialize for Value]
    (src/model/ser.rs:5-35) run on any [Serializer]. *)
From Coq Require Import ZArith List Bool String Floats.SpecFloat.
Import ListNotations.
From Verif.Model Require Import Text Num Flt Value Convert Serde.
Open Scope Z_scope.

(** What a [Deserializer::deserialize_any] call presents to its visitor: the
    [visit_*] method called, with its argument.  [EvStr] stands for [visit_str],
    [visit_string] and [visit_borrowed_str], [EvBytes] for [visit_bytes],
    [visit_borrowed_bytes] and [visit_byte_buf]; [EvFail] is an error of the
    format itself (such as a syntax error in mid-stream). *)
Inductive event :=
| EvBool (b : bool)
| EvInt (t : ity) (z : Z)
| EvF32 (f : f32)
| EvF64 (f : f64)
| EvChar (c : char)
| EvStr (s : str)
| EvBytes (l : list byte)
| EvUnit
| EvNone
| EvSome (e : event)
| EvNewtype (e : event)
| EvSeq (l : list event)
| EvMap (m : list (event * event))
| EvEnum
| EvFail (msg : str).

(** serde's [de::Error::invalid_type] for a visitor method that is not
    overridden. *)
Definition invalid_type {A} (unexpected expected : str) : result A str :=
  Err (lit "invalid type: " ++ unexpected ++ lit ", expected " ++ expected).
(** [ValueVisitor::expecting], src/model/visitor.rs:12-14. *)
Definition value_expecting : str := lit "a valid configuration value".

(** serde's [Unexpected], as it appears in [invalid_type] (its default
    implementation, which a format may override); floats are printed with a
    decimal point ([WithDecimalPoint]); [visit_i128] and [visit_u128] have their
    own text. *)
Definition with_point (f : f64) : str :=
  match f with
  | S754_nan | S754_infinity _ => print_f64 f
  | _ => if existsb (fun c => c =? 46) (print_f64 f) then print_f64 f else print_f64 f ++ lit ".0"
  end.
Definition unexpected_text (e : event) : str :=
  match e with
  | EvBool b => lit "boolean `" ++ (if b then lit "true" else lit "false") ++ lit "`"
  | EvInt t z =>
    match t with
    | I128 => lit "integer `" ++ print_int z ++ lit "` as i128"
    | U128 => lit "integer `" ++ print_int z ++ lit "` as u128"
    | _ => lit "integer `" ++ print_int z ++ lit "`"
    end
  | EvF32 f => lit "floating point `" ++ with_point (f32_to_f64 f) ++ lit "`"
  | EvF64 f => lit "floating point `" ++ with_point f ++ lit "`"
  | EvChar _ | EvStr _ | EvFail _ => []                (* no obstacle, or has its own text *)
  | EvBytes _ => lit "byte array"
  | EvUnit => lit "unit value"
  | EvNone | EvSome _ => lit "Option value"
  | EvNewtype _ => lit "newtype struct"
  | EvSeq _ => lit "sequence"
  | EvMap _ => lit "map"
  | EvEnum => lit "enum"
  end.
(** [String::deserialize], used by [next_entry] for the keys
    (src/model/visitor.rs:148): serde's string visitor accepts text, a
    character and UTF-8 bytes. *)
Definition visit_key (e : event) : result str str :=
  match e with
  | EvStr s => Ok s
  | EvChar c => Ok [c]
  | EvBytes l => match utf8_decode l with Some s => Ok s | None => Err (lit "invalid value: byte array, expected a string") end
  | EvFail msg => Err msg
  | _ => invalid_type (unexpected_text e) (lit "a string")
  end.

Definition rbind {A B E} (x : result A E) (f : A -> result B E) : result B E :=
  match x with Ok a => f a | Err e => Err e end.

(** [ValueVisitor::visit_seq], src/model/visitor.rs:130-140. *)
Definition visit_elems {A} (visit1 : A -> result value str) (l : list A) : result (list value) str :=
  (fix go (vec : list value) (l : list A) : result (list value) str :=
     match l with
     | [] => Ok vec
     | x :: t => rbind (visit1 x) (fun v => go (vec ++ [v]) t)
     end) [] l.
(** [ValueVisitor::visit_map], src/model/visitor.rs:142-153. *)
Definition visit_entries {A} (visit1 : A -> result value str) (l : list (event * A)) : result vmap str :=
  (fix go (hash_map : vmap) (l : list (event * A)) : result vmap str :=
     match l with
     | [] => Ok hash_map
     | (k, x) :: t =>
       rbind (visit_key k) (fun key =>
       rbind (visit1 x) (fun v => go (minsert key v hash_map) t))
     end) [] l.

(** [ValueVisitor], src/model/visitor.rs:9-154; [visit_char] is serde's default
    (the character as text), [visit_bytes], [visit_newtype_struct] and
    [visit_enum] are serde's defaults (an error). *)
Fixpoint visit (e : event) : result value str :=
  match e with
  | EvBool b => Ok (VBool b)                           (* visitor.rs:16-20 *)
  | EvInt t z =>                                        (* visitor.rs:22-80 *)
    match t with
    | I8 | I16 | I32 | I64 => Ok (VInt z)
    | I128 => Ok (VLong z)
    | U8 | U16 | U32 | U64 => Ok (VUInt z)
    | U128 => Ok (VULong z)
    end
  | EvF32 f => Ok (VFloat (f32_to_f64 f))               (* visitor.rs:112-116 *)
  | EvF64 f => Ok (VFloat f)                            (* visitor.rs:82-86 *)
  | EvChar c => Ok (VStr [c])
  | EvStr s => Ok (VStr s)                              (* visitor.rs:88-98, 106-110 *)
  | EvBytes _ => invalid_type (unexpected_text e) value_expecting
  | EvUnit => Ok VNone                                  (* visitor.rs:118-122 *)
  | EvNone => Ok VNone                                  (* visitor.rs:100-104 *)
  | EvSome e' => visit e'                               (* visitor.rs:124-128 *)
  | EvNewtype _ => invalid_type (unexpected_text e) value_expecting
  | EvSeq l => rbind (visit_elems visit l) (fun vec => Ok (VArr vec))
  | EvMap m => rbind (visit_entries visit m) (fun h => Ok (VMap h))
  | EvEnum => invalid_type (unexpected_text e) value_expecting
  | EvFail msg => Err msg
  end.

(** [Serialize for Value] on an arbitrary [Serializer], src/model/ser.rs:5-35:
    the calls made, as a datum. *)
Fixpoint value_calls (v : value) : data :=
  match v with
  | VNone => DNone
  | VBool b => DBool b
  | VInt z => DInt I64 z
  | VLong z => DInt I128 z
  | VUInt z => DInt U64 z
  | VULong z => DInt U128 z
  | VFloat f => DF64 f
  | VStr s => DStr s
  | VArr l => DSeq (map value_calls l)
  | VMap m => DMap (map (fun e => (DStr (fst e), value_calls (snd e))) m)
  end.

(** What [Deserializer for Value]'s [deserialize_any] presents, src/model/de.rs:12-28:
    [Value::None] is [visit_unit]; map keys are handed over as Values
    ([Value::String]), src/model/de.rs:312-330. *)
Fixpoint value_events (v : value) : event :=
  match v with
  | VNone => EvUnit
  | VBool b => EvBool b
  | VInt z => EvInt I64 z
  | VLong z => EvInt I128 z
  | VUInt z => EvInt U64 z
  | VULong z => EvInt U128 z
  | VFloat f => EvF64 f
  | VStr s => EvStr s
  | VArr l => EvSeq (map value_events l)
  | VMap m => EvMap (map (fun e => (EvStr (fst e), value_events (snd e))) m)
  end.

(** A serde text format such as the [toml] crate: how a datum is written, and
    what the parser presents when the text is read. *)
Record format := {
  fmt_emit : data -> result str str;
  fmt_present : str -> event
}.
(** [toml::to_string_pretty(&value)] and [toml::from_str::<Value>], as called in
    src/config_layer/handlers/toml.rs:7-21: the crate drives [Serialize for
    Value] and [Deserialize for Value]. *)
Definition format_to_string (f : format) (v : value) : result str str := fmt_emit f (value_calls v).
Definition format_from_str (f : format) (s : str) : result value str := visit (fmt_present f s).
