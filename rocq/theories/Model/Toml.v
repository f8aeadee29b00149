(** The [toml] crate at the level of its data model, as src/config_layer/handlers/toml.rs:7-21
    uses it: which Values [toml::to_string_pretty] accepts and what document it writes,
    and what [toml::from_str] presents to Value's visitor.  External behaviour
    (toml 0.8 on toml_edit), written down; the text syntax itself stays a
    parameter.  *)
From Coq Require Import ZArith List Bool String.
Import ListNotations.
From Verif.Model Require Import Text Num Flt Value Convert Serde Visitor Layers.
Local Open Scope Z_scope.

(** A TOML value: booleans, 64-bit signed integers, floats, strings, dates
    (kept as their text), arrays, tables. *)
Inductive toml_value :=
| TvBool (b : bool)
| TvInt (z : Z)
| TvFloat (f : f64)
| TvStr (s : str)
| TvDate (s : str)
| TvArr (l : list toml_value)
| TvTab (m : list (str * toml_value)).

(** [toml::ser::Error]: no value for none, a type without a TOML form, a u64
    above i64::MAX, a 128-bit integer (serde's default for [serialize_i128] and
    [serialize_u128], which the crate does not override). *)
Inductive toml_error := UnsupportedNone | UnsupportedType | OutOfRange | UnsupportedI128 | UnsupportedU128.
Definition toml_error_text (e : toml_error) : str :=
  match e with
  | UnsupportedNone => lit "unsupported None value"
  | UnsupportedType => lit "unsupported rust type"
  | OutOfRange => lit "out-of-range value for u64 type"
  | UnsupportedI128 => lit "i128 is not supported"
  | UnsupportedU128 => lit "u128 is not supported"
  end.

(** The crate's serialiser on the calls of [Serialize for Value]
    (src/model/ser.rs:5-35, [value_calls]).  A map entry whose value is none is
    left out.  [lenient]: some versions of the crate also leave out an entry
    whose array contains a none (the error reaches the entry as
    [UnsupportedNone]), others report the error.  Calls a Value never makes
    (chars, bytes, structs, ...) are not modelled. *)
Definition toml_items {A} (item : A -> result toml_value toml_error) (l : list A) : result (list toml_value) toml_error :=
  (fix go (l : list A) : result (list toml_value) toml_error :=
     match l with
     | [] => Ok []
     | x :: t => rbind (item x) (fun y => rbind (go t) (fun r => Ok (y :: r)))
     end) l.
Definition is_dnone (d : data) : bool := match d with DNone => true | _ => false end.
Definition toml_entries (lenient : bool) (item : data -> result toml_value toml_error) (m : list (data * data))
  : result (list (str * toml_value)) toml_error :=
  (fix go (m : list (data * data)) : result (list (str * toml_value)) toml_error :=
     match m with
     | [] => Ok []
     | (k, x) :: t =>
       match k with
       | DStr key =>
         match item x with
         | Ok y => rbind (go t) (fun r => Ok ((key, y) :: r))
         | Err UnsupportedNone => if lenient || is_dnone x then go t else Err UnsupportedNone
         | Err e => Err e
         end
       | _ => Err UnsupportedType
       end
     end) m.
Fixpoint toml_item (lenient : bool) (d : data) : result toml_value toml_error :=
  match d with
  | DBool b => Ok (TvBool b)
  | DInt t z =>
    match t with
    | I128 => Err UnsupportedI128
    | U128 => Err UnsupportedU128
    | _ => if z <=? 2 ^ 63 - 1 then Ok (TvInt z) else Err OutOfRange
    end
  | DF64 f => Ok (TvFloat f)
  | DStr s => Ok (TvStr s)
  | DNone => Err UnsupportedNone
  | DSeq l => rbind (toml_items (toml_item lenient) l) (fun r => Ok (TvArr r))
  | DMap m => rbind (toml_entries lenient (toml_item lenient) m) (fun r => Ok (TvTab r))
  | _ => Err UnsupportedType
  end.
(** A document is a table. *)
Definition toml_document (lenient : bool) (d : data) : result toml_value toml_error :=
  match toml_item lenient d with
  | Ok (TvTab m) => Ok (TvTab m)
  | Ok _ => Err UnsupportedType
  | Err e => Err e
  end.

(** What the crate presents for a TOML value: integers as i64, a date as a map
    with one special key. *)
Definition date_key : str := lit "$__toml_private_datetime".
Fixpoint toml_events (t : toml_value) : event :=
  match t with
  | TvBool b => EvBool b
  | TvInt z => EvInt I64 z
  | TvFloat f => EvF64 f
  | TvStr s => EvStr s
  | TvDate s => EvMap [(EvStr date_key, EvStr s)]
  | TvArr l => EvSeq (map toml_events l)
  | TvTab m => EvMap (map (fun e => (EvStr (fst e), toml_events (snd e))) m)
  end.

(** The text syntax. *)
Record toml_syntax := {
  ts_print : toml_value -> str;
  ts_parse : str -> result toml_value str
}.
(** [toml::to_string_pretty(&value)] and [toml::from_str::<Value>(&content)],
    src/config_layer/handlers/toml.rs:10, 15. *)
Definition toml_format (lenient : bool) (ts : toml_syntax) : format := {|
  fmt_emit := fun d =>
    match toml_document lenient d with Ok t => Ok (ts_print ts t) | Err e => Err (toml_error_text e) end;
  fmt_present := fun s =>
    match ts_parse ts s with Ok t => toml_events t | Err msg => EvFail msg end
|}.
Definition toml_codec (lenient : bool) (ts : toml_syntax) : codec := {|
  toml_from_str := format_from_str (toml_format lenient ts);
  toml_to_string := format_to_string (toml_format lenient ts)
|}.
