(** Vocabulary for conversions: integer ranges, decimal numerals, and the
    kind names used in error messages. *)
From Coq Require Import ZArith List Bool String.
Import ListNotations.
From Verif.Model Require Import Text Num Value.
Open Scope Z_scope.

(** Width and range of a Rust integer type. *)
Definition bits (t : ity) : Z :=
  match t with
  | I8 | U8 => 8 | I16 | U16 => 16 | I32 | U32 => 32 | I64 | U64 => 64 | I128 | U128 => 128
  end.
Definition is_signed (t : ity) : Prop :=
  match t with I8 | I16 | I32 | I64 | I128 => True | _ => False end.
Definition fits (t : ity) (z : Z) : Prop :=
  (is_signed t -> - 2 ^ (bits t - 1) <= z < 2 ^ (bits t - 1))
  /\ (~ is_signed t -> 0 <= z < 2 ^ bits t).

(** The number denoted by a list of decimal digits. *)
Fixpoint dec_val (ds : list Z) : Z :=
  match ds with
  | [] => 0
  | d :: t => d * 10 ^ Z.of_nat (List.length t) + dec_val t
  end.
Definition is_digit (d : Z) : Prop := 0 <= d <= 9.
(** The ASCII text of digits. *)
Definition digit_text (ds : list Z) : str := map (fun d => 48 + d) ds.

(** [numeral t s z]: s is a decimal numeral of z for type t: an optional '+'
    (or '-' for a signed type) and at least one digit. *)
Inductive numeral (t : ity) : str -> Z -> Prop :=
| NumPlain ds : ds <> [] -> Forall is_digit ds -> numeral t (digit_text ds) (dec_val ds)
| NumPlus ds : ds <> [] -> Forall is_digit ds -> numeral t (lit "+" ++ digit_text ds) (dec_val ds)
| NumMinus ds : is_signed t -> ds <> [] -> Forall is_digit ds ->
    numeral t (lit "-" ++ digit_text ds) (- dec_val ds).

(** The canonical numeral: no leading zero, no '+', '-' for negatives only. *)
Inductive canonical : str -> Z -> Prop :=
| CanZero : canonical (lit "0") 0
| CanPos d ds : 1 <= d <= 9 -> Forall is_digit ds ->
    canonical (digit_text (d :: ds)) (dec_val (d :: ds))
| CanNeg d ds : 1 <= d <= 9 -> Forall is_digit ds ->
    canonical (lit "-" ++ digit_text (d :: ds)) (- dec_val (d :: ds)).

(** An integer Value, its number, and the name of its representation type. *)
Inductive int_value : value -> Z -> str -> Prop :=
| IvInt z : int_value (VInt z) z (lit "i64")
| IvLong z : int_value (VLong z) z (lit "i128")
| IvUInt z : int_value (VUInt z) z (lit "u64")
| IvULong z : int_value (VULong z) z (lit "u128").

Definition type_name (t : ity) : str :=
  match t with
  | I8 => lit "i8" | I16 => lit "i16" | I32 => lit "i32" | I64 => lit "i64" | I128 => lit "i128"
  | U8 => lit "u8" | U16 => lit "u16" | U32 => lit "u32" | U64 => lit "u64" | U128 => lit "u128"
  end.

(** Kinds that never convert to a scalar. *)
Inductive no_scalar : value -> str -> Prop :=
| NsNone : no_scalar VNone (lit "None")
| NsArr l : no_scalar (VArr l) (lit "Array")
| NsMap m : no_scalar (VMap m) (lit "Map").

(** Letters equal up to ASCII case. *)
Definition same_ignoring_case (c d : Z) : Prop :=
  c = d \/ (65 <= c <= 90 /\ d = c + 32) \/ (97 <= c <= 122 /\ d = c - 32).
