(** Integers: Rust's fixed-width integer types, checked conversion between
    them ([TryFrom]), decimal parsing ([FromStr]) and printing ([Display]). *)
From Coq Require Import ZArith List Bool String.
Import ListNotations.
From Verif.Model Require Import Text.
Open Scope Z_scope.

(** The integer types BakuninConfig converts to and from
    (src/model/from.rs:23-81, src/model/into.rs:35-274). *)
Inductive ity := I8 | I16 | I32 | I64 | I128 | U8 | U16 | U32 | U64 | U128.

Definition signed (t : ity) : bool :=
  match t with I8 | I16 | I32 | I64 | I128 => true | _ => false end.

Definition imin (t : ity) : Z :=
  match t with
  | I8 => - 2 ^ 7 | I16 => - 2 ^ 15 | I32 => - 2 ^ 31 | I64 => - 2 ^ 63 | I128 => - 2 ^ 127
  | _ => 0
  end.
Definition imax (t : ity) : Z :=
  match t with
  | I8 => 2 ^ 7 - 1 | I16 => 2 ^ 15 - 1 | I32 => 2 ^ 31 - 1 | I64 => 2 ^ 63 - 1
  | I128 => 2 ^ 127 - 1
  | U8 => 2 ^ 8 - 1 | U16 => 2 ^ 16 - 1 | U32 => 2 ^ 32 - 1 | U64 => 2 ^ 64 - 1
  | U128 => 2 ^ 128 - 1
  end.
Definition in_range (t : ity) (z : Z) : bool := (imin t <=? z) && (z <=? imax t).

(** The type's name as produced by [stringify!] (src/model/errors.rs:82-84). *)
Definition ity_name (t : ity) : str :=
  lit match t with
      | I8 => "i8" | I16 => "i16" | I32 => "i32" | I64 => "i64" | I128 => "i128"
      | U8 => "u8" | U16 => "u16" | U32 => "u32" | U64 => "u64" | U128 => "u128"
      end%string.

(** [<$to>::try_from(value)] in [to_number!] (src/model/into.rs:28-33). *)
Definition try_from (t : ity) (z : Z) : option Z :=
  if in_range t z then Some z else None.

(** ** Decimal parsing: [value.parse::<T>()] (src/model/into.rs:49 etc.),
    i.e. [T::from_str_radix(_, 10)] of the standard library. *)
Definition digit_val (c : char) : option Z :=
  if (48 <=? c) && (c <=? 57) then Some (c - 48) else None.

Fixpoint parse_digits (acc : Z) (s : str) : option Z :=
  match s with
  | [] => Some acc
  | c :: t => match digit_val c with
              | Some d => parse_digits (10 * acc + d) t
              | None => None
              end
  end.

(** The standard library checks for overflow at every digit; since the
    accumulator is monotone, that is the same as one range check at the end. *)
Definition parse_int (t : ity) (s : str) : option Z :=
  match s with
  | [] => None
  | c :: rest =>
    if (c =? 43) (* '+' *) then
      match rest with
      | [] => None
      | _ => match parse_digits 0 rest with Some z => try_from t z | None => None end
      end
    else if (c =? 45) (* '-' *) && signed t then
      match rest with
      | [] => None
      | _ => match parse_digits 0 rest with Some z => try_from t (- z) | None => None end
      end
    else
      match parse_digits 0 s with Some z => try_from t z | None => None end
  end.

(** ** Decimal printing: [value.to_string()] / [write!(f, "{}", value)] for
    integers (src/model/into.rs:338-342, src/model/value.rs:25-28). *)
Fixpoint dec_digits (fuel : nat) (n : Z) (acc : str) : str :=
  match fuel with
  | O => acc
  | S f => if n <? 10 then (48 + n) :: acc
           else dec_digits f (n / 10) ((48 + n mod 10) :: acc)
  end.

(** Decimal digits of a non-negative number; the fuel (its bit length) is
    always enough. *)
Definition print_nat (n : Z) : str := dec_digits (S (Z.to_nat (Z.log2 n))) n [].

Definition print_int (z : Z) : str :=
  if z <? 0 then 45 :: print_nat (- z) else print_nat z.
