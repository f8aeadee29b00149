(** Vocabulary for floats: the real number a float stands for, truncation,
    the nearest float, decimal float texts.  Uses only the standard library's
    reals and the data type of floats. *)
From Coq Require Import ZArith Reals Bool String List.
From Coq Require Import Floats.SpecFloat.
Import ListNotations.
From Verif.Model Require Import Text Num Flt.
From Verif.Spec Require Import Numerals.
Local Open Scope R_scope.

Definition signed_real (negative : bool) (x : R) : R := if negative then - x else x.

(** The real number a finite float stands for: (-1)^s * m * 2^e. *)
Definition real (f : f64) : R :=
  match f with
  | S754_finite s m e => signed_real s (IZR (Zpos m) * powerRZ 2 e)
  | _ => 0
  end.

(** A finite binary64 number (zeros included). *)
Definition finite64 (f : f64) : Prop :=
  f64_valid f = true /\ match f with S754_zero _ | S754_finite _ _ _ => True | _ => False end.

Definition negative (f : f64) : bool :=
  match f with S754_zero s | S754_infinity s | S754_finite s _ _ => s | S754_nan => false end.

(** n is x truncated toward zero. *)
Definition truncates (x : R) (n : Z) : Prop :=
  (0 <= x /\ IZR n <= x < IZR n + 1) \/ (x < 0 /\ IZR n - 1 < x <= IZR n).

Definition even_mantissa (f : f64) : Prop :=
  match f with
  | S754_zero _ => True
  | S754_finite _ m _ => Z.even (Zpos m) = true
  | _ => False
  end.

(** f is the finite float nearest to x, ties going to the even mantissa. *)
Definition nearest64 (x : R) (f : f64) : Prop :=
  finite64 f /\
  forall g, finite64 g ->
    Rabs (real f - x) <= Rabs (real g - x) /\
    (Rabs (real f - x) = Rabs (real g - x) -> real g = real f \/ even_mantissa f).

(** Beyond this magnitude (half a unit above the largest float) numbers round
    to infinity. *)
Definition f64_limit : R := powerRZ 2 1024 - powerRZ 2 970.

(** f is x rounded to f64, with sign s when it is zero or infinite. *)
Definition rounds_correctly (x : R) (s : bool) (f : f64) : Prop :=
  (Rabs x < f64_limit -> nearest64 x f /\ negative f = s)
  /\ (f64_limit <= Rabs x -> f = S754_infinity s).

(** The same for f32 (binary32). *)
Definition finite32 (f : f32) : Prop :=
  f32_valid f = true /\ match f with S754_zero _ | S754_finite _ _ _ => True | _ => False end.
Definition nearest32 (x : R) (f : f32) : Prop :=
  finite32 f /\
  forall g, finite32 g ->
    Rabs (real f - x) <= Rabs (real g - x) /\
    (Rabs (real f - x) = Rabs (real g - x) -> real g = real f \/ even_mantissa f).
Definition f32_limit : R := powerRZ 2 128 - powerRZ 2 103.
Definition rounds_correctly32 (x : R) (s : bool) (f : f32) : Prop :=
  (Rabs x < f32_limit -> nearest32 x f /\ negative f = s)
  /\ (f32_limit <= Rabs x -> f = S754_infinity s).

(** g is f rounded to f32: NaN and infinities are kept. *)
Definition narrows (f : f64) (g : f32) : Prop :=
  match f with
  | S754_nan => g = S754_nan
  | S754_infinity s => g = S754_infinity s
  | _ => rounds_correctly32 (real f) (negative f) g
  end.

(** g is the f64 that is the same number as f (of a shorter format): NaN,
    infinities and zeros are kept with their sign, a finite number keeps its
    sign and its value. *)
Definition widens (f g : f64) : Prop :=
  f64_valid g = true /\
  match f, g with
  | S754_nan, S754_nan => True
  | S754_infinity s, S754_infinity s' => s = s'
  | S754_zero s, S754_zero s' => s = s'
  | S754_finite s _ _, S754_finite s' _ _ => s = s' /\ real f = real g
  | _, _ => False
  end.

(** ** Texts of floats *)
Local Open Scope Z_scope.
(** [exponent s e]: s is empty (e = 0) or e|E, an optional sign and digits. *)
Inductive exponent : str -> Z -> Prop :=
| ExpNone : exponent [] 0
| ExpPlain c ds : c = 101 \/ c = 69 -> ds <> [] -> Forall is_digit ds ->
    exponent (c :: digit_text ds) (dec_val ds)
| ExpPlus c ds : c = 101 \/ c = 69 -> ds <> [] -> Forall is_digit ds ->
    exponent (c :: lit "+" ++ digit_text ds) (dec_val ds)
| ExpMinus c ds : c = 101 \/ c = 69 -> ds <> [] -> Forall is_digit ds ->
    exponent (c :: lit "-" ++ digit_text ds) (- dec_val ds).

(** [decimal s d e]: s is an unsigned decimal text denoting d * 10^e. *)
Inductive decimal : str -> Z -> Z -> Prop :=
| DecInt ip ex e : ip <> [] -> Forall is_digit ip -> exponent ex e ->
    decimal (digit_text ip ++ ex) (dec_val ip) e
| DecPoint ip fp ex e : ip ++ fp <> [] -> Forall is_digit ip -> Forall is_digit fp -> exponent ex e ->
    decimal (digit_text ip ++ lit "." ++ digit_text fp ++ ex) (dec_val (ip ++ fp))
      (e - Z.of_nat (List.length fp)).

(** [with_sign s neg u]: s is u, possibly preceded by a sign. *)
Inductive with_sign : str -> bool -> str -> Prop :=
| WsNone u : with_sign u false u
| WsPlus u : with_sign (lit "+" ++ u) false u
| WsMinus u : with_sign (lit "-" ++ u) true u.

(** Significant digits: at least one, the first and the last not zero. *)
Definition significant (ds : list Z) : Prop :=
  ds <> [] /\ Forall is_digit ds /\ hd 0 ds <> 0 /\ last ds 0 <> 0.

(** [plain s ds x]: s is the positional text (no exponent) of the number with
    digits ds, the last of which has weight 10^x, without superfluous zeros. *)
Inductive plain : str -> list Z -> Z -> Prop :=
| PlainWhole ds n : plain (digit_text ds ++ digit_text (repeat 0 n)) ds (Z.of_nat n)
| PlainPoint a b : a <> [] -> b <> [] ->
    plain (digit_text a ++ lit "." ++ digit_text b) (a ++ b) (- Z.of_nat (List.length b))
| PlainBelow ds n :
    plain (lit "0." ++ digit_text (repeat 0 n) ++ digit_text ds) ds (- Z.of_nat (n + List.length ds)).

(** The special words, in any case. *)
Definition nan_text (s : str) : Prop :=
  exists neg u, with_sign s neg u /\ Forall2 same_ignoring_case u (lit "nan").
Definition inf_text (s : str) (neg : bool) : Prop :=
  exists u, with_sign s neg u /\
    (Forall2 same_ignoring_case u (lit "inf") \/ Forall2 same_ignoring_case u (lit "infinity")).
Definition decimal_text (s : str) (neg : bool) (d e : Z) : Prop :=
  exists u, with_sign s neg u /\ decimal u d e.

(** The extreme value of an integer type: the smallest or the greatest. *)
Definition extreme (t : ity) (smallest : bool) (m : Z) : Prop :=
  fits t m /\ forall z, fits t z -> if smallest then m <= z else z <= m.

(** The float is infinite or truncates to an integer beyond the type, below
    ([true]) or above ([false]). *)
Inductive beyond (t : ity) : f64 -> bool -> Prop :=
| BeInf s : beyond t (S754_infinity s) s
| BeAbove f n : finite64 f -> truncates (real f) n -> (forall z, fits t z -> z < n) -> beyond t f false
| BeBelow f n : finite64 f -> truncates (real f) n -> (forall z, fits t z -> n < z) -> beyond t f true.
