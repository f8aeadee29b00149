(** How dates and times are written in a TOML file, and the form they take
    when they are loaded. *)
From Coq Require Import ZArith String.
From Coq Require Import List.
Import ListNotations.
From Verif.Model Require Import Text Value.
From Verif.Spec Require Import Numerals.
Local Open Scope Z_scope.

(** Two digits and their number. *)
Definition two_digits (s : str) (n : Z) : Prop :=
  exists a b, is_digit a /\ is_digit b /\ s = digit_text [a; b] /\ n = 10 * a + b.
(** The Gregorian calendar. *)
Definition leap (y : Z) : Prop := ((4 | y) /\ ~ (100 | y)) \/ (400 | y).
Definition in_month (y m d : Z) : Prop :=
  1 <= d /\ ((In m [1; 3; 5; 7; 8; 10; 12] /\ d <= 31) \/ (In m [4; 6; 9; 11] /\ d <= 30)
             \/ (m = 2 /\ d <= 28) \/ (m = 2 /\ leap y /\ d = 29)).
(** yyyy-mm-dd *)
Definition date_text (s : str) : Prop := exists c y m d sc sy sm sd,
  two_digits sc c /\ two_digits sy y /\ two_digits sm m /\ two_digits sd d /\ in_month (100 * c + y) m d
  /\ s = sc ++ sy ++ lit "-" ++ sm ++ lit "-" ++ sd.
(** A fraction of a second: digits from the tenth on do not count, nor do
    zeros at the end. *)
Inductive fraction_text : str -> str -> Prop :=
| FrNone : fraction_text [] []
| FrZero ds : ds <> [] -> Forall is_digit ds -> Forall (eq 0) (firstn 9 ds) -> fraction_text (lit "." ++ digit_text ds) []
| FrSome ds ks d zs : Forall is_digit ds -> firstn 9 ds = ks ++ [d] ++ zs -> d <> 0 -> Forall (eq 0) zs ->
    fraction_text (lit "." ++ digit_text ds) (lit "." ++ digit_text (ks ++ [d])).
(** hh:mm:ss, with a fraction or without; 60 is a leap second. *)
Definition time_text (s n : str) : Prop := exists h m x sh sm sx f g,
  two_digits sh h /\ two_digits sm m /\ two_digits sx x /\ h <= 23 /\ m <= 59 /\ x <= 60 /\ fraction_text f g
  /\ s = sh ++ lit ":" ++ sm ++ lit ":" ++ sx ++ f /\ n = sh ++ lit ":" ++ sm ++ lit ":" ++ sx ++ g.
(** The distance from universal time, if any. *)
Inductive offset_text : str -> str -> Prop :=
| OfNone : offset_text [] []
| OfUtc c : c = lit "Z" \/ c = lit "z" -> offset_text c (lit "Z")
| OfZero g : g = lit "+" \/ g = lit "-" -> offset_text (g ++ lit "00:00") (lit "+00:00")
| OfSome g h m sh sm : g = lit "+" \/ g = lit "-" -> two_digits sh h -> two_digits sm m -> h <= 23 -> m <= 59 -> h <> 0 \/ m <> 0 ->
    offset_text (g ++ sh ++ lit ":" ++ sm) (g ++ sh ++ lit ":" ++ sm).
(** A day, a time of day, or both; between the two a T, a t or a space. *)
Inductive moment_text : str -> str -> Prop :=
| MoDay d : date_text d -> moment_text d d
| MoTime t n : time_text t n -> moment_text t n
| MoBoth d c t n z o : date_text d -> c = lit "T" \/ c = lit "t" \/ c = lit " " -> time_text t n -> offset_text z o ->
    moment_text (d ++ c ++ t ++ z) (d ++ lit "T" ++ n ++ o).
(** The Value a date or time is loaded as. *)
Definition moment (n : str) : value := VMap [(lit "$__toml_private_datetime", VStr n)].
