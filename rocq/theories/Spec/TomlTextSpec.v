(** TOML files as people write them (C126-C129). *)
From Coq Require Import ZArith Reals List Bool String.
From Coq Require Import Floats.SpecFloat.
Import ListNotations.
From Verif.Model Require Import Text Num Flt Value.
From Verif.Spec Require Import FloatSpec.
Local Open Scope Z_scope.

(** Empty, or ends with a line feed. *)
Definition ends_line (s : str) : Prop := s = [] \/ exists t, s = t ++ [10].
(** Spaces and tabs. *)
Definition blank (s : str) : Prop := forall c, In c s -> c = 32 \/ c = 9.
(** A comment: no control characters but tab. *)
Definition comment (s : str) : Prop := exists t, s = 35 :: t /\ forall c, In c t -> c = 9 \/ (32 <= c /\ c <> 127).
Definition line_feed (s : str) : Prop := s = [10] \/ s = [13; 10].
(** Whole lines that are empty or hold a comment only. *)
Inductive quiet : str -> Prop :=
| QuNil : quiet []
| QuLine ws cm nl s : blank ws -> cm = [] \/ comment cm -> line_feed nl -> quiet s -> quiet (ws ++ cm ++ nl ++ s).
(** [crlf s s']: s' is s, with some (or all, or none) of the line feeds turned into CR LF. *)
Inductive crlf : str -> str -> Prop :=
| CrNil : crlf [] []
| CrChar c s s' : c <> 10 -> c <> 13 -> crlf s s' -> crlf (c :: s) (c :: s')
| CrLf s s' : crlf s s' -> crlf (10 :: s) (10 :: s')
| CrCrLf s s' : crlf s s' -> crlf (10 :: s) (13 :: 10 :: s')
| CrKeep s s' : crlf s s' -> crlf (13 :: 10 :: s) (13 :: 10 :: s').
(** The text does not end in a carriage return. *)
Definition no_cr_end (s : str) : Prop := forall t, s <> t ++ [13].
(** The text begins with a table header, after empty lines and comments. *)
Definition begins_section (s : str) : Prop := exists q ws t, quiet q /\ blank ws /\ s = q ++ ws ++ 91 :: t.
(** No byte order mark at the beginning. *)
Definition no_mark (s : str) : Prop := forall t, s <> 65279 :: t.
(** Settings that are neither maps nor lists with maps in them. *)
Definition simple_settings (m : vmap) : Prop :=
  forall k x, In (k, x) m -> (forall n, x <> VMap n) /\ (forall l n, x = VArr l -> ~ In (VMap n) l).
Definition no_key_in_common (m n : vmap) : Prop := forall k x y, In (k, x) m -> ~ In (k, y) n.

(** ** C129: how numbers and texts may be written *)

(** The character c is the digit d in base b. *)
Definition digit_as (b d : Z) (c : char) : Prop :=
  0 <= d < b /\ ((d <= 9 /\ c = 48 + d) \/ (10 <= d <= 15 /\ (c = 87 + d \/ c = 55 + d))).
(** s spells the digits ds, with single underscores between digits allowed. *)
Inductive spelled (b : Z) : list Z -> str -> Prop :=
| SpOne d c : digit_as b d c -> spelled b [d] [c]
| SpMore d c ds s : digit_as b d c -> spelled b ds s -> spelled b (d :: ds) (c :: s)
| SpUnder d c ds s : digit_as b d c -> spelled b ds s -> spelled b (d :: ds) (c :: 95 :: s).
Fixpoint base_val (b : Z) (ds : list Z) : Z :=
  match ds with
  | [] => 0
  | d :: t => d * b ^ Z.of_nat (List.length t) + base_val b t
  end.
(** s is an integer as TOML has it: decimal without leading zeros, with or
    without a sign, or with a prefix 0x, 0o, 0b. *)
Inductive toml_integer : str -> Z -> Prop :=
| TiPlain ds s : spelled 10 ds s -> List.length ds = 1%nat \/ hd 0 ds <> 0 -> toml_integer s (base_val 10 ds)
| TiPlus ds s : spelled 10 ds s -> List.length ds = 1%nat \/ hd 0 ds <> 0 -> toml_integer (lit "+" ++ s) (base_val 10 ds)
| TiMinus ds s : spelled 10 ds s -> List.length ds = 1%nat \/ hd 0 ds <> 0 -> toml_integer (lit "-" ++ s) (- base_val 10 ds)
| TiHex ds s : spelled 16 ds s -> toml_integer (lit "0x" ++ s) (base_val 16 ds)
| TiOct ds s : spelled 8 ds s -> toml_integer (lit "0o" ++ s) (base_val 8 ds)
| TiBin ds s : spelled 2 ds s -> toml_integer (lit "0b" ++ s) (base_val 2 ds).
(** A key that needs no quotes: letters, digits, _ and -. *)
Definition bare_key (k : str) : Prop :=
  k <> [] /\ forall c, In c k -> 65 <= c <= 90 \/ 97 <= c <= 122 \/ 48 <= c <= 57 \/ c = 95 \/ c = 45.
(** The line [key = value]. *)
Definition setting_line (k x : str) : str := k ++ lit " = " ++ x ++ [10].
(** Text without line ends and other control characters but tab. *)
Definition one_line (s : str) : Prop := is_text s = true /\ forall c, In c s -> c = 9 \/ (32 <= c /\ c <> 127).
(** A number with a fraction, an exponent or both: after the sign, digits
    without leading zeros, then . and digits, then e or E, a sign and digits; it
    is d * 10^e. *)
Inductive toml_fraction : str -> list Z -> Prop :=
| TfrNone : toml_fraction [] []
| TfrSome ds s : spelled 10 ds s -> toml_fraction (lit "." ++ s) ds.
Inductive toml_exponent : str -> Z -> Prop :=
| TexNone : toml_exponent [] 0
| TexSome c s u neg ds : c = 101 \/ c = 69 -> with_sign s neg u -> spelled 10 ds u ->
    toml_exponent (c :: s) (if neg : bool then - base_val 10 ds else base_val 10 ds).
Inductive toml_decimal : str -> Z -> Z -> Prop :=
| TdSome ip fp a b c ex : spelled 10 ip a -> List.length ip = 1%nat \/ hd 0 ip <> 0 -> toml_fraction b fp -> toml_exponent c ex -> b <> [] \/ c <> [] ->
    toml_decimal (a ++ b ++ c) (base_val 10 (ip ++ fp)) (ex - Z.of_nat (List.length fp)).
(** s is read as the float f: the number rounded to the nearest, unless that
    is plus infinity; or inf or nan with or without a sign. *)
Inductive toml_float (s : str) : f64 -> Prop :=
| TfNumber neg u d e f : with_sign s neg u -> toml_decimal u d e -> rounds_correctly (signed_real neg (IZR d * powerRZ 10 e)%R) neg f ->
    f <> S754_infinity false -> toml_float s f
| TfInf neg : with_sign s neg (lit "inf") -> toml_float s (S754_infinity neg)
| TfNan neg : with_sign s neg (lit "nan") -> toml_float s S754_nan.
(** One word: letters, digits and _ - + . : *)
Definition word (s : str) : Prop :=
  s <> [] /\ forall c, In c s -> 65 <= c <= 90 \/ 97 <= c <= 122 \/ 48 <= c <= 57 \/ c = 95 \/ c = 45 \/ c = 43 \/ c = 46 \/ c = 58.
