(** Text: Rust [str]/[String], [char] and the parts of the standard library's
    string API that BakuninConfig calls.  Everything in this file models the
    Rust standard library (it is part of the trusted base); the BakuninConfig
    code that uses it is cited at each definition. *)
From Coq Require Import ZArith List Bool String Ascii.
Import ListNotations.
Open Scope Z_scope.

(** A [char] is its Unicode code point; a [String] is its sequence of chars.
    (A Rust String is the UTF-8 encoding of that sequence: see [utf8_encode].)
    Used throughout, e.g. src/model/value.rs:15 (Value::String). *)
Definition char := Z.
Definition str := list char.

(** ASCII literals such as "true" or "toml" in the Rust source. *)
Definition lit (x : string) : str :=
  map (fun a => Z.of_N (N_of_ascii a)) (list_ascii_of_string x).

Definition str_eq_dec : forall a b : str, {a = b} + {a <> b} :=
  list_eq_dec Z.eq_dec.

(** [&str == &str]. *)
Definition str_eqb (a b : str) : bool := if str_eq_dec a b then true else false.

(** Unicode scalar value: what a Rust [char] can hold. *)
Definition is_scalar (c : char) : bool :=
  ((0 <=? c) && (c <=? 55295)) || ((57344 <=? c) && (c <=? 1114111)).

Definition is_text (s : str) : bool := forallb is_scalar s.

(** [char::is_whitespace] (Unicode White_Space), used by [str::trim] in
    src/config_layer/layer_env.rs:15 and :57. *)
Definition is_whitespace (c : char) : bool :=
  ((9 <=? c) && (c <=? 13)) || (c =? 32) || (c =? 133) || (c =? 160) ||
  (c =? 5760) || ((8192 <=? c) && (c <=? 8202)) || (c =? 8232) || (c =? 8233) ||
  (c =? 8239) || (c =? 8287) || (c =? 12288).

Fixpoint drop_while {A} (f : A -> bool) (l : list A) : list A :=
  match l with
  | [] => []
  | x :: t => if f x then drop_while f t else l
  end.

(** [str::trim]; src/config_layer/layer_env.rs:15, :57. *)
Definition trim_start (s : str) : str := drop_while is_whitespace s.
Definition trim_end (s : str) : str := rev (drop_while is_whitespace (rev s)).
Definition trim (s : str) : str := trim_end (trim_start s).

(** [str::starts_with]; src/config_layer/layer_env.rs:64. *)
Fixpoint starts_with (p s : str) : bool :=
  match p, s with
  | [], _ => true
  | x :: p', y :: s' => (x =? y) && starts_with p' s'
  | _ :: _, [] => false
  end.

(** [str::trim_start_matches(&str)]: removes the pattern from the front as
    often as it occurs there; src/config_layer/layer_env.rs:68.
    [fuel] is the number of removals allowed; [length s] is enough for a
    non-empty pattern.  (For the empty pattern Rust's matcher returns the
    string unchanged; the layer never gets there because a blank prefix is
    rejected first.) *)
Fixpoint trim_start_matches_fuel (fuel : nat) (p s : str) : str :=
  match fuel with
  | O => s
  | S f => if starts_with p s
           then trim_start_matches_fuel f p (skipn (List.length p) s)
           else s
  end.
Definition trim_start_matches (p s : str) : str :=
  match p with
  | [] => s
  | _ => trim_start_matches_fuel (List.length s) p s
  end.

(** [str::to_lowercase], used only to compare with "true"/"false" in
    src/model/into.rs:16.  Simplification: besides A-Z, only the two code
    points whose Unicode lower case contains an ASCII letter are mapped
    (U+212A KELVIN SIGN -> k, U+0130 -> i U+0307); every other non-ASCII
    char is left alone, which cannot change a comparison with an ASCII
    literal. *)
Definition lower_char (c : char) : str :=
  if (65 <=? c) && (c <=? 90) then [c + 32]
  else if c =? 8490 then [107]
  else if c =? 304 then [105; 775]
  else [c].
Definition to_lowercase (s : str) : str := flat_map lower_char s.

(** ** UTF-8 *)

(** Bytes are [Z] in 0..255. *)
Definition byte := Z.

Definition utf8_encode_char (c : char) : list byte :=
  if c <? 128 then [c]
  else if c <? 2048 then [192 + c / 64; 128 + c mod 64]
  else if c <? 65536 then [224 + c / 4096; 128 + (c / 64) mod 64; 128 + c mod 64]
  else [240 + c / 262144; 128 + (c / 4096) mod 64; 128 + (c / 64) mod 64; 128 + c mod 64].

(** The bytes of a String; [String::len] (src/model/value.rs:100) counts them. *)
Definition utf8_encode (s : str) : list byte := flat_map utf8_encode_char s.
Definition byte_len (s : str) : nat := List.length (utf8_encode s).

Definition is_cont (b : byte) : bool := (128 <=? b) && (b <=? 191).

(** [String::from_utf8] / [OsString::into_string] (src/config_layer/layer_env.rs:56,70)
    and the check in [std::fs::read_to_string] (handlers/toml.rs:9): strict
    UTF-8 (no overlong forms, no surrogates, at most U+10FFFF). *)
Fixpoint utf8_decode (bs : list byte) : option str :=
  match bs with
  | [] => Some []
  | b0 :: t0 =>
    if (0 <=? b0) && (b0 <? 128) then
      match utf8_decode t0 with Some s => Some (b0 :: s) | None => None end
    else match t0 with
    | [] => None
    | b1 :: t1 =>
      if (194 <=? b0) && (b0 <=? 223) then
        if is_cont b1 then
          match utf8_decode t1 with
          | Some s => Some ((b0 - 192) * 64 + (b1 - 128) :: s)
          | None => None end
        else None
      else match t1 with
      | [] => None
      | b2 :: t2 =>
        if (224 <=? b0) && (b0 <=? 239) then
          let c := (b0 - 224) * 4096 + (b1 - 128) * 64 + (b2 - 128) in
          if is_cont b1 && is_cont b2 && (2048 <=? c) && is_scalar c then
            match utf8_decode t2 with Some s => Some (c :: s) | None => None end
          else None
        else match t2 with
        | [] => None
        | b3 :: t3 =>
          if (240 <=? b0) && (b0 <=? 244) then
            let c := (b0 - 240) * 262144 + (b1 - 128) * 4096 + (b2 - 128) * 64 + (b3 - 128) in
            if is_cont b1 && is_cont b2 && is_cont b3 && (65536 <=? c) && is_scalar c then
              match utf8_decode t3 with Some s => Some (c :: s) | None => None end
            else None
          else None
        end
      end
    end
  end.
