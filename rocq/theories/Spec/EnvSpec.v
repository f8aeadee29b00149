(** Vocabulary for the environment layer (C32-C34). *)
From Coq Require Import ZArith List Bool.
Import ListNotations.
From Verif.Model Require Import Text Value.
From Verif.Spec Require Import Spec.
Local Open Scope Z_scope.

(** ** UTF-8 (RFC 3629): the bytes of one character.  a, b, c, d are the
    six-bit groups of its code point, surrogates have no encoding. *)
Inductive char_utf8 : char -> list byte -> Prop :=
| Utf8_1 c : 0 <= c <= 127 -> char_utf8 c [c]
| Utf8_2 a b : 0 <= b < 64 -> 128 <= 64 * a + b <= 2047 ->
    char_utf8 (64 * a + b) [192 + a; 128 + b]
| Utf8_3 a b c : 0 <= b < 64 -> 0 <= c < 64 -> 2048 <= 4096 * a + 64 * b + c <= 65535 ->
    ~ 55296 <= 4096 * a + 64 * b + c <= 57343 ->
    char_utf8 (4096 * a + 64 * b + c) [224 + a; 128 + b; 128 + c]
| Utf8_4 a b c d : 0 <= b < 64 -> 0 <= c < 64 -> 0 <= d < 64 ->
    65536 <= 262144 * a + 4096 * b + 64 * c + d <= 1114111 ->
    char_utf8 (262144 * a + 4096 * b + 64 * c + d) [240 + a; 128 + b; 128 + c; 128 + d].
(** bs is the UTF-8 encoding of the text s. *)
Inductive utf8 : list byte -> str -> Prop :=
| Utf8Nil : utf8 [] []
| Utf8Cons c bc bs s : char_utf8 c bc -> utf8 bs s -> utf8 (bc ++ bs) (c :: s).

(** Unicode White_Space: tab, line feed, vertical tab, form feed, carriage
    return, space, next line, no-break space, ogham space mark, en quad ... hair
    space, line and paragraph separator, narrow no-break space, medium
    mathematical space, ideographic space. *)
Definition white_space : list char :=
  [9; 10; 11; 12; 13; 32; 133; 160; 5760; 8192; 8193; 8194; 8195; 8196; 8197; 8198; 8199; 8200; 8201; 8202;
   8232; 8233; 8239; 8287; 12288].
Definition white (c : char) : Prop := In c white_space.

(** t is s without surrounding white space. *)
Definition trimmed (s t : str) : Prop :=
  exists a b, s = a ++ t ++ b /\ Forall white a /\ Forall white b
    /\ (forall c r, t = c :: r -> ~ white c) /\ (forall c i, t = i ++ [c] -> ~ white c).

Definition begins_with (p s : str) : Prop := exists r, s = p ++ r.

(** s is one or more copies of p followed by k, and k does not begin with p. *)
Definition strips (p s k : str) : Prop :=
  exists n, s = concat (repeat p (S n)) ++ k /\ ~ begins_with p k.

(** The environment entry kv (name and value bytes) is exposed as k = s. *)
Definition exposes (p : str) (kv : list byte * list byte) (k s : str) : Prop :=
  exists name t, utf8 (fst kv) name /\ trimmed name t /\ strips p t k /\ utf8 (snd kv) s.

(** The last entry of env exposed under k gives it the value s. *)
Definition last_exposed (p : str) (env : list (list byte * list byte)) (k s : str) : Prop :=
  exists before kv after, env = before ++ kv :: after /\ exposes p kv k s
    /\ forall kv', In kv' after -> forall s', ~ exposes p kv' k s'.
