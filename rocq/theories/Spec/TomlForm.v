(** The form every TOML file that loads has (C138). *)
From Coq Require Import ZArith List Bool String.
Import ListNotations.
From Verif.Model Require Import Text Num.
From Verif.Spec Require Import Numerals Spec TomlTextSpec TomlDates TomlGrammar.
Local Open Scope Z_scope.

(** A value without quotes: an integer of 64 bits, a float, true or false, a
    date, a time, or both. *)
Definition literal_word (s : str) : Prop :=
  (exists z, toml_integer s z /\ fits I64 z) \/ (exists f, toml_float s f) \/ s = lit "true" \/ s = lit "false" \/ (exists n, moment_text s n).
(** How values are written: [value_form lim n s], with at most n arrays and
    inline tables inside one another; keys have less than [lim] parts. *)
Inductive value_form (lim : nat) : nat -> str -> Prop :=
| VfWord n s : literal_word s -> value_form lim n s
| VfDouble n k s : quoted k s -> value_form lim n ([34] ++ s ++ [34])
| VfSingle n k : one_line k -> ~ In 39 k -> value_form lim n ([39] ++ k ++ [39])
| VfLong n f k s q : opening f s -> long_text k s -> q = [] \/ few_quotes 34 q -> value_form lim n ([34; 34; 34] ++ f ++ s ++ q ++ [34; 34; 34])
| VfLongPlain n f k s q : opening f s -> long_plain k s -> q = [] \/ few_quotes 39 q -> value_form lim n ([39; 39; 39] ++ f ++ s ++ q ++ [39; 39; 39])
| VfArray n s : items_form lim n s -> value_form lim (S n) ([91] ++ s)
| VfEmpty n w : blank w -> value_form lim (S n) ([123] ++ w ++ [125])
| VfTable n s : pairs_form lim n s -> value_form lim (S n) ([123] ++ s)
(** What follows the opening bracket; a comma may stand behind the last item. *)
with items_form (lim : nat) : nat -> str -> Prop :=
| IfEnd n g : gap g -> items_form lim n (g ++ [93])
| IfLast n g x h : gap g -> value_form lim n x -> gap h -> items_form lim n (g ++ x ++ h ++ [93])
| IfMore n g x h s : gap g -> value_form lim n x -> gap h -> items_form lim n s -> items_form lim n (g ++ x ++ h ++ [44] ++ s)
(** What follows the opening brace: no line ends, no comma behind the last pair. *)
with pairs_form (lim : nat) : nat -> str -> Prop :=
| PfLast n p t w x w2 : path_text p t -> (List.length p < lim)%nat -> blank w -> value_form lim n x -> blank w2 ->
    pairs_form lim n (t ++ [61] ++ w ++ x ++ w2 ++ [125])
| PfMore n p t w x w2 s : path_text p t -> (List.length p < lim)%nat -> blank w -> value_form lim n x -> blank w2 -> pairs_form lim n s ->
    pairs_form lim n (t ++ [61] ++ w ++ x ++ w2 ++ [44] ++ s).
(** A setting, the header of a table, the header of one more element of an
    array of tables. *)
Inductive line_form (lim : nat) : str -> Prop :=
| LfSetting p t w v n : path_text p t -> (List.length p < lim)%nat -> blank w -> value_form lim n v -> (n < lim)%nat -> line_form lim (t ++ [61] ++ w ++ v)
| LfTable p t : path_text p t -> (List.length p < lim)%nat -> line_form lim ([91] ++ t ++ [93])
| LfElement p t : path_text p t -> (List.length p < lim)%nat -> line_form lim ([91; 91] ++ t ++ [93; 93]).
(** White space and perhaps a comment. *)
Definition trailer (s : str) : Prop := exists w cm, blank w /\ (cm = [] \/ comment cm) /\ s = w ++ cm.
(** Lines one after the other; the last needs no line end. *)
Inductive file_form (lim : nat) : str -> Prop :=
| FfEnd e : trailer e -> file_form lim e
| FfQuiet e nl s : trailer e -> line_feed nl -> file_form lim s -> file_form lim (e ++ nl ++ s)
| FfLine w x e nl s : blank w -> line_form lim x -> trailer e -> line_feed nl -> file_form lim s -> file_form lim (w ++ x ++ e ++ nl ++ s)
| FfLast w x e : blank w -> line_form lim x -> trailer e -> file_form lim (w ++ x ++ e).
