(** What a TOML file of the form of Spec/TomlForm.v says (C139). *)
From Coq Require Import ZArith List Bool String.
Import ListNotations.
From Verif.Model Require Import Text Num Value.
From Verif.Spec Require Import Numerals Spec TomlTextSpec TomlDates TomlGrammar TomlForm.
Local Open Scope Z_scope.

(** A value without quotes. *)
Inductive word_says : str -> value -> Prop :=
| WsInteger s z : toml_integer s z -> fits I64 z -> word_says s (VInt z)
| WsFloat s f : toml_float s f -> word_says s (VFloat f)
| WsTrue : word_says (lit "true") (VBool true)
| WsFalse : word_says (lit "false") (VBool false)
| WsMoment s n : moment_text s n -> word_says s (moment n).
(** A text in quotes of any kind. *)
Inductive text_says : str -> str -> Prop :=
| TsDouble k s : quoted k s -> text_says ([34] ++ s ++ [34]) k
| TsSingle k : one_line k -> ~ In 39 k -> text_says ([39] ++ k ++ [39]) k
| TsLong f k s q : opening f s -> long_text k s -> q = [] \/ few_quotes 34 q -> text_says ([34; 34; 34] ++ f ++ s ++ q ++ [34; 34; 34]) (k ++ q)
| TsLongPlain f k s q : opening f s -> long_plain k s -> q = [] \/ few_quotes 39 q -> text_says ([39; 39; 39] ++ f ++ s ++ q ++ [39; 39; 39]) (k ++ q).
(** A value; an inline table holds what its pairs say and nothing else, and no
    pair sets what another one sets. *)
Inductive value_says (lim : nat) : nat -> str -> value -> Prop :=
| SyWord n s v : word_says s v -> value_says lim n s v
| SyText n s k : text_says s k -> value_says lim n s (VStr k)
| SyArray n s l : items_say lim n s l -> value_says lim (S n) ([91] ++ s) (VArr l)
| SyEmpty n w : blank w -> value_says lim (S n) ([123] ++ w ++ [125]) (VMap [])
| SyTable n s l v : pairs_say lim n s l -> ForallOrdPairs apart (map fst l) -> holds_exactly l [] v -> value_says lim (S n) ([123] ++ s) v
with items_say (lim : nat) : nat -> str -> list value -> Prop :=
| IsEnd n g : gap g -> items_say lim n (g ++ [93]) []
| IsLast n g x v h : gap g -> value_says lim n x v -> gap h -> items_say lim n (g ++ x ++ h ++ [93]) [v]
| IsMore n g x v h s l : gap g -> value_says lim n x v -> gap h -> items_say lim n s l -> items_say lim n (g ++ x ++ h ++ [44] ++ s) (v :: l)
with pairs_say (lim : nat) : nat -> str -> list (list str * value) -> Prop :=
| PsLast n p t w x v w2 : path_text p t -> (List.length p < lim)%nat -> blank w -> value_says lim n x v -> blank w2 ->
    pairs_say lim n (t ++ [61] ++ w ++ x ++ w2 ++ [125]) [(p, v)]
| PsMore n p t w x v w2 s l : path_text p t -> (List.length p < lim)%nat -> blank w -> value_says lim n x v -> blank w2 -> pairs_say lim n s l ->
    pairs_say lim n (t ++ [61] ++ w ++ x ++ w2 ++ [44] ++ s) ((p, v) :: l).
(** A line, and all lines of a file, in order. *)
Inductive said :=
| Setting (p : list str) (v : value)
| Table (p : list str)
| Element (p : list str).
Inductive line_says (lim : nat) : str -> said -> Prop :=
| LsSetting p t w s v n : path_text p t -> (List.length p < lim)%nat -> blank w -> value_says lim n s v -> (n < lim)%nat -> line_says lim (t ++ [61] ++ w ++ s) (Setting p v)
| LsTable p t : path_text p t -> (List.length p < lim)%nat -> line_says lim ([91] ++ t ++ [93]) (Table p)
| LsElement p t : path_text p t -> (List.length p < lim)%nat -> line_says lim ([91; 91] ++ t ++ [93; 93]) (Element p).
Inductive file_says (lim : nat) : str -> list said -> Prop :=
| FsEnd e : trailer e -> file_says lim e []
| FsQuiet e nl s l : trailer e -> line_feed nl -> file_says lim s l -> file_says lim (e ++ nl ++ s) l
| FsLine w x d e nl s l : blank w -> line_says lim x d -> trailer e -> line_feed nl -> file_says lim s l -> file_says lim (w ++ x ++ e ++ nl ++ s) (d :: l)
| FsLast w x d e : blank w -> line_says lim x d -> trailer e -> file_says lim (w ++ x ++ e) [d].
(** Settings, then tables with their settings, as lines. *)
Definition lines_of (a : list (list str * value)) (ts : list (list str * list (list str * value))) : list said :=
  map (fun e => Setting (fst e) (snd e)) a ++ flat_map (fun t => Table (fst t) :: map (fun e => Setting (fst e) (snd e)) (snd t)) ts.
(** The settings before the first header are in v at their paths. *)
Definition starts_with (l : list said) (v : value) : Prop := exists a rest, l = map (fun e => Setting (fst e) (snd e)) a ++ rest /\
  match rest with Setting _ _ :: _ => False | _ => True end /\ ForallOrdPairs apart (map fst a) /\
  (forall p x, In (p, x) a -> exists y, at_path v p y /\ vequiv x y).
