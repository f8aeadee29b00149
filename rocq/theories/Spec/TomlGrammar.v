(** How TOML files are written by hand: values, keys, lines and tables
    (C130-C132). *)
From Coq Require Import ZArith List Bool String.
Import ListNotations.
From Verif.Model Require Import Text Num Value.
From Verif.Spec Require Import Spec TomlTextSpec TomlDates.
Local Open Scope Z_scope.

(** ** Paths *)
(** p begins q (or is q). *)
Definition begins {A} (p q : list A) : Prop := exists r, q = p ++ r.
(** Neither is, or lies inside, the other. *)
Definition apart (p q : list str) : Prop := ~ begins p q /\ ~ begins q p.
(** The map holding v at the path p and nothing else. *)
Fixpoint nest (p : list str) (v : value) : value :=
  match p with
  | [] => v
  | k :: p' => VMap [(k, nest p' v)]
  end.

(** ** Texts in quotes *)
Definition plain_in_quotes (c : char) : Prop := is_scalar c = true /\ (c = 9 \/ (32 <= c /\ c <> 127)).
(** The letter behind a backslash and what it stands for. *)
Inductive short_escape : char -> char -> Prop :=
| SeB : short_escape 98 8
| SeT : short_escape 116 9
| SeN : short_escape 110 10
| SeF : short_escape 102 12
| SeR : short_escape 114 13
| SeQuote : short_escape 34 34
| SeSlash : short_escape 92 92.
(** One character of a text in double quotes, as it is written. *)
Inductive quoted_char : char -> str -> Prop :=
| QcPlain c : plain_in_quotes c -> c <> 34 -> c <> 92 -> quoted_char c [c]
| QcShort c e : short_escape e c -> quoted_char c [92; e]
| QcU4 c ds hs : Forall2 (digit_as 16) ds hs -> List.length ds = 4%nat -> c = base_val 16 ds -> is_scalar c = true -> quoted_char c (92 :: 117 :: hs)
| QcU8 c ds hs : Forall2 (digit_as 16) ds hs -> List.length ds = 8%nat -> c = base_val 16 ds -> is_scalar c = true -> quoted_char c (92 :: 85 :: hs).
Inductive quoted : str -> str -> Prop :=
| QuEnd : quoted [] []
| QuChar c x k s : quoted_char c x -> quoted k s -> quoted (c :: k) (x ++ s).

(** ** Texts in three quotes, over several lines *)
Definition begins_none (cs : list char) (s : str) : Prop := forall c t, s = c :: t -> ~ In c cs.
(** One or two quotes (three would end the text). *)
Definition few_quotes (q : char) (s : str) : Prop := s = [q] \/ s = [q; q].
(** White space and line ends. *)
Inductive white : str -> Prop :=
| WhEnd : white []
| WhBlank w s : blank w -> white s -> white (w ++ s)
| WhLine nl s : line_feed nl -> white s -> white (nl ++ s).
(** Between three double quotes: any line end is a line feed of the text; a
    backslash at the end of a line removes it with all white space that follows. *)
Inductive long_text : str -> str -> Prop :=
| LtEnd : long_text [] []
| LtChar c x k s : quoted_char c x -> long_text k s -> long_text (c :: k) (x ++ s)
| LtBreak nl k s : line_feed nl -> long_text k s -> long_text (10 :: k) (nl ++ s)
| LtQuotes q k s : few_quotes 34 q -> s <> [] -> begins_none [34] s -> long_text k s -> long_text (q ++ k) (q ++ s)
| LtJoin w nl g k s : blank w -> line_feed nl -> white g -> begins_none [32; 9; 10; 13] s -> long_text k s -> long_text k ([92] ++ w ++ nl ++ g ++ s).
(** Between three single quotes: nothing is special but line ends. *)
Inductive long_plain : str -> str -> Prop :=
| LpEnd : long_plain [] []
| LpChar c k s : plain_in_quotes c -> c <> 39 -> long_plain k s -> long_plain (c :: k) (c :: s)
| LpBreak nl k s : line_feed nl -> long_plain k s -> long_plain (10 :: k) (nl ++ s)
| LpQuotes q k s : few_quotes 39 q -> s <> [] -> begins_none [39] s -> long_plain k s -> long_plain (q ++ k) (q ++ s).
(** After the opening quotes: a line end there does not count. *)
Definition opening (f s : str) : Prop := line_feed f \/ (f = [] /\ begins_none [10; 13] s).

(** ** Keys *)
(** A part of a key and its text: bare, or in quotes of either kind. *)
Inductive key_text : str -> str -> Prop :=
| KtBare k : bare_key k -> key_text k k
| KtDouble k s : quoted k s -> key_text k ([34] ++ s ++ [34])
| KtSingle k : one_line k -> ~ In 39 k -> key_text k ([39] ++ k ++ [39]).
(** Parts with dots between them, white space anywhere around them. *)
Inductive path_text : list str -> str -> Prop :=
| PtOne k s w1 w2 : key_text k s -> blank w1 -> blank w2 -> path_text [k] (w1 ++ s ++ w2)
| PtMore k s w1 w2 p t : key_text k s -> blank w1 -> blank w2 -> path_text p t -> path_text (k :: p) (w1 ++ s ++ w2 ++ [46] ++ t).

(** ** Values *)
(** White space, comments and line ends, as allowed inside arrays. *)
Definition gap (s : str) : Prop := exists q w, quiet q /\ blank w /\ s = q ++ w.
(** [value_text W lim n s v]: s writes v, with at most n arrays and inline tables
    inside one another; W tells what words mean, [lim] limits the length of keys. *)
Inductive value_text (W : str -> value -> Prop) (lim : nat) : nat -> str -> value -> Prop :=
| VtWord n s v : word s -> W s v -> value_text W lim n s v
| VtDouble n s k : quoted k s -> value_text W lim n ([34] ++ s ++ [34]) (VStr k)
| VtSingle n k : one_line k -> ~ In 39 k -> value_text W lim n ([39] ++ k ++ [39]) (VStr k)
| VtLong n f s k q : opening f s -> long_text k s -> q = [] \/ few_quotes 34 q ->
    value_text W lim n ([34; 34; 34] ++ f ++ s ++ q ++ [34; 34; 34]) (VStr (k ++ q))
| VtLongPlain n f s k q : opening f s -> long_plain k s -> q = [] \/ few_quotes 39 q ->
    value_text W lim n ([39; 39; 39] ++ f ++ s ++ q ++ [39; 39; 39]) (VStr (k ++ q))
| VtSpaced n d t m z o : date_text d -> time_text t m -> offset_text z o ->
    value_text W lim n (d ++ lit " " ++ t ++ z) (moment (d ++ lit "T" ++ m ++ o))
| VtArray n s l : items_text W lim n s l -> value_text W lim (S n) ([91] ++ s) (VArr l)
| VtEmpty n w : blank w -> value_text W lim (S n) ([123] ++ w ++ [125]) (VMap [])
| VtTable n s l : pairs_text W lim n s l -> NoDup (map (fun e => hd [] (fst e)) l) ->
    value_text W lim (S n) ([123] ++ s) (VMap (map (fun e => (hd [] (fst e), nest (tl (fst e)) (snd e))) l))
(** What follows the opening bracket; a comma may stand behind the last item. *)
with items_text (W : str -> value -> Prop) (lim : nat) : nat -> str -> list value -> Prop :=
| ItEnd n g : gap g -> items_text W lim n (g ++ [93]) []
| ItLast n g x v h : gap g -> value_text W lim n x v -> gap h -> items_text W lim n (g ++ x ++ h ++ [93]) [v]
| ItMore n g x v h s l : gap g -> value_text W lim n x v -> gap h -> items_text W lim n s l -> items_text W lim n (g ++ x ++ h ++ [44] ++ s) (v :: l)
(** What follows the opening brace; keys may be dotted. *)
with pairs_text (W : str -> value -> Prop) (lim : nat) : nat -> str -> list (list str * value) -> Prop :=
| PaLast n p t w x v w2 : path_text p t -> (List.length p < lim)%nat -> blank w -> value_text W lim n x v -> blank w2 ->
    pairs_text W lim n (t ++ [61] ++ w ++ x ++ w2 ++ [125]) [(p, v)]
| PaMore n p t w x v w2 s l : path_text p t -> (List.length p < lim)%nat -> blank w -> value_text W lim n x v -> blank w2 -> pairs_text W lim n s l ->
    pairs_text W lim n (t ++ [61] ++ w ++ x ++ w2 ++ [44] ++ s) ((p, v) :: l).

(** ** Lines *)
(** The end of a line. *)
Definition line_tail (s : str) : Prop := exists w cm nl, blank w /\ (cm = [] \/ comment cm) /\ line_feed nl /\ s = w ++ cm ++ nl.
(** A setting: [key = value]. *)
Inductive setting_text (W : str -> value -> Prop) (lim : nat) : list str * value -> str -> Prop :=
| SetLine p t w x v n e : path_text p t -> (List.length p < lim)%nat -> blank w -> value_text W lim n x v -> (n < lim)%nat -> line_tail e ->
    setting_text W lim (p, v) (t ++ [61] ++ w ++ x ++ e).
(** Settings, with empty lines and comments between them. *)
Inductive settings_text (W : str -> value -> Prop) (lim : nat) : list (list str * value) -> str -> Prop :=
| SsEnd q : quiet q -> settings_text W lim [] q
| SsMore q e s l t : quiet q -> setting_text W lim e s -> settings_text W lim l t -> settings_text W lim (e :: l) (q ++ s ++ t).
(** A header: the path in brackets. *)
Inductive header_text (lim : nat) : list str -> str -> Prop :=
| HdLine p t w e : path_text p t -> (List.length p < lim)%nat -> blank w -> line_tail e -> header_text lim p (w ++ [91] ++ t ++ [93] ++ e).
(** Tables: headers, each with its settings. *)
Inductive tables_text (W : str -> value -> Prop) (lim : nat) : list (list str * list (list str * value)) -> str -> Prop :=
| TbEnd : tables_text W lim [] []
| TbMore p h l s ts t : header_text lim p h -> settings_text W lim l s -> tables_text W lim ts t -> tables_text W lim ((p, l) :: ts) (h ++ s ++ t).
(** A document: settings, then tables. *)
Definition document_text (W : str -> value -> Prop) (lim : nat) (l : list (list str * value)) (ts : list (list str * list (list str * value))) (s : str) : Prop :=
  exists a b, settings_text W lim l a /\ tables_text W lim ts b /\ s = a ++ b.

(** ** What a document says *)
(** All settings with their full paths. *)
Definition all_settings (l : list (list str * value)) (ts : list (list str * list (list str * value))) : list (list str * value) :=
  l ++ flat_map (fun t => map (fun e => (fst t ++ fst e, snd e)) (snd t)) ts.
(** The same with the paths only. *)
Definition paths_of (l : list (list str * value)) : list (list str) := map fst l.
Definition shape (ts : list (list str * list (list str * value))) : list (list str * list (list str)) := map (fun t => (fst t, paths_of (snd t))) ts.
Definition all_paths (l : list (list str)) (ts : list (list str * list (list str))) : list (list str) :=
  l ++ flat_map (fun t => map (app (fst t)) (snd t)) ts.
(** Nothing is set twice, or both set and a table; no table has two headers. *)
Definition no_clash (l : list (list str)) (ts : list (list str * list (list str))) : Prop :=
  ForallOrdPairs apart (all_paths l ts) /\ NoDup (map fst ts) /\
  (forall p h, In p (all_paths l ts) -> In h (map fst ts) -> ~ begins p h).
(** No header goes through a table that a dotted key of a setting makes. *)
Definition dots_apart (l : list (list str)) (ts : list (list str * list (list str))) : Prop :=
  forall p es d r h, In (p, es) (([], l) :: ts) -> In (d ++ r) es -> d <> [] -> r <> [] -> In h (map fst ts) -> ~ begins (p ++ d) h.
(** v holds exactly the settings and the tables. *)
Definition holds_exactly (l : list (list str * value)) (ts : list (list str)) (v : value) : Prop :=
  (forall p x, In (p, x) l -> exists y, at_path v p y /\ vequiv x y) /\
  (forall h, In h ts -> exists m, at_path v h (VMap m)) /\
  (forall q y, at_path v q y -> q = [] \/ (exists p x, In (p, x) l /\ (begins q p \/ begins p q)) \/ (exists h, In h ts /\ begins q h)).
