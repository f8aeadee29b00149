(** What a saved TOML file looks like, character by character (C137). *)
From Coq Require Import ZArith List Bool String.
From Coq Require Import Floats.SpecFloat.
Import ListNotations.
From Verif.Model Require Import Text Num Flt Toml.
From Verif.Spec Require Import Numerals TomlTextSpec.
Local Open Scope Z_scope.

(** ** Texts *)

(** One hexadecimal digit, in capitals. *)
Definition capital_hex (z : Z) (d : char) : Prop := (0 <= z <= 9 /\ d = 48 + z) \/ (10 <= z <= 15 /\ d = 65 + (z - 10)).
(** How one character stands between double quotes; [keep]: line feeds stay. *)
Inductive escaped_char (keep : bool) : char -> str -> Prop :=
| EcBackspace : escaped_char keep 8 (lit "\b")
| EcTab : escaped_char keep 9 (lit "\t")
| EcLineKept : keep = true -> escaped_char keep 10 [10]
| EcLine : keep = false -> escaped_char keep 10 (lit "\n")
| EcFeed : escaped_char keep 12 (lit "\f")
| EcReturn : escaped_char keep 13 (lit "\r")
| EcQuote : escaped_char keep 34 [92; 34]
| EcBackslash : escaped_char keep 92 [92; 92]
| EcControl c h l a b : 0 <= c < 32 \/ c = 127 -> ~ In c [8; 9; 10; 12; 13] -> 0 <= l <= 15 -> c = 16 * h + l ->
    capital_hex h a -> capital_hex l b -> escaped_char keep c (lit "\u00" ++ [a; b])
| EcPlain c : 32 <= c -> c <> 127 -> c <> 34 -> c <> 92 -> escaped_char keep c [c].
Inductive escaped (keep : bool) : str -> str -> Prop :=
| EsNil : escaped keep [] []
| EsCons c s t u : escaped_char keep c t -> escaped keep s u -> escaped keep (c :: s) (t ++ u).
(** The text is better written literally, and can be: it has a double quote or a
    backslash, no three single quotes in a row, no single quote at its end, and no
    control characters but tabs and line feeds. *)
Definition literal_text (s : str) : Prop :=
  (In 34 s \/ In 92 s) /\ (forall a b, s <> a ++ [39; 39; 39] ++ b) /\ (forall a, s <> a ++ [39])
  /\ (forall c, In c s -> c = 9 \/ c = 10 \/ (32 <= c /\ c <> 127)).
Inductive text_look : str -> str -> Prop :=
| TkLiteralLines s : literal_text s -> In 10 s -> text_look s (lit "'''" ++ [10] ++ s ++ lit "'''")
| TkLiteralQuotes s : literal_text s -> ~ In 10 s -> In 39 s -> text_look s (lit "'''" ++ s ++ lit "'''")
| TkLiteral s : literal_text s -> ~ In 10 s -> ~ In 39 s -> text_look s (lit "'" ++ s ++ lit "'")
| TkLines s t : ~ literal_text s -> In 10 s -> escaped true s t -> text_look s ([34; 34; 34; 10] ++ t ++ [34; 34; 34])
| TkText s t : ~ literal_text s -> ~ In 10 s -> escaped false s t -> text_look s ([34] ++ t ++ [34]).
Inductive key_look : str -> str -> Prop :=
| KlBare k : bare_key k -> key_look k k
| KlQuoted k t : ~ bare_key k -> escaped false k t -> key_look k ([34] ++ t ++ [34]).

(** ** Values *)

(** Texts with a separator between them. *)
Inductive joined (sep : str) : list str -> str -> Prop :=
| JoNone : joined sep [] []
| JoOne x : joined sep [x] x
| JoMore x y l t : joined sep (y :: l) t -> joined sep (x :: y :: l) (x ++ sep ++ t).
(** A float: nan, inf, -inf; otherwise its shortest text (what [to_string] gives,
    C03), with a point. *)
Inductive float_look : f64 -> str -> Prop :=
| FkNan : float_look S754_nan (lit "nan")
| FkInf : float_look (S754_infinity false) (lit "inf")
| FkNegInf : float_look (S754_infinity true) (lit "-inf")
| FkPoint f : f <> S754_nan -> (forall b, f <> S754_infinity b) -> In 46 (print_f64 f) -> float_look f (print_f64 f)
| FkWhole f : f <> S754_nan -> (forall b, f <> S754_infinity b) -> ~ In 46 (print_f64 f) -> float_look f (print_f64 f ++ lit ".0").
(** A value behind [key = ], and inside arrays and inline tables. *)
Inductive value_look : toml_value -> str -> Prop :=
| VlTrue : value_look (TvBool true) (lit "true")
| VlFalse : value_look (TvBool false) (lit "false")
| VlInt z t : canonical t z -> value_look (TvInt z) t
| VlFloat f t : float_look f t -> value_look (TvFloat f) t
| VlStr s t : text_look s t -> value_look (TvStr s) t
| VlDate s : value_look (TvDate s) s
| VlEmpty : value_look (TvArr []) (lit "[]")
| VlOne x t : value_look x t -> value_look (TvArr [x]) (lit "[" ++ t ++ lit "]")
| VlMany x y l t : element_looks (x :: y :: l) t -> value_look (TvArr (x :: y :: l)) (lit "[" ++ t ++ [10] ++ lit "]")
| VlNoEntry : value_look (TvTab []) (lit "{}")
| VlEntries e m ts t : entry_looks (e :: m) ts -> joined (lit ", ") ts t -> value_look (TvTab (e :: m)) (lit "{ " ++ t ++ lit " }")
(** Elements on lines of their own. *)
with element_looks : list toml_value -> str -> Prop :=
| ElNil : element_looks [] []
| ElCons x l t u : value_look x t -> element_looks l u -> element_looks (x :: l) ([10] ++ lit "    " ++ t ++ lit "," ++ u)
with entry_looks : list (str * toml_value) -> list str -> Prop :=
| EyNil : entry_looks [] []
| EyCons k x m a t ts : key_look k a -> value_look x t -> entry_looks m ts -> entry_looks ((k, x) :: m) ((a ++ lit " = " ++ t) :: ts).

(** ** Files *)

(** A table, or an array of tables only, gets sections; all else is a setting. *)
Definition table_like (t : toml_value) : Prop := exists m, t = TvTab m.
Definition section_like (t : toml_value) : Prop :=
  table_like t \/ exists l, t = TvArr l /\ l <> [] /\ forall x, In x l -> table_like x.
Definition has_settings (m : list (str * toml_value)) : Prop := exists k x, In (k, x) m /\ ~ section_like x.
(** The lines of the settings of a table, in order. *)
Inductive lines_look : list (str * toml_value) -> str -> Prop :=
| LlNil : lines_look [] []
| LlSetting k x m a t s : ~ section_like x -> key_look k a -> value_look x t -> lines_look m s ->
    lines_look ((k, x) :: m) (a ++ lit " = " ++ t ++ [10] ++ s)
| LlSection k x m s : section_like x -> lines_look m s -> lines_look ((k, x) :: m) s.
Definition header_look (path : list str) (array : bool) (t : str) : Prop :=
  exists ks u, Forall2 key_look path ks /\ joined (lit ".") ks u
  /\ t = (if array then lit "[[" ++ u ++ lit "]]" else lit "[" ++ u ++ lit "]") ++ [10].
(** The blocks (a header and the settings below it) for a table and all tables
    in it.  A table that is no element of an array, is not empty and has no
    settings itself has no block of its own. *)
Inductive blocks_look : list str -> bool -> list (str * toml_value) -> list str -> Prop :=
| BlShown path array m h s bs : array = true \/ m = [] \/ has_settings m -> header_look path array h -> lines_look m s ->
    below_look path m bs -> blocks_look path array m ((h ++ s) :: bs)
| BlHidden path m bs : m <> [] -> ~ has_settings m -> below_look path m bs -> blocks_look path false m bs
(** The blocks for the tables in a table, in order. *)
with below_look : list str -> list (str * toml_value) -> list str -> Prop :=
| BwNil path : below_look path [] []
| BwSetting path k x m bs : ~ section_like x -> below_look path m bs -> below_look path ((k, x) :: m) bs
| BwTable path k n m bs cs : blocks_look (path ++ [k]) false n bs -> below_look path m cs -> below_look path ((k, TvTab n) :: m) (bs ++ cs)
| BwArray path k l m bs cs : section_like (TvArr l) -> each_look (path ++ [k]) l bs -> below_look path m cs -> below_look path ((k, TvArr l) :: m) (bs ++ cs)
with each_look : list str -> list toml_value -> list str -> Prop :=
| EaNil path : each_look path [] []
| EaCons path n l bs cs : blocks_look path true n bs -> each_look path l cs -> each_look path (TvTab n :: l) (bs ++ cs).
(** The settings of the file first, then the blocks with an empty line between
    what is written. *)
Inductive file_look : list (str * toml_value) -> str -> Prop :=
| FlSettings m s bs : has_settings m -> lines_look m s -> below_look [] m bs -> file_look m (s ++ List.concat (map (fun b => [10] ++ b) bs))
| FlTables m bs t : ~ has_settings m -> below_look [] m bs -> joined [10] bs t -> file_look m t.

(** No control characters but tabs and line feeds. *)
Definition plain_text (s : str) : Prop := forall c, In c s -> c = 9 \/ c = 10 \/ (32 <= c /\ c <> 127).
