(** TOML text: what [toml::to_string_pretty] writes and what [toml::from_str]
    accepts (src/config_layer/handlers/toml.rs:10, 15).  External code, written
    down from toml 0.8 (on toml_edit 0.22) and the TOML 1.0 grammar; part of the
    trusted base.  Simplifications: the wording of parse errors; the order of the
    entries of a parsed table (a Value cannot show it). *)
From Coq Require Import ZArith List Bool String.
From Coq Require Import Floats.SpecFloat.
Import ListNotations.
From Verif.Model Require Import Text Num Flt Value Convert Serde Visitor Layers Toml.
Local Open Scope Z_scope.

(** ** Writing *)

Definition digit_char (c : char) : bool := (48 <=? c) && (c <=? 57).
(** A-Z a-z 0-9 - _ *)
Definition bare_char (c : char) : bool :=
  ((65 <=? c) && (c <=? 90)) || ((97 <=? c) && (c <=? 122)) || digit_char c || (c =? 45) || (c =? 95).
Definition hex_digit (z : Z) : char := if z <? 10 then 48 + z else 55 + z.
(** ["\\u{:04X}"], for control characters *)
Definition escape_u (c : char) : str := lit "\u00" ++ [hex_digit (c / 16); hex_digit (c mod 16)].
(** toml_edit's [to_string_repr]: one character of a basic string. *)
Definition escape_char (lines : bool) (c : char) : str :=
  if c =? 8 then lit "\b" else if c =? 9 then lit "\t"
  else if c =? 10 then (if lines then [10] else lit "\n")
  else if c =? 12 then lit "\f" else if c =? 13 then lit "\r"
  else if c =? 34 then [92; 34] else if c =? 92 then [92; 92]
  else if (c <=? 31) || (c =? 127) then escape_u c else [c].

(** toml_edit's [infer_all_style]: whether the text has a line break, whether it
    can be written literally, the longest run of single quotes. *)
Record style := { st_lines : bool; st_pretty : bool; st_prefer : bool; st_run : nat; st_max : nat }.
Definition style_step (st : style) (c : char) : style :=
  if st_pretty st then
    let run := if c =? 39 then S (st_run st) else O in
    let mx := if c =? 39 then st_max st else Nat.max (st_max st) (st_run st) in
    let ok := negb ((c =? 39) && Nat.leb 3 run) in
    if c =? 9 then {| st_lines := st_lines st; st_pretty := ok; st_prefer := st_prefer st; st_run := run; st_max := mx |}
    else if (c =? 34) || (c =? 92) then {| st_lines := st_lines st; st_pretty := ok; st_prefer := true; st_run := run; st_max := mx |}
    else if c =? 10 then {| st_lines := true; st_pretty := ok; st_prefer := st_prefer st; st_run := run; st_max := mx |}
    else if (c <=? 31) || (c =? 127) then
      {| st_lines := st_lines st; st_pretty := false; st_prefer := st_prefer st; st_run := run; st_max := mx |}
    else {| st_lines := st_lines st; st_pretty := ok; st_prefer := st_prefer st; st_run := run; st_max := mx |}
  else
    {| st_lines := st_lines st || (c =? 10); st_pretty := false; st_prefer := st_prefer st; st_run := st_run st; st_max := st_max st |}.
Definition style_of (s : str) : style :=
  fold_left style_step s {| st_lines := false; st_pretty := true; st_prefer := false; st_run := O; st_max := O |}.
Definition literal_ok (s : str) : bool :=
  let st := style_of s in st_pretty st && st_prefer st && Nat.eqb (st_run st) 0.
Definition print_str (s : str) : str :=
  let st := style_of s in
  if literal_ok s then
    if st_lines st then lit "'''" ++ [10] ++ s ++ lit "'''"
    else if Nat.leb 1 (Nat.max (st_max st) (st_run st)) then lit "'''" ++ s ++ lit "'''"
    else [39] ++ s ++ [39]
  else
    if st_lines st then [34; 34; 34; 10] ++ flat_map (escape_char true) s ++ [34; 34; 34]
    else [34] ++ flat_map (escape_char false) s ++ [34].
(** toml_edit's [to_key_repr]. *)
Definition print_key (k : str) : str :=
  match k with
  | [] => [34; 34]
  | _ => if forallb bare_char k then k else [34] ++ flat_map (escape_char false) k ++ [34]
  end.
(** toml_edit's [to_f64_repr]; a float is whole ([f % 1.0 == 0.0]) if its
    shortest text has no point. *)
Definition print_float (f : f64) : str :=
  match f with
  | S754_nan => lit "nan"
  | S754_infinity _ => print_f64 f
  | _ => if existsb (Z.eqb 46) (print_f64 f) then print_f64 f else print_f64 f ++ lit ".0"
  end.
Fixpoint join_str (sep : str) (l : list str) : str :=
  match l with
  | [] => []
  | [x] => x
  | x :: t => x ++ sep ++ join_str sep t
  end.
(** A value behind [key = ] or inside an array or inline table: arrays of two or
    more elements over several lines (toml's [DocumentFormatter]). *)
Fixpoint print_value (t : toml_value) : str :=
  match t with
  | TvBool b => if b then lit "true" else lit "false"
  | TvInt z => print_int z
  | TvFloat f => print_float f
  | TvStr s => print_str s
  | TvDate s => s
  | TvArr l =>
    match l with
    | [] => lit "[]"
    | [x] => lit "[" ++ print_value x ++ lit "]"
    | _ => lit "[" ++ flat_map (fun x => [10] ++ lit "    " ++ print_value x ++ lit ",") l ++ [10] ++ lit "]"
    end
  | TvTab m =>
    match m with
    | [] => lit "{}"
    | _ => lit "{ " ++ join_str (lit ", ") (map (fun e => print_key (fst e) ++ lit " = " ++ print_value (snd e)) m) ++ lit " }"
    end
  end.
(** [into_table] and [into_array_of_tables]: which entries become sections. *)
Definition is_tab (t : toml_value) : bool := match t with TvTab _ => true | _ => false end.
Definition is_section (t : toml_value) : bool :=
  match t with
  | TvTab _ => true
  | TvArr l => match l with [] => false | _ => forallb is_tab l end
  | _ => false
  end.
(** One [ [path] ] or [ [[path]] ] section with its own entries. *)
Record section_text := { sc_path : list str; sc_array : bool; sc_entries : list (str * toml_value) }.
Definition own_entries (m : list (str * toml_value)) : list (str * toml_value) := filter (fun e => negb (is_section (snd e))) m.
(** toml_edit's [visit_nested_tables]: all sections below a table, in order.  A
    table that is not empty but has no entries of its own has no header. *)
Definition entry_sections (sub : list str -> bool -> toml_value -> list section_text) (path : list str) (m : list (str * toml_value))
  : list section_text :=
  flat_map (fun e => if is_section (snd e) then
                       match snd e with
                       | TvArr l => flat_map (fun x => sub (path ++ [fst e]) true x) l
                       | _ => sub (path ++ [fst e]) false (snd e)
                       end
                     else []) m.
Fixpoint sections (path : list str) (array : bool) (t : toml_value) {struct t} : list section_text :=
  match t with
  | TvTab m =>
    (match m, own_entries m with
     | _ :: _, [] => if array then [{| sc_path := path; sc_array := true; sc_entries := [] |}] else []
     | _, own => [{| sc_path := path; sc_array := array; sc_entries := own |}]
     end) ++ entry_sections sections path m
  | _ => []
  end.
Definition print_entry (e : str * toml_value) : str := print_key (fst e) ++ lit " = " ++ print_value (snd e) ++ [10].
Definition print_header (s : section_text) : str :=
  (if sc_array s then lit "[[" else lit "[") ++ join_str (lit ".") (map print_key (sc_path s)) ++
  (if sc_array s then lit "]]" else lit "]") ++ [10].
(** An empty line before every header but a header at the very top. *)
Fixpoint print_sections (top : bool) (l : list section_text) : str :=
  match l with
  | [] => []
  | s :: t => (if top then [] else [10]) ++ print_header s ++ flat_map print_entry (sc_entries s) ++ print_sections false t
  end.
Definition print_document (t : toml_value) : str :=
  match t with
  | TvTab m =>
    flat_map print_entry (own_entries m) ++
    print_sections (match own_entries m with [] => true | _ => false end) (entry_sections sections [] m)
  | _ => []
  end.

(** ** Reading *)

Definition is_ws (c : char) : bool := (c =? 32) || (c =? 9).
Definition skip_ws (s : str) : str := drop_while is_ws s.
(** Allowed in comments and strings: no control characters but tab. *)
Definition plain_char (c : char) : bool := (c =? 9) || ((32 <=? c) && negb (c =? 127)).
Definition skip_comment (s : str) : str :=
  match s with
  | 35 :: t => drop_while plain_char t
  | _ => s
  end.
(** The end of a line or of the file, after an optional comment. *)
Definition line_end (s : str) : option str :=
  match skip_comment s with
  | [] => Some []
  | 10 :: t => Some t
  | 13 :: 10 :: t => Some t
  | _ => None
  end.

Definition hex_val (c : char) : option Z :=
  if digit_char c then Some (c - 48)
  else if (65 <=? c) && (c <=? 70) then Some (c - 55)
  else if (97 <=? c) && (c <=? 102) then Some (c - 87) else None.
Definition hex_all (l : str) : option Z :=
  fold_left (fun a c => match a, hex_val c with Some x, Some y => Some (16 * x + y) | _, _ => None end) l (Some 0).
Definition code_point (l : str) : option char :=
  match hex_all l with Some z => if is_scalar z then Some z else None | None => None end.
Definition simple_escape (c : char) : option char :=
  if c =? 98 then Some 8 else if c =? 116 then Some 9 else if c =? 110 then Some 10 else if c =? 102 then Some 12
  else if c =? 114 then Some 13 else if c =? 34 then Some 34 else if c =? 92 then Some 92 else None.
Definition push (c : char) (r : option (str * str)) : option (str * str) :=
  match r with Some (a, b) => Some (c :: a, b) | None => None end.
Definition push_opt (c : option char) (r : option (str * str)) : option (str * str) :=
  match c with Some c => push c r | None => None end.

(** After the opening quote of a basic string: its content and what follows. *)
Fixpoint basic_string (s : str) : option (str * str) :=
  match s with
  | [] => None
  | c :: t =>
    if c =? 34 then Some ([], t)
    else if c =? 92 then
      match t with
      | 117 :: a :: b :: c :: d :: t' => push_opt (code_point [a; b; c; d]) (basic_string t')
      | 85 :: a :: b :: c :: d :: e :: f :: g :: h :: t' => push_opt (code_point [a; b; c; d; e; f; g; h]) (basic_string t')
      | x :: t' => push_opt (simple_escape x) (basic_string t')
      | [] => None
      end
    else if plain_char c then push c (basic_string t) else None
  end.
Fixpoint literal_string (s : str) : option (str * str) :=
  match s with
  | [] => None
  | c :: t => if c =? 39 then Some ([], t) else if plain_char c then push c (literal_string t) else None
  end.
(** Closing three quotes, of which up to two more may belong to the text. *)
Definition closing (q : char) (t : str) : option (str * str) :=
  match t with
  | a :: b :: t2 =>
    if (a =? q) && (b =? q) then
      Some (match t2 with
            | c :: t3 => if c =? q then match t3 with d :: t4 => if d =? q then ([q; q], t4) else ([q], t3) | [] => ([q], t3) end
                         else ([], t2)
            | [] => ([], t2)
            end)
    else None
  | _ => None
  end.
(** A backslash before a line end joins the lines: [JNeed] before the line end,
    [JSkip] after it. *)
Inductive joining := JNo | JNeed | JSkip.
Fixpoint ml_basic (j : joining) (s : str) : option (str * str) :=
  match s with
  | [] => None
  | c :: t =>
    let crlf := (c =? 13) && (match t with x :: _ => x =? 10 | [] => false end) in
    match j with
    | JNeed => if is_ws c then ml_basic JNeed t else if c =? 10 then ml_basic JSkip t else if crlf then ml_basic JNeed t else None
    | _ =>
      if match j with JSkip => is_ws c || (c =? 10) || crlf | _ => false end then ml_basic JSkip t
      else if c =? 34 then match closing 34 t with Some r => Some r | None => push 34 (ml_basic JNo t) end
      else if c =? 92 then
        match t with
        | 117 :: a :: b :: c :: d :: t' => push_opt (code_point [a; b; c; d]) (ml_basic JNo t')
        | 85 :: a :: b :: c :: d :: e :: f :: g :: h :: t' => push_opt (code_point [a; b; c; d; e; f; g; h]) (ml_basic JNo t')
        | x :: t' =>
          match simple_escape x with
          | Some y => push y (ml_basic JNo t')
          | None => if is_ws x || (x =? 10) || (x =? 13) then ml_basic JNeed t else None
          end
        | [] => None
        end
      else if c =? 10 then push 10 (ml_basic JNo t)
      else if crlf then ml_basic JNo t
      else if plain_char c then push c (ml_basic JNo t) else None
    end
  end.
Fixpoint ml_literal (s : str) : option (str * str) :=
  match s with
  | [] => None
  | c :: t =>
    if c =? 39 then match closing 39 t with Some r => Some r | None => push 39 (ml_literal t) end
    else if c =? 10 then push 10 (ml_literal t)
    else if (c =? 13) && (match t with x :: _ => x =? 10 | [] => false end) then ml_literal t
    else if plain_char c then push c (ml_literal t) else None
  end.
(** A line end right after the opening quotes is not part of the text. *)
Definition trim_newline (s : str) : str :=
  match s with
  | 10 :: t => t
  | 13 :: 10 :: t => t
  | _ => s
  end.
Definition string_value (s : str) : option (str * str) :=
  match s with
  | 34 :: 34 :: 34 :: t => ml_basic JNo (trim_newline t)
  | 34 :: t => basic_string t
  | 39 :: 39 :: 39 :: t => ml_literal (trim_newline t)
  | 39 :: t => literal_string t
  | _ => None
  end.

(** Keys. *)
Fixpoint span (f : char -> bool) (s : str) : str * str :=
  match s with
  | c :: t => if f c then let '(a, b) := span f t in (c :: a, b) else ([], s)
  | [] => ([], [])
  end.
Definition simple_key (s : str) : option (str * str) :=
  match s with
  | 34 :: t => basic_string t
  | 39 :: t => literal_string t
  | _ => match span bare_char s with ([], _) => None | r => Some r end
  end.
(** Dotted keys; white space around the dots and at the end is dropped. *)
Fixpoint key_path (fuel : nat) (s : str) : option (list str * str) :=
  match fuel with
  | O => None
  | S f =>
    match simple_key (skip_ws s) with
    | None => None
    | Some (k, t) =>
      match skip_ws t with
      | 46 :: t' => match key_path f t' with Some (p, r) => Some (k :: p, r) | None => None end
      | t' => Some ([k], t')
      end
    end
  end.

(** Numbers. *)
Definition token_char (c : char) : bool := bare_char c || (c =? 43) || (c =? 46) || (c =? 58).
(** Digits with single underscores between them; the digits alone. *)
Fixpoint underscored (digit : char -> bool) (s : str) : option str :=
  match s with
  | [] => None
  | c :: t =>
    if digit c then
      match t with
      | [] => Some [c]
      | x :: t' => match underscored digit (if x =? 95 then t' else t) with Some r => Some (c :: r) | None => None end
      end
    else None
  end.
Definition number_in (base : Z) (l : str) : Z :=
  fold_left (fun a c => base * a + match hex_val c with Some x => x | None => 0 end) l 0.
Definition int_in_range (z : Z) : option toml_value := if in_range I64 z then Some (TvInt z) else None.
Definition based_int (base : Z) (digit : char -> bool) (s : str) : option toml_value :=
  match underscored digit s with Some ds => int_in_range (number_in base ds) | None => None end.
Definition is_hex (c : char) : bool := match hex_val c with Some _ => true | None => false end.
Definition sign_of (s : str) : bool * str :=
  match s with
  | 45 :: t => (true, t)
  | 43 :: t => (false, t)
  | _ => (false, s)
  end.
(** No leading zeros. *)
Definition dec_digits_ok (ds : str) : bool := match ds with 48 :: _ :: _ => false | _ => true end.
Definition dec_part (s : str) : option str :=
  match underscored digit_char s with Some ds => if dec_digits_ok ds then Some ds else None | None => None end.
Definition not_one_of (l : list Z) (c : char) : bool := negb (existsb (Z.eqb c) l).
(** frac = . digits;  exp = e [+-] digits; both without underscores, or nothing. *)
Definition frac_part (s : str) : option str :=
  match s with
  | [] => Some []
  | c :: t => if c =? 46 then match underscored digit_char t with Some ds => Some (46 :: ds) | None => None end else None
  end.
Definition exp_part (s : str) : option str :=
  match s with
  | [] => Some []
  | c :: t =>
    let '(neg, u) := sign_of t in
    match underscored digit_char u with Some ds => Some (101 :: (if neg : bool then [45] else []) ++ ds) | None => None end
  end.
Definition float_value (s : str) : option toml_value :=
  let '(neg, u) := sign_of s in
  let '(ip, r) := span (not_one_of [46; 101; 69]) u in
  let '(fp, ep) := span (not_one_of [101; 69]) r in
  match dec_part ip, frac_part fp, exp_part ep with
  | Some a, Some b, Some c =>
    match parse_f64 ((if neg : bool then [45] else []) ++ a ++ b ++ c) with
    | Some (S754_infinity false) | None => None                  (* verify(|f| f != INFINITY) *)
    | Some f => Some (TvFloat f)
    end
  | _, _, _ => None
  end.

(** Dates and times, in the form the crate prints them. *)
Definition two (a b : char) : option Z :=
  if digit_char a && digit_char b then Some (10 * (a - 48) + (b - 48)) else None.
Definition days_in (y m : Z) : Z :=
  if m =? 2 then (if ((y mod 4 =? 0) && negb (y mod 100 =? 0)) || (y mod 400 =? 0) then 29 else 28)
  else if (m =? 4) || (m =? 6) || (m =? 9) || (m =? 11) then 30 else 31.
Definition read_date (s : str) : option (str * str) :=
  match s with
  | y1 :: y2 :: y3 :: y4 :: 45 :: m1 :: m2 :: 45 :: d1 :: d2 :: t =>
    match two y1 y2, two y3 y4, two m1 m2, two d1 d2 with
    | Some a, Some b, Some m, Some d =>
      if (1 <=? m) && (m <=? 12) && (1 <=? d) && (d <=? days_in (100 * a + b) m)
      then Some (firstn 10 s, t) else None
    | _, _, _, _ => None
    end
  | _ => None
  end.
Definition trim_zeros (s : str) : str := rev (drop_while (Z.eqb 48) (rev s)).
Definition read_fraction (s : str) : option (str * str) :=
  match s with
  | 46 :: t => match span digit_char t with
               | ([], _) => None
               | (ds, r) => Some (match trim_zeros (firstn 9 ds) with [] => [] | z => 46 :: z end, r)
               end
  | _ => Some ([], s)
  end.
Definition read_time (s : str) : option (str * str) :=
  match s with
  | h1 :: h2 :: 58 :: m1 :: m2 :: 58 :: s1 :: s2 :: t =>
    match two h1 h2, two m1 m2, two s1 s2 with
    | Some h, Some m, Some sec =>
      if (h <=? 23) && (m <=? 59) && (sec <=? 60) then
        match read_fraction t with Some (f, r) => Some (firstn 8 s ++ f, r) | None => None end
      else None
    | _, _, _ => None
    end
  | _ => None
  end.
Definition read_offset (s : str) : option str :=
  match s with
  | [] => Some []
  | [c] => if (c =? 90) || (c =? 122) then Some [90] else None
  | [sg; h1; h2; 58; m1; m2] =>
    match two h1 h2, two m1 m2 with
    | Some h, Some m =>
      if ((sg =? 43) || (sg =? 45)) && (h <=? 23) && (m <=? 59)
      then Some (if (h =? 0) && (m =? 0) then lit "+00:00" else s) else None
    | _, _ => None
    end
  | _ => None
  end.
(** The token of a value, with the space a date and a time may have between them. *)
Definition date_value (s : str) : option str :=
  match read_date s with
  | Some (d, []) => Some d
  | Some (d, c :: t) =>
    if (c =? 84) || (c =? 116) || (c =? 32) then
      match read_time t with
      | Some (tm, r) => match read_offset r with Some o => Some (d ++ [84] ++ tm ++ o) | None => None end
      | None => None
      end
    else None
  | None => match read_time s with Some (tm, []) => Some tm | _ => None end
  end.
Definition token_value (s : str) : option toml_value :=
  if str_eqb s (lit "true") then Some (TvBool true)
  else if str_eqb s (lit "false") then Some (TvBool false)
  else
    let '(neg, u) := sign_of s in
    if str_eqb u (lit "inf") then Some (TvFloat (S754_infinity neg))
    else if str_eqb u (lit "nan") then Some (TvFloat S754_nan)
    else match s with
    | 48 :: 120 :: t => based_int 16 is_hex t
    | 48 :: 111 :: t => based_int 8 (fun c => (48 <=? c) && (c <=? 55)) t
    | 48 :: 98 :: t => based_int 2 (fun c => (48 <=? c) && (c <=? 49)) t
    | _ =>
      match dec_part u with
      | Some ds => int_in_range (if neg then - number_in 10 ds else number_in 10 ds)
      | None =>
        match float_value s with
        | Some f => Some f
        | None => match date_value s with Some d => Some (TvDate d) | None => None end
        end
      end
    end.
(** Where the token ends; [d d d d - d d - d d] then a space then a digit goes on. *)
Definition token_end (s : str) : str * str :=
  let '(a, r) := span token_char s in
  match r with
  | 32 :: c :: _ =>
    if digit_char c && match read_date a with Some (_, []) => true | _ => false end
    then let '(b, r') := span token_char (tl r) in (a ++ 32 :: b, r') else (a, r)
  | _ => (a, r)
  end.

(** ** Tables under construction (toml_edit's [ParseState])

    [NTab implicit dotted]: a table not (yet) opened by a header of its own;
    one made by a dotted key.  [NVal]: a finished value. *)
Inductive node :=
| NVal (t : toml_value)
| NTab (implicit dotted : bool) (m : list (str * node))
| NArr (l : list (list (str * node))).
Fixpoint alter (k : str) (f : option node -> option node) (m : list (str * node)) : option (list (str * node)) :=
  match m with
  | [] => match f None with Some n => Some [(k, n)] | None => None end
  | (k', n) :: t =>
    if str_eqb k k' then match f (Some n) with Some n' => Some ((k, n') :: t) | None => None end
    else match alter k f t with Some t' => Some ((k', n) :: t') | None => None end
  end.
Fixpoint on_last {A} (f : A -> option A) (l : list A) : option (list A) :=
  match l with
  | [] => None
  | [x] => match f x with Some y => Some [y] | None => None end
  | x :: t => match on_last f t with Some t' => Some (x :: t') | None => None end
  end.
(** [descend_path]: [f] gets whether the table reached was made by a dotted key. *)
Fixpoint descend (dotted : bool) (path : list str) (isdot : bool) (f : bool -> list (str * node) -> option (list (str * node)))
  (m : list (str * node)) : option (list (str * node)) :=
  match path with
  | [] => f isdot m
  | k :: p =>
    alter k (fun o =>
      match o with
      | None => option_map (NTab true dotted) (descend dotted p dotted f [])
      | Some (NTab imp dot m') =>
        if dotted && negb imp then None else option_map (NTab imp dot) (descend dotted p dot f m')
      | Some (NArr l) => option_map NArr (on_last (descend dotted p false f) l)
      | Some (NVal _) => None
      end) m
  end.
(** [on_keyval]. *)
Definition put_entry (path : list str) (k : str) (t : toml_value) (m : list (str * node)) : option (list (str * node)) :=
  descend true path false
    (fun isdot m => if Bool.eqb isdot (match path with [] => true | _ => false end) then None
                    else alter k (fun o => match o with None => Some (NVal t) | Some _ => None end) m) m.
Fixpoint put_entries (l : list (list str * toml_value)) (m : list (str * node)) : option (list (str * node)) :=
  match l with
  | [] => Some m
  | (p, t) :: r =>
    match put_entry (removelast p) (List.last p []) t m with Some m' => put_entries r m' | None => None end
  end.
(** [start_table] / [start_array_table] ... [finalize_table]. *)
Definition put_section (array : bool) (path : list str) (l : list (list str * toml_value)) (root : list (str * node))
  : option (list (str * node)) :=
  descend false (removelast path) false (fun _ m =>
    alter (List.last path []) (fun o =>
      if array then
        match o with
        | None => option_map (fun t => NArr [t]) (put_entries l [])
        | Some (NArr ts) => option_map (fun t => NArr (ts ++ [t])) (put_entries l [])
        | Some _ => None
        end
      else
        match o with
        | None => option_map (NTab false false) (put_entries l [])
        | Some (NTab true false m0) => option_map (NTab false false) (put_entries l m0)
        | Some _ => None
        end) m) root.
Fixpoint of_node (n : node) : toml_value :=
  match n with
  | NVal t => t
  | NTab _ _ m => TvTab (map (fun e => (fst e, of_node (snd e))) m)
  | NArr l => TvArr (map (fun m => TvTab (map (fun e => (fst e, of_node (snd e))) m)) l)
  end.
Definition of_table (m : list (str * node)) : toml_value := of_node (NTab false false m).

(** ** Values *)

(** White space, line ends and comments inside arrays. *)
Fixpoint skip_lines (fuel : nat) (s : str) : str :=
  match fuel with
  | O => s
  | S f =>
    match skip_comment (skip_ws s) with
    | 10 :: t => skip_lines f t
    | 13 :: 10 :: t => skip_lines f t
    | r => r
    end
  end.
(** [deep]: arrays and inline tables may be nested less than [lim] deep
    (toml_edit's [RecursionCheck], 80 or 128 depending on the version). *)
Fixpoint value_at (lim : nat) (fuel deep : nat) (s : str) {struct fuel} : option (toml_value * str) :=
  match fuel with
  | O => None
  | S f =>
    match s with
    | [] => None
    | c :: t =>
      if (c =? 34) || (c =? 39) then match string_value s with Some (x, r) => Some (TvStr x, r) | None => None end
      else if c =? 91 then
        if Nat.leb lim (S deep) then None
        else match items_at lim f (S deep) t with Some (l, r) => Some (TvArr l, r) | None => None end
      else if c =? 123 then
        if Nat.leb lim (S deep) then None
        else match skip_ws t with
             | 125 :: r => Some (TvTab [], r)
             | t' => match pairs_at lim f (S deep) t' with
                     | Some (l, r) => match put_entries l [] with Some m => Some (of_table m, r) | None => None end
                     | None => None
                     end
             end
      else let '(a, r) := token_end s in match token_value a with Some x => Some (x, r) | None => None end
    end
  end
with items_at (lim : nat) (fuel deep : nat) (s : str) {struct fuel} : option (list toml_value * str) :=
  match fuel with
  | O => None
  | S f =>
    match skip_lines (List.length s) s with
    | 93 :: r => Some ([], r)
    | t =>
      match value_at lim f deep t with
      | None => None
      | Some (x, u) =>
        match skip_lines (List.length u) u with
        | 44 :: r => match items_at lim f deep r with Some (l, r') => Some (x :: l, r') | None => None end
        | 93 :: r => Some ([x], r)
        | _ => None
        end
      end
    end
  end
with pairs_at (lim : nat) (fuel deep : nat) (s : str) {struct fuel} : option (list (list str * toml_value) * str) :=
  match fuel with
  | O => None
  | S f =>
    match key_path (S (List.length s)) s with
    | Some (p, 61 :: t) =>
      if Nat.leb lim (List.length p) then None else
      match value_at lim f deep (skip_ws t) with
      | None => None
      | Some (x, u) =>
        match skip_ws u with
        | 44 :: r => match pairs_at lim f deep r with Some (l, r') => Some ((p, x) :: l, r') | None => None end
        | 125 :: r => Some ([(p, x)], r)
        | _ => None
        end
      end
    | _ => None
    end
  end.

(** ** Documents *)
Inductive statement := SHead (array : bool) (path : list str) | SEntry (path : list str) (t : toml_value).
Definition statement_at (lim : nat) (s : str) : option (statement * str) :=
  match s with
  | 91 :: 91 :: t =>
    match key_path (S (List.length t)) t with
    | Some (p, 93 :: 93 :: r) => if Nat.leb lim (List.length p) then None else Some (SHead true p, r)
    | _ => None
    end
  | 91 :: t =>
    match key_path (S (List.length t)) t with
    | Some (p, 93 :: r) => if Nat.leb lim (List.length p) then None else Some (SHead false p, r)
    | _ => None
    end
  | _ =>
    match key_path (S (List.length s)) s with
    | Some (p, 61 :: t) =>
      if Nat.leb lim (List.length p) then None else
      match value_at lim (2 * List.length t + 2) 0 (skip_ws t) with
      | Some (x, r) => Some (SEntry p x, r)
      | None => None
      end
    | _ => None
    end
  end.
Fixpoint statements (lim : nat) (fuel : nat) (s : str) : option (list statement) :=
  match fuel with
  | O => None
  | S f =>
    match skip_ws s with
    | [] => Some []
    | c :: t =>
      if (c =? 10) || (c =? 13) || (c =? 35) then
        match line_end (c :: t) with Some r => statements lim f r | None => None end
      else
        match statement_at lim (c :: t) with
        | None => None
        | Some (st, r) =>
          match line_end (skip_ws r) with
          | None => None
          | Some r' => match statements lim f r' with Some l => Some (st :: l) | None => None end
          end
        end
    end
  end.
(** The entries up to the next header. *)
Fixpoint entries_before (l : list statement) : list (list str * toml_value) * list statement :=
  match l with
  | SEntry p t :: r => let '(a, b) := entries_before r in ((p, t) :: a, b)
  | _ => ([], l)
  end.
Fixpoint run_sections (fuel : nat) (l : list statement) (root : list (str * node)) : option (list (str * node)) :=
  match fuel with
  | O => None
  | S f =>
    match l with
    | [] => Some root
    | SHead array p :: r =>
      let '(es, r') := entries_before r in
      match put_section array p es root with Some root' => run_sections f r' root' | None => None end
    | SEntry _ _ :: _ => None
    end
  end.
Definition run_document (l : list statement) : option toml_value :=
  let '(es, r) := entries_before l in
  match put_entries es [] with
  | None => None
  | Some root => option_map of_table (run_sections (S (List.length r)) r root)
  end.
(** A byte order mark at the beginning is skipped. *)
Definition parse_document (lim : nat) (s : str) : option toml_value :=
  let s := match s with 65279 :: t => t | _ => s end in
  match statements lim (S (List.length s)) s with Some l => run_document l | None => None end.

(** The syntax of the crate; [lim] is its limit on nesting.  A [&str] is text. *)
Definition toml_text (lim : nat) : toml_syntax := {|
  ts_print := print_document;
  ts_parse := fun s => match (if is_text s then parse_document lim s else None) with
                       | Some t => Ok t
                       | None => Err (lit "TOML parse error")
                       end
|}.
