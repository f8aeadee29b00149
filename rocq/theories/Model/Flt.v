(** Floats: [f64]/[f32] as IEEE-754 binary64/binary32 with a single NaN
    (Coq's [SpecFloat]), the [as] casts, comparison with zero, decimal
    parsing and printing.  All of this models the Rust language / standard
    library; the NaN payload and sign, which no BakuninConfig function looks
    at, are not represented. *)
From Coq Require Import ZArith List Bool String.
From Coq Require Import Floats.SpecFloat.
Import ListNotations.
From Verif.Model Require Import Text Num.
Open Scope Z_scope.

Definition f64 := spec_float.
Definition f32 := spec_float.

Definition f64_valid (f : f64) : bool := valid_binary 53 1024 f.
Definition f32_valid (f : f32) : bool := valid_binary 24 128 f.

(** [a == b] on f64 (derived PartialEq of Value, src/model/value.rs:6). *)
Definition f64_eqb (a b : f64) : bool := SFeqb a b.

(** [value != 0.0] (src/model/into.rs:15). *)
Definition f64_nonzero (f : f64) : bool := negb (f64_eqb f (S754_zero false)).

(** [n as f64] for an integer (src/model/into.rs:282-286): round to nearest even. *)
Definition f64_of_Z (z : Z) : f64 := binary_normalize 53 1024 z 0 false.

(** Truncation of a finite float toward zero. *)
Definition f64_trunc (f : f64) : Z :=
  match f with
  | S754_finite s m e =>
    let a := match e with
             | Zneg p => Z.pos m / 2 ^ Z.pos p
             | _ => Z.pos m * 2 ^ e
             end in
    if s then - a else a
  | _ => 0
  end.

Definition clamp (lo hi z : Z) : Z := Z.max lo (Z.min hi z).

(** [f as T] for an integer type: NaN becomes 0, everything else saturates
    (src/model/into.rs:45, 121, 143, 238, 261 ...). *)
Definition f64_as (t : ity) (f : f64) : Z :=
  match f with
  | S754_nan => 0
  | S754_infinity true => imin t
  | S754_infinity false => imax t
  | _ => clamp (imin t) (imax t) (f64_trunc f)
  end.

(** [x as f64] for x : f32 (src/model/from.rs:85) and [v as f32] for v : f64
    (src/model/de.rs:98). *)
Definition f32_to_f64 (f : f32) : f64 :=
  match f with
  | S754_finite s m e => binary_round 53 1024 s m e
  | _ => f
  end.
Definition f64_to_f32 (f : f64) : f32 :=
  match f with
  | S754_finite s m e => binary_round 24 128 s m e
  | _ => f
  end.

(** ** Decimal text *)

(** The f64 nearest to (-1)^s * d * 10^e: what [str::parse::<f64>] computes. *)
Definition dec_to_f64 (s : bool) (d e : Z) : f64 :=
  match d with
  | Z.pos p =>
    match e with
    | Zneg q =>
      let '(m', e', l) := SFdiv_core_binary 53 1024 (Z.pos p) 0 (10 ^ Z.pos q) 0 in
      binary_round_aux 53 1024 s m' e' l
    | _ => binary_round 53 1024 s (Z.to_pos (Z.pos p * 10 ^ e)) 0
    end
  | _ => S754_zero s
  end.

(** Longest prefix of ASCII digits, and the rest. *)
Fixpoint span_digits (s : str) : str * str :=
  match s with
  | c :: t => match digit_val c with
              | Some _ => let '(a, b) := span_digits t in (c :: a, b)
              | None => ([], s)
              end
  | [] => ([], [])
  end.

Definition digits_val (s : str) : Z :=
  match parse_digits 0 s with Some z => z | None => 0 end.

(** Exponent part: [e|E] Sign? Digit+ up to the end of the text. *)
Definition parse_exp (s : str) : option Z :=
  match s with
  | [] => Some 0
  | c :: t =>
    if (c =? 101) || (c =? 69) then
      let '(neg, u) := match t with
                       | x :: u => if x =? 45 then (true, u)
                                   else if x =? 43 then (false, u) else (false, t)
                       | [] => (false, t)
                       end in
      match u with
      | [] => None
      | _ => match parse_digits 0 u with
             | Some z => Some (if neg : bool then - z else z)
             | None => None
             end
      end
    else None
  end.

(** ASCII-only lower casing, for [eq_ignore_ascii_case]. *)
Definition ascii_lower (c : char) : char :=
  if (65 <=? c) && (c <=? 90) then c + 32 else c.
Definition eq_ignore_ascii_case (a b : str) : bool :=
  str_eqb (map ascii_lower a) (map ascii_lower b).

(** Unsigned part of the grammar documented for [f64::from_str]. *)
Definition parse_f64_unsigned (sg : bool) (s : str) : option f64 :=
  if eq_ignore_ascii_case s (lit "nan") then Some S754_nan
  else if eq_ignore_ascii_case s (lit "inf") || eq_ignore_ascii_case s (lit "infinity")
  then Some (S754_infinity sg)
  else
    let '(ip, r) := span_digits s in
    let '(fp, r') := match r with
                     | c :: t => if c =? 46 then span_digits t else ([], r)
                     | [] => ([], r)
                     end in
    match ip ++ fp with
    | [] => None
    | ds => match parse_exp r' with
            | Some ex => Some (dec_to_f64 sg (digits_val ds) (ex - Z.of_nat (List.length fp)))
            | None => None
            end
    end.

(** [value.parse::<f64>()] (src/model/into.rs:287). *)
Definition parse_f64 (s : str) : option f64 :=
  match s with
  | [] => None
  | c :: t => if c =? 45 then parse_f64_unsigned true t
              else if c =? 43 then parse_f64_unsigned false t
              else parse_f64_unsigned false s
  end.

(** ** Printing: [f64::to_string] / [{}] (src/model/into.rs:340,
    src/model/value.rs:29).  The standard library prints the shortest digit
    string that parses back to the same float, closest to its value, without
    exponent notation.  The model searches 1..17 digits for such a string;
    C77 proves that 17 digits always suffice, so the fallback to the exact
    decimal expansion is never taken. *)

(** Exact decimal of the finite float m*2^e: digits and decimal exponent. *)
Definition exact_dec (m : positive) (e : Z) : Z * Z :=
  match e with
  | Zneg p => (Z.pos m * 5 ^ Z.pos p, e)
  | _ => (Z.pos m * 2 ^ e, 0)
  end.

(** Candidates with the digits of [d] cut so that the last digit has weight
    10^k: round down and round up, nearer first (a tie rounds up, as the
    standard library's shortest mode does). *)
Definition cut_candidates (d e k : Z) : list (Z * Z) :=
  if k <=? e then [(d * 10 ^ (e - k), k)]
  else
    let w := 10 ^ (k - e) in
    let q := d / w in
    if 2 * (d mod w) <? w then [(q, k); (q + 1, k)] else [(q + 1, k); (q, k)].

Definition f64_same (a b : f64) : bool :=
  match a, b with
  | S754_zero s, S754_zero s' => Bool.eqb s s'
  | S754_infinity s, S754_infinity s' => Bool.eqb s s'
  | S754_nan, S754_nan => true
  | S754_finite s m e, S754_finite s' m' e' =>
    Bool.eqb s s' && Pos.eqb m m' && Z.eqb e e'
  | _, _ => false
  end.

Definition num_digits (d : Z) : Z := Z.of_nat (List.length (print_nat d)).

(** First candidate, for 1, 2, ... [n] digits, that reads back as [f]. *)
Fixpoint search_digits (f : f64) (sg : bool) (d e : Z) (n : nat) (nd : Z) : option (Z * Z) :=
  match n with
  | O => None
  | S n' =>
    match find (fun c => (0 <? fst c) && f64_same (dec_to_f64 sg (fst c) (snd c)) f)
               (cut_candidates d e (e + num_digits d - nd)) with
    | Some c => Some c
    | None => search_digits f sg d e n' (nd + 1)
    end
  end.

(** Drop trailing zero digits (rounding up may have produced 10...0). *)
Fixpoint strip_zeros (fuel : nat) (d e : Z) : Z * Z :=
  match fuel with
  | O => (d, e)
  | S f => if d mod 10 =? 0 then strip_zeros f (d / 10) (e + 1) else (d, e)
  end.

Definition shortest_dec (f : f64) (sg : bool) (m : positive) (e : Z) : Z * Z :=
  let '(d, ex) := exact_dec m e in
  let '(d', ex') := match search_digits f sg d ex 17 1 with
                    | Some c => c
                    | None => (d, ex)
                    end in
  strip_zeros (List.length (print_nat d')) d' ex'.

Definition zeros (n : Z) : str := repeat 48 (Z.to_nat n).

(** Positional rendering of d * 10^e (d > 0). *)
Definition render_dec (d e : Z) : str :=
  let ds := print_nat d in
  if 0 <=? e then ds ++ zeros e
  else
    let n := Z.of_nat (List.length ds) in
    if - e <? n then firstn (Z.to_nat (n + e)) ds ++ 46 :: skipn (Z.to_nat (n + e)) ds
    else 48 :: 46 :: zeros (- e - n) ++ ds.

Definition print_f64 (f : f64) : str :=
  match f with
  | S754_nan => lit "NaN"
  | S754_infinity s => if s then lit "-inf" else lit "inf"
  | S754_zero s => if s then lit "-0" else lit "0"
  | S754_finite s m e =>
    let '(d, ex) := shortest_dec f s m e in
    (if s then [45] else []) ++ render_dec d ex
  end.
