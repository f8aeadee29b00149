(** TOML files (C98, C99): which Values can be written, what comes back. *)
From Coq Require Import ZArith List Bool String.
Import ListNotations.
From Verif.Model Require Import Text Num Flt Value Serde Visitor Layers Toml.
From Verif.Spec Require Import Spec Numerals EnvSpec SerdeSpec VisitorSpec.
Local Open Scope Z_scope.

(** A Value TOML has a place for: no 128-bit integer, no u64 above i64::MAX and
    no none inside an array, at any depth.  (A none in a map is left out.) *)
Inductive writable : value -> Prop :=
| WrBool b : writable (VBool b)
| WrInt z : writable (VInt z)
| WrUInt z : z <= 2 ^ 63 - 1 -> writable (VUInt z)
| WrFloat f : writable (VFloat f)
| WrStr s : writable (VStr s)
| WrArr l : (forall x, In x l -> writable x) -> writable (VArr l)
| WrMap m : (forall k x, In (k, x) m -> x = VNone \/ writable x) -> writable (VMap m).

(** A Value as TOML has it: no none, all integers 64-bit signed. *)
Inductive toml_plain : value -> Prop :=
| TpBool b : toml_plain (VBool b)
| TpInt z : toml_plain (VInt z)
| TpFloat f : toml_plain (VFloat f)
| TpStr s : toml_plain (VStr s)
| TpArr l : (forall x, In x l -> toml_plain x) -> toml_plain (VArr l)
| TpMap m : (forall k x, In (k, x) m -> toml_plain x) -> toml_plain (VMap m).

(** [loads_as t v]: the Value v has the content of the document t, a date as a
    map with the crate's special key. *)
Inductive loads_as : toml_value -> value -> Prop :=
| LaBool b : loads_as (TvBool b) (VBool b)
| LaInt z : loads_as (TvInt z) (VInt z)
| LaFloat f : loads_as (TvFloat f) (VFloat f)
| LaStr s : loads_as (TvStr s) (VStr s)
| LaDate s n : (forall k y, In (k, y) n <-> k = lit "$__toml_private_datetime" /\ y = VStr s) -> loads_as (TvDate s) (VMap n)
| LaArr l r : Forall2 loads_as l r -> loads_as (TvArr l) (VArr r)
| LaTab m n :
    (forall k x, In (k, x) m -> exists y, In (k, y) n /\ loads_as x y) ->
    (forall k y, In (k, y) n -> exists x, In (k, x) m /\ loads_as x y) ->
    loads_as (TvTab m) (VMap n).

(** Documents with the same content: tables may list their entries in another order. *)
Inductive same_toml : toml_value -> toml_value -> Prop :=
| StBool b : same_toml (TvBool b) (TvBool b)
| StInt z : same_toml (TvInt z) (TvInt z)
| StFloat f : same_toml (TvFloat f) (TvFloat f)
| StStr s : same_toml (TvStr s) (TvStr s)
| StDate s : same_toml (TvDate s) (TvDate s)
| StArr l r : Forall2 same_toml l r -> same_toml (TvArr l) (TvArr r)
| StTab m n :
    (forall k x, In (k, x) m -> exists y, In (k, y) n /\ same_toml x y) ->
    (forall k y, In (k, y) n -> exists x, In (k, x) m /\ same_toml x y) ->
    same_toml (TvTab m) (TvTab n).

(** What the TOML syntax guarantees of a parsed value: 64-bit integers, floats,
    text made of characters, tables without duplicate keys. *)
Inductive proper_toml : toml_value -> Prop :=
| PtBool b : proper_toml (TvBool b)
| PtInt z : fits I64 z -> proper_toml (TvInt z)
| PtFloat f : f64_valid f = true -> proper_toml (TvFloat f)
| PtStr s : is_text s = true -> proper_toml (TvStr s)
| PtDate s : is_text s = true -> proper_toml (TvDate s)
| PtArr l : (forall x, In x l -> proper_toml x) -> proper_toml (TvArr l)
| PtTab m : NoDup (map fst m) -> (forall k x, In (k, x) m -> is_text k = true /\ proper_toml x) -> proper_toml (TvTab m).

(** A syntax that is right about the document t: what it prints for t is text and
    parses as the same document. *)
Definition reads_back (ts : toml_syntax) (t : toml_value) : Prop :=
  is_text (ts_print ts t) = true /\
  exists t', ts_parse ts (ts_print ts t) = Ok t' /\ same_toml t t' /\ proper_toml t'.
(** Everything it parses is a proper table. *)
Definition parses_tables (ts : toml_syntax) : Prop :=
  forall s t, ts_parse ts s = Ok t -> proper_toml t /\ exists m, t = TvTab m.
(** [plain_doc n t]: a document as this crate writes it: no dates, and at most n
    arrays and tables inside one another. *)
Inductive plain_doc : nat -> toml_value -> Prop :=
| PdBool n b : plain_doc n (TvBool b)
| PdInt n z : plain_doc n (TvInt z)
| PdFloat n f : plain_doc n (TvFloat f)
| PdStr n s : plain_doc n (TvStr s)
| PdArr n l : (forall x, In x l -> plain_doc n x) -> plain_doc (S n) (TvArr l)
| PdTab n m : (forall k x, In (k, x) m -> plain_doc n x) -> plain_doc (S n) (TvTab m).
(** [shallow n v]: at most n arrays and maps of v inside one another. *)
Inductive shallow : nat -> value -> Prop :=
| ShFlat n v : (forall l, v <> VArr l) -> (forall m, v <> VMap m) -> shallow n v
| ShArr n l : (forall x, In x l -> shallow n x) -> shallow (S n) (VArr l)
| ShMap n m : (forall k x, In (k, x) m -> shallow n x) -> shallow (S n) (VMap m).
(** Right about all documents without dates that are nested at most [lim] deep. *)
Definition right_syntax (lim : nat) (ts : toml_syntax) : Prop :=
  parses_tables ts /\ forall m, proper_toml (TvTab m) -> plain_doc lim (TvTab m) -> reads_back ts (TvTab m).

(** ** C122: what is left out, and why a Value is refused *)

(** Why TOML has no place for something, and what the crate says. *)
Inductive toml_why := WhyNone | WhyRange | WhyI128 | WhyU128.
Definition toml_says (w : toml_why) : str :=
  match w with
  | WhyNone => lit "unsupported None value"
  | WhyRange => lit "out-of-range value for u64 type"
  | WhyI128 => lit "i128 is not supported"
  | WhyU128 => lit "u128 is not supported"
  end.
(** [becomes lenient v t]: v is written as t; [stuck lenient v w]: the first
    thing, front to back, that cannot be written is of kind w; [entries]: those
    entries of a map that are written.  An entry is left out if it is none, and,
    under the lenient rule, if a none is the first thing its value stops at. *)
Inductive becomes (lenient : bool) : value -> toml_value -> Prop :=
| BeBool b : becomes lenient (VBool b) (TvBool b)
| BeInt z : fits I64 z -> becomes lenient (VInt z) (TvInt z)
| BeUInt z : z <= 2 ^ 63 - 1 -> becomes lenient (VUInt z) (TvInt z)
| BeFloat f : becomes lenient (VFloat f) (TvFloat f)
| BeStr s : becomes lenient (VStr s) (TvStr s)
| BeArr l r : items lenient l r -> becomes lenient (VArr l) (TvArr r)
| BeMap m n : entries lenient m n -> becomes lenient (VMap m) (TvTab n)
with items (lenient : bool) : list value -> list toml_value -> Prop :=
| ItNil : items lenient [] []
| ItCons x l y r : becomes lenient x y -> items lenient l r -> items lenient (x :: l) (y :: r)
with entries (lenient : bool) : vmap -> list (str * toml_value) -> Prop :=
| EnNil : entries lenient [] []
| EnKeep k x m y n : becomes lenient x y -> entries lenient m n -> entries lenient ((k, x) :: m) ((k, y) :: n)
| EnNone k m n : entries lenient m n -> entries lenient ((k, VNone) :: m) n
| EnLost k x m n : lenient = true -> stuck lenient x WhyNone -> entries lenient m n -> entries lenient ((k, x) :: m) n
with stuck (lenient : bool) : value -> toml_why -> Prop :=
| SkNone : stuck lenient VNone WhyNone
| SkLong z : stuck lenient (VLong z) WhyI128
| SkULong z : stuck lenient (VULong z) WhyU128
| SkUInt z : 2 ^ 63 <= z -> stuck lenient (VUInt z) WhyRange
| SkArr l1 r1 x l2 w : items lenient l1 r1 -> stuck lenient x w -> stuck lenient (VArr (l1 ++ x :: l2)) w
| SkMap m1 n1 k x m2 w : entries lenient m1 n1 -> stuck lenient x w -> w <> WhyNone \/ (lenient = false /\ x <> VNone) ->
    stuck lenient (VMap (m1 ++ (k, x) :: m2)) w.
