(** Vocabulary for C70-C73: what a format presents, how that looks as a Value,
    formats that give back what they were given. *)
From Coq Require Import ZArith List Bool String Permutation Floats.SpecFloat.
Import ListNotations.
From Verif.Model Require Import Text Num Flt Value Convert Serde Visitor.
From Verif.Spec Require Import Spec Numerals EnvSpec SerdeSpec FloatSpec ShapeSpec.
Open Scope Z_scope.

(** A key is text: a string, a character, or the UTF-8 bytes of a string. *)
Inductive key_event : event -> str -> Prop :=
| KeStr s : key_event (EvStr s) s
| KeChar c : key_event (EvChar c) [c]
| KeBytes l s : utf8 l s -> key_event (EvBytes l) s.

(** [reads_as e v]: the Value v says what the format presented. *)
Inductive reads_as : event -> value -> Prop :=
| RaBool b : reads_as (EvBool b) (VBool b)
| RaSigned t z : In t [I8; I16; I32; I64] -> reads_as (EvInt t z) (VInt z)
| RaI128 z : reads_as (EvInt I128 z) (VLong z)
| RaUnsigned t z : In t [U8; U16; U32; U64] -> reads_as (EvInt t z) (VUInt z)
| RaU128 z : reads_as (EvInt U128 z) (VULong z)
| RaF32 f g : (f32_valid f = true -> widens f g) -> reads_as (EvF32 f) (VFloat g)
| RaF64 f : reads_as (EvF64 f) (VFloat f)
| RaChar c : reads_as (EvChar c) (VStr [c])
| RaStr s : reads_as (EvStr s) (VStr s)
| RaUnit : reads_as EvUnit VNone
| RaNone : reads_as EvNone VNone
| RaSome e v : reads_as e v -> reads_as (EvSome e) v
| RaSeq l vs : Forall2 reads_as l vs -> reads_as (EvSeq l) (VArr vs)
| RaMap es h m : reads_entries es h -> bindings h m -> reads_as (EvMap es) (VMap m)
with reads_entries : list (event * event) -> list (str * value) -> Prop :=
| ReadsNil : reads_entries [] []
| ReadsCons k s e v es h : key_event k s -> reads_as e v -> reads_entries es h ->
    reads_entries ((k, e) :: es) ((s, v) :: h).

(** Something a Value has no place for: bytes, a newtype, an enum, a key that
    is not text, or an error of the format itself. *)
Inductive unreadable : event -> Prop :=
| UrBytes l : unreadable (EvBytes l)
| UrNewtype e : unreadable (EvNewtype e)
| UrEnum : unreadable EvEnum
| UrFail msg : unreadable (EvFail msg)
| UrSome e : unreadable e -> unreadable (EvSome e)
| UrSeq l e : In e l -> unreadable e -> unreadable (EvSeq l)
| UrKey m k e : In (k, e) m -> (forall s, ~ key_event k s) -> unreadable (EvMap m)
| UrVal m k e : In (k, e) m -> unreadable e -> unreadable (EvMap m).

Definition is_number (f : f64) : Prop := match f with S754_zero _ | S754_finite _ _ _ => True | _ => False end.
(** The text of a float in serde's messages: as the conversion to String, with
    ".0" for whole numbers. *)
Inductive float_says : f64 -> str -> Prop :=
| FsPoint f s : into_string (VFloat f) = Ok s -> In 46 s -> float_says f s
| FsWhole f s : into_string (VFloat f) = Ok s -> ~ In 46 s -> is_number f -> float_says f (s ++ lit ".0")
| FsOther f s : into_string (VFloat f) = Ok s -> ~ is_number f -> float_says f s.
(** What a message calls the thing presented. *)
Inductive called : event -> str -> Prop :=
| CaTrue : called (EvBool true) (lit "boolean `true`")
| CaFalse : called (EvBool false) (lit "boolean `false`")
| CaInt t z s : ~ wide t -> canonical s z -> called (EvInt t z) (lit "integer `" ++ s ++ lit "`")
| CaI128 z s : canonical s z -> called (EvInt I128 z) (lit "integer `" ++ s ++ lit "` as i128")
| CaU128 z s : canonical s z -> called (EvInt U128 z) (lit "integer `" ++ s ++ lit "` as u128")
| CaF32 f g s : visit (EvF32 f) = Ok (VFloat g) -> float_says g s -> called (EvF32 f) (lit "floating point `" ++ s ++ lit "`")
| CaF64 f s : float_says f s -> called (EvF64 f) (lit "floating point `" ++ s ++ lit "`")
| CaBytes l : called (EvBytes l) (lit "byte array")
| CaUnit : called EvUnit (lit "unit value")
| CaNone : called EvNone (lit "Option value")
| CaSome e : called (EvSome e) (lit "Option value")
| CaNewtype e : called (EvNewtype e) (lit "newtype struct")
| CaSeq l : called (EvSeq l) (lit "sequence")
| CaMap m : called (EvMap m) (lit "map")
| CaEnum : called EvEnum (lit "enum").
Inductive key_obstacle : event -> str -> Prop :=
| KoFail msg : key_obstacle (EvFail msg) msg
| KoBytes l : (forall s, ~ utf8 l s) -> key_obstacle (EvBytes l) (lit "invalid value: byte array, expected a string")
| KoOther e what : (forall l, e <> EvBytes l) -> called e what ->
    key_obstacle e (lit "invalid type: " ++ what ++ lit ", expected a string").
(** The first thing in the way, front to back, and what is said of it. *)
Inductive obstacle : event -> str -> Prop :=
| ObFail msg : obstacle (EvFail msg) msg
| ObHere e what : (exists l, e = EvBytes l) \/ (exists e', e = EvNewtype e') \/ e = EvEnum -> called e what ->
    obstacle e (lit "invalid type: " ++ what ++ lit ", expected a valid configuration value")
| ObSome e msg : obstacle e msg -> obstacle (EvSome e) msg
| ObSeq l1 e l2 msg : (forall x, In x l1 -> ~ unreadable x) -> obstacle e msg -> obstacle (EvSeq (l1 ++ e :: l2)) msg
| ObKey m1 k e m2 msg : ~ unreadable (EvMap m1) -> key_obstacle k msg -> obstacle (EvMap (m1 ++ (k, e) :: m2)) msg
| ObVal m1 k s e m2 msg : ~ unreadable (EvMap m1) -> key_event k s -> obstacle e msg -> obstacle (EvMap (m1 ++ (k, e) :: m2)) msg.

(** A format that keeps everything: it presents what it was given, a missing
    value as unit or none, map entries in any order. *)
Inductive faithful : data -> event -> Prop :=
| FaBool b : faithful (DBool b) (EvBool b)
| FaInt t z : faithful (DInt t z) (EvInt t z)
| FaF64 f : faithful (DF64 f) (EvF64 f)
| FaStr s : faithful (DStr s) (EvStr s)
| FaNone : faithful DNone EvNone
| FaUnit : faithful DNone EvUnit
| FaSome d e : faithful d e -> faithful d (EvSome e)
| FaSeq l es : Forall2 faithful l es -> faithful (DSeq l) (EvSeq es)
| FaMap m m' es : Permutation m m' -> faithful_entries m' es -> faithful (DMap m) (EvMap es)
with faithful_entries : list (data * data) -> list (event * event) -> Prop :=
| FeNil : faithful_entries [] []
| FeCons s k d e m es : key_event k s -> faithful d e -> faithful_entries m es ->
    faithful_entries ((DStr s, d) :: m) ((k, e) :: es).

(** A format that keeps numbers but not their integer type (such as TOML or
    JSON) and, if [drop], may leave out map entries without a value (as TOML
    does). *)
Inductive keeps_numbers (drop : bool) : data -> event -> Prop :=
| KnBool b : keeps_numbers drop (DBool b) (EvBool b)
| KnInt t t' z : fits t' z -> keeps_numbers drop (DInt t z) (EvInt t' z)
| KnF64 f : keeps_numbers drop (DF64 f) (EvF64 f)
| KnStr s : keeps_numbers drop (DStr s) (EvStr s)
| KnNone : keeps_numbers drop DNone EvNone
| KnUnit : keeps_numbers drop DNone EvUnit
| KnSome d e : keeps_numbers drop d e -> keeps_numbers drop d (EvSome e)
| KnSeq l es : Forall2 (keeps_numbers drop) l es -> keeps_numbers drop (DSeq l) (EvSeq es)
| KnMap m m' es : Permutation m m' -> keeps_entries drop m' es -> keeps_numbers drop (DMap m) (EvMap es)
with keeps_entries (drop : bool) : list (data * data) -> list (event * event) -> Prop :=
| KneNil : keeps_entries drop [] []
| KneCons s k d e m es : key_event k s -> keeps_numbers drop d e -> keeps_entries drop m es ->
    keeps_entries drop ((DStr s, d) :: m) ((k, e) :: es)
| KneDrop s m es : drop = true -> keeps_entries drop m es -> keeps_entries drop ((DStr s, DNone) :: m) es.

(** [same_numbers drop v v']: v' is v, except that integers may have changed
    their type, maps their order and, if [drop], maps may lack entries that
    hold none. *)
Inductive same_numbers (drop : bool) : value -> value -> Prop :=
| SnNone : same_numbers drop VNone VNone
| SnBool b : same_numbers drop (VBool b) (VBool b)
| SnInt v v' z src src' : int_value v z src -> int_value v' z src' -> same_numbers drop v v'
| SnFloat f : same_numbers drop (VFloat f) (VFloat f)
| SnStr s : same_numbers drop (VStr s) (VStr s)
| SnArr l r : Forall2 (same_numbers drop) l r -> same_numbers drop (VArr l) (VArr r)
| SnMap m n :
    (forall k x, In (k, x) m ->
       (exists y, In (k, y) n /\ same_numbers drop x y) \/ (drop = true /\ x = VNone /\ ~ In k (map fst n))) ->
    (forall k y, In (k, y) n -> exists x, In (k, x) m /\ same_numbers drop x y) ->
    same_numbers drop (VMap m) (VMap n).

(** ** Questions a program asks of a Value *)
(** A step of an access path: [.get(key)] or [.at(index)]. *)
Inductive access := Get (k : str) | At (i : nat).
Fixpoint follow (v : value) (p : list access) : value :=
  match p with
  | [] => v
  | Get k :: p' => follow (v_get v k) p'
  | At i :: p' => follow (v_at v i) p'
  end.

(** The same value, or an error on both sides. *)
Definition same_answer {A} (a b : result A model_error) : Prop := forall x, a = Ok x <-> b = Ok x.

(** Two Values that no typed question distinguishes. *)
Definition alike (v v' : value) : Prop :=
  (forall t, same_answer (into_int t v) (into_int t v'))
  /\ same_answer (into_bool v) (into_bool v') /\ same_answer (into_f64 v) (into_f64 v')
  /\ same_answer (into_char v) (into_char v') /\ same_answer (into_string v) (into_string v')
  /\ is_none v = is_none v' /\ is_array v = is_array v' /\ is_map v = is_map v'
  /\ (arrayv v -> v_len v = v_len v') /\ (scalarv v -> v_len v = v_len v').

(** Types whose data survive a format that keeps numbers; if the format may
    leave out entries without a value, a map's values are never represented by
    none, and a field whose values are is an [Option]. *)
Definition flat_type (t : ty) : Prop :=
  match t with
  | TBool | TInt _ | TF32 | TF64 | TChar | TString | TUnit | TUnitStruct => True
  | _ => False
  end.
Inductive format_safe (drop : bool) : ty -> Prop :=
| FsFlat t : flat_type t -> format_safe drop t
| FsOption t : format_safe drop t -> format_safe drop (TOption t)
| FsSeq t : format_safe drop t -> format_safe drop (TSeq t)
| FsTuple ts : (forall t, In t ts -> format_safe drop t) -> format_safe drop (TTuple ts)
| FsMap tk tv : format_safe drop tv -> (drop = true -> never_none tv) -> format_safe drop (TMap tk tv)
| FsStruct fs : (forall n t, In (n, t) fs ->
      format_safe drop t /\ (drop = true -> never_none t \/ exists u, t = TOption u)) ->
    format_safe drop (TStruct fs)
| FsNewtype t : format_safe drop t -> format_safe drop (TNewtype t)
| FsTupleStruct n ts : (forall t, In t ts -> format_safe drop t) -> format_safe drop (TTupleStruct n ts).

(** What the types of Rust guarantee of an event: numbers in the range of their
    type, text made of characters. *)
Inductive sound_event : event -> Prop :=
| SeBool b : sound_event (EvBool b)
| SeInt t z : fits t z -> sound_event (EvInt t z)
| SeF32 f : f32_valid f = true -> sound_event (EvF32 f)
| SeF64 f : f64_valid f = true -> sound_event (EvF64 f)
| SeChar c : is_text [c] = true -> sound_event (EvChar c)
| SeStr s : is_text s = true -> sound_event (EvStr s)
| SeBytes l : sound_event (EvBytes l)
| SeUnit : sound_event EvUnit
| SeNone : sound_event EvNone
| SeSome e : sound_event e -> sound_event (EvSome e)
| SeNewtype e : sound_event e -> sound_event (EvNewtype e)
| SeSeq l : (forall e, In e l -> sound_event e) -> sound_event (EvSeq l)
| SeMap m : (forall k e, In (k, e) m -> sound_event k /\ sound_event e) -> sound_event (EvMap m)
| SeEnum : sound_event EvEnum
| SeFail msg : sound_event (EvFail msg).
