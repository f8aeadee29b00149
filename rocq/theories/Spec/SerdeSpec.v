(** Vocabulary for the serde properties (C55-C67): which data a type has, when
    two data are the same, which types are covered.  Nothing here refers to the
    serialiser or deserialiser. *)
From Coq Require Import ZArith List Bool String.
Import ListNotations.
From Verif.Model Require Import Text Num Flt Value Serde.
From Verif.Spec Require Import Spec Numerals.
Open Scope Z_scope.

(** A 128-bit integer occurs somewhere in the Value. *)
Inductive has_wide : value -> Prop :=
| HwLong z : has_wide (VLong z)
| HwULong z : has_wide (VULong z)
| HwArr l x : In x l -> has_wide x -> has_wide (VArr l)
| HwMap m k x : In (k, x) m -> has_wide x -> has_wide (VMap m).

Definition wide (t : ity) : Prop := match t with I128 | U128 => True | _ => False end.
(** The same, telling which of the two types. *)
Inductive has_wide_of : ity -> value -> Prop :=
| HoLong z : has_wide_of I128 (VLong z)
| HoULong z : has_wide_of U128 (VULong z)
| HoArr t l x : In x l -> has_wide_of t x -> has_wide_of t (VArr l)
| HoMap t m k x : In (k, x) m -> has_wide_of t x -> has_wide_of t (VMap m).

(** Types whose data can be map keys and come back from text. *)
Inductive key_type : ty -> Prop :=
| KtBool : key_type TBool
| KtInt t : ~ wide t -> key_type (TInt t)
| KtChar : key_type TChar
| KtString : key_type TString
| KtNewtype t : key_type t -> key_type (TNewtype t).

(** Key types that are text themselves: different texts are different keys. *)
Inductive text_key : ty -> Prop :=
| TkString : text_key TString
| TkNewtype t : text_key t -> text_key (TNewtype t).

(** [enum_datum d]: d is a value of some enum. *)
Inductive enum_datum : data -> Prop :=
| EdUnit n : enum_datum (DUnitVariant n)
| EdNewtype n d : enum_datum (DNewtypeVariant n d)
| EdTuple n l : enum_datum (DTupleVariant n l)
| EdStruct n fs : enum_datum (DStructVariant n fs).

(** [has_type t d]: d is a value of the Rust type t.  (Maps have distinct keys
    of a type that can be a key; a [Value] has distinct keys.) *)
Inductive has_type : ty -> data -> Prop :=
| HtBool b : has_type TBool (DBool b)
| HtInt t z : fits t z -> has_type (TInt t) (DInt t z)
| HtF32 f : f32_valid f = true -> has_type TF32 (DF32 f)
| HtF64 f : f64_valid f = true -> has_type TF64 (DF64 f)
| HtChar c : has_type TChar (DChar c)
| HtString s : has_type TString (DStr s)
| HtBytes l : has_type TBytes (DBytes l)
| HtUnit : has_type TUnit DUnit
| HtNone t : has_type (TOption t) DNone
| HtSome t d : has_type t d -> has_type (TOption t) (DSome d)
| HtSeq t l : (forall d, In d l -> has_type t d) -> has_type (TSeq t) (DSeq l)
| HtTuple ts l : Forall2 has_type ts l -> has_type (TTuple ts) (DTuple l)
| HtMap tk tv m : key_type tk -> NoDup (map fst m) ->
    (forall a b, In (a, b) m -> has_type tk a /\ has_type tv b) -> has_type (TMap tk tv) (DMap m)
| HtStruct fs ds : map fst fs = map fst ds -> Forall2 has_type (map snd fs) (map snd ds) ->
    has_type (TStruct fs) (DStruct ds)
| HtNewtype t d : has_type t d -> has_type (TNewtype t) (DNewtype d)
| HtTupleStruct n ts l : Forall2 has_type ts l -> has_type (TTupleStruct n ts) (DTupleStruct l)
| HtUnitStruct : has_type TUnitStruct DUnitStruct
| HtEnum d : enum_datum d -> has_type TEnum d
| HtValue v : uniq v -> has_type TValue (DValue v).

(** Types none of whose data is represented by [Value::None]. *)
Inductive never_none : ty -> Prop :=
| NnBool : never_none TBool
| NnInt t : never_none (TInt t)
| NnF32 : never_none TF32
| NnF64 : never_none TF64
| NnChar : never_none TChar
| NnString : never_none TString
| NnSeq t : never_none (TSeq t)
| NnTuple ts : never_none (TTuple ts)
| NnMap k v : never_none (TMap k v)
| NnStruct fs : never_none (TStruct fs)
| NnTupleStruct n ts : never_none (TTupleStruct n ts)
| NnNewtype t : never_none t -> never_none (TNewtype t).

(** The types of C57. *)
Inductive round_trips : ty -> Prop :=
| RtBool : round_trips TBool
| RtInt t : ~ wide t -> round_trips (TInt t)
| RtF32 : round_trips TF32
| RtF64 : round_trips TF64
| RtChar : round_trips TChar
| RtString : round_trips TString
| RtUnit : round_trips TUnit
| RtOption t : round_trips t -> never_none t -> round_trips (TOption t)
| RtSeq t : round_trips t -> round_trips (TSeq t)
| RtTuple ts : (forall t, In t ts -> round_trips t) -> round_trips (TTuple ts)
| RtMap tk tv : key_type tk -> round_trips tv -> round_trips (TMap tk tv)
| RtStruct fs : NoDup (map fst fs) -> (forall n t, In (n, t) fs -> round_trips t) ->
    round_trips (TStruct fs)
| RtNewtype t : round_trips t -> round_trips (TNewtype t)
| RtTupleStruct n ts : (forall t, In t ts -> round_trips t) -> round_trips (TTupleStruct n ts)
| RtUnitStruct : round_trips TUnitStruct
| RtValue : round_trips TValue.

(** A 128-bit integer occurs somewhere in the datum. *)
Inductive data_wide : data -> Prop :=
| DwInt t z : wide t -> data_wide (DInt t z)
| DwValue v : has_wide v -> data_wide (DValue v)
| DwSome d : data_wide d -> data_wide (DSome d)
| DwSeq l d : In d l -> data_wide d -> data_wide (DSeq l)
| DwTuple l d : In d l -> data_wide d -> data_wide (DTuple l)
| DwKey m a b : In (a, b) m -> data_wide a -> data_wide (DMap m)
| DwVal m a b : In (a, b) m -> data_wide b -> data_wide (DMap m)
| DwStruct fs n d : In (n, d) fs -> data_wide d -> data_wide (DStruct fs)
| DwNewtype d : data_wide d -> data_wide (DNewtype d)
| DwTupleStruct l d : In d l -> data_wide d -> data_wide (DTupleStruct l)
| DwNewtypeVariant n d : data_wide d -> data_wide (DNewtypeVariant n d)
| DwTupleVariant n l d : In d l -> data_wide d -> data_wide (DTupleVariant n l)
| DwStructVariant n fs f d : In (f, d) fs -> data_wide d -> data_wide (DStructVariant n fs).

(** Data without components. *)
Definition scalar_datum (d : data) : Prop :=
  match d with
  | DBool _ | DInt _ _ | DF32 _ | DF64 _ | DChar _ | DStr _ | DBytes _ | DUnit | DNone
  | DUnitStruct | DUnitVariant _ => True
  | _ => False
  end.

(** Every Value inside the datum has unique keys (as Rust guarantees). *)
Inductive data_uniq : data -> Prop :=
| DuScalar d : scalar_datum d -> data_uniq d
| DuValue v : uniq v -> data_uniq (DValue v)
| DuSome d : data_uniq d -> data_uniq (DSome d)
| DuSeq l : (forall d, In d l -> data_uniq d) -> data_uniq (DSeq l)
| DuTuple l : (forall d, In d l -> data_uniq d) -> data_uniq (DTuple l)
| DuMap m : (forall a b, In (a, b) m -> data_uniq a /\ data_uniq b) -> data_uniq (DMap m)
| DuStruct fs : (forall n d, In (n, d) fs -> data_uniq d) -> data_uniq (DStruct fs)
| DuNewtype d : data_uniq d -> data_uniq (DNewtype d)
| DuTupleStruct l : (forall d, In d l -> data_uniq d) -> data_uniq (DTupleStruct l)
| DuNewtypeVariant n d : data_uniq d -> data_uniq (DNewtypeVariant n d)
| DuTupleVariant n l : (forall d, In d l -> data_uniq d) -> data_uniq (DTupleVariant n l)
| DuStructVariant n fs : (forall f d, In (f, d) fs -> data_uniq d) -> data_uniq (DStructVariant n fs).

(** The datum is represented by none, an array or a map, which have no text
    and so cannot be a map key. *)
Inductive textless : data -> Prop :=
| TlUnit : textless DUnit
| TlNone : textless DNone
| TlUnitStruct : textless DUnitStruct
| TlSome d : textless d -> textless (DSome d)
| TlNewtype d : textless d -> textless (DNewtype d)
| TlBytes l : textless (DBytes l)
| TlSeq l : textless (DSeq l)
| TlTuple l : textless (DTuple l)
| TlTupleStruct l : textless (DTupleStruct l)
| TlMap m : textless (DMap m)
| TlStruct fs : textless (DStruct fs)
| TlNewtypeVariant n d : textless (DNewtypeVariant n d)
| TlTupleVariant n l : textless (DTupleVariant n l)
| TlStructVariant n fs : textless (DStructVariant n fs)
| TlValue v kind : no_scalar v kind -> textless (DValue v).

(** A map with a textless key occurs somewhere in the datum. *)
Inductive data_bad_key : data -> Prop :=
| BkHere m a b : In (a, b) m -> textless a -> data_bad_key (DMap m)
| BkSome d : data_bad_key d -> data_bad_key (DSome d)
| BkSeq l d : In d l -> data_bad_key d -> data_bad_key (DSeq l)
| BkTuple l d : In d l -> data_bad_key d -> data_bad_key (DTuple l)
| BkKey m a b : In (a, b) m -> data_bad_key a -> data_bad_key (DMap m)
| BkVal m a b : In (a, b) m -> data_bad_key b -> data_bad_key (DMap m)
| BkStruct fs n d : In (n, d) fs -> data_bad_key d -> data_bad_key (DStruct fs)
| BkNewtype d : data_bad_key d -> data_bad_key (DNewtype d)
| BkTupleStruct l d : In d l -> data_bad_key d -> data_bad_key (DTupleStruct l)
| BkNewtypeVariant n d : data_bad_key d -> data_bad_key (DNewtypeVariant n d)
| BkTupleVariant n l d : In d l -> data_bad_key d -> data_bad_key (DTupleVariant n l)
| BkStructVariant n fs f d : In (f, d) fs -> data_bad_key d -> data_bad_key (DStructVariant n fs).

(** Sameness of data: equal scalars, the same shape, sequences and structs
    component by component; the order in which a map lists its entries is
    irrelevant. *)
Inductive data_equiv : data -> data -> Prop :=
| DeScalar d : scalar_datum d -> data_equiv d d
| DeSome d e : data_equiv d e -> data_equiv (DSome d) (DSome e)
| DeSeq l r : Forall2 data_equiv l r -> data_equiv (DSeq l) (DSeq r)
| DeTuple l r : Forall2 data_equiv l r -> data_equiv (DTuple l) (DTuple r)
| DeMap m n :
    (forall a b, In (a, b) m -> exists b', In (a, b') n /\ data_equiv b b') ->
    (forall a b', In (a, b') n -> exists b, In (a, b) m /\ data_equiv b b') ->
    data_equiv (DMap m) (DMap n)
| DeStruct fs gs : map fst fs = map fst gs -> Forall2 data_equiv (map snd fs) (map snd gs) ->
    data_equiv (DStruct fs) (DStruct gs)
| DeNewtype d e : data_equiv d e -> data_equiv (DNewtype d) (DNewtype e)
| DeTupleStruct l r : Forall2 data_equiv l r -> data_equiv (DTupleStruct l) (DTupleStruct r)
| DeValue v w : vequiv v w -> data_equiv (DValue v) (DValue w).

(** The text under which a key is stored. *)
Inductive key_text : data -> str -> Prop :=
| KxTrue : key_text (DBool true) (lit "true")
| KxFalse : key_text (DBool false) (lit "false")
| KxInt t z s : canonical s z -> key_text (DInt t z) s
| KxChar c : key_text (DChar c) [c]
| KxStr s : key_text (DStr s) s
| KxNewtype d s : key_text d s -> key_text (DNewtype d) s.

(** An enum value occurs somewhere in the datum. *)
Inductive has_enum : data -> Prop :=
| HeHere d : enum_datum d -> has_enum d
| HeSome d : has_enum d -> has_enum (DSome d)
| HeSeq l d : In d l -> has_enum d -> has_enum (DSeq l)
| HeTuple l d : In d l -> has_enum d -> has_enum (DTuple l)
| HeVal m a b : In (a, b) m -> has_enum b -> has_enum (DMap m)
| HeStruct fs n d : In (n, d) fs -> has_enum d -> has_enum (DStruct fs)
| HeNewtype d : has_enum d -> has_enum (DNewtype d)
| HeTupleStruct l d : In d l -> has_enum d -> has_enum (DTupleStruct l).

(** Field names are distinct in every struct inside the type (as Rust
    guarantees). *)
Inductive distinct_fields : ty -> Prop :=
| DfFlat t : match t with
             | TBool | TInt _ | TF32 | TF64 | TChar | TString | TBytes | TUnit | TUnitStruct | TEnum | TValue => True
             | _ => False
             end -> distinct_fields t
| DfOption t : distinct_fields t -> distinct_fields (TOption t)
| DfSeq t : distinct_fields t -> distinct_fields (TSeq t)
| DfTuple ts : (forall t, In t ts -> distinct_fields t) -> distinct_fields (TTuple ts)
| DfMap k v : distinct_fields v -> distinct_fields (TMap k v)
| DfStruct fs : NoDup (map fst fs) -> (forall n t, In (n, t) fs -> distinct_fields t) -> distinct_fields (TStruct fs)
| DfNewtype t : distinct_fields t -> distinct_fields (TNewtype t)
| DfTupleStruct n ts : (forall t, In t ts -> distinct_fields t) -> distinct_fields (TTupleStruct n ts).

(** Types without enums and byte buffers. *)
Inductive no_enum : ty -> Prop :=
| NeBool : no_enum TBool
| NeInt t : no_enum (TInt t)
| NeF32 : no_enum TF32
| NeF64 : no_enum TF64
| NeChar : no_enum TChar
| NeString : no_enum TString
| NeUnit : no_enum TUnit
| NeOption t : no_enum t -> no_enum (TOption t)
| NeSeq t : no_enum t -> no_enum (TSeq t)
| NeTuple ts : (forall t, In t ts -> no_enum t) -> no_enum (TTuple ts)
| NeMap tk tv : no_enum tk -> no_enum tv -> no_enum (TMap tk tv)
| NeStruct fs : (forall n t, In (n, t) fs -> no_enum t) -> no_enum (TStruct fs)
| NeNewtype t : no_enum t -> no_enum (TNewtype t)
| NeTupleStruct n ts : (forall t, In t ts -> no_enum t) -> no_enum (TTupleStruct n ts)
| NeUnitStruct : no_enum TUnitStruct
| NeValue : no_enum TValue.

(** Types all of whose maps are keyed by text (and whose struct fields are
    distinct). *)
Inductive text_maps : ty -> Prop :=
| TmBool : text_maps TBool
| TmInt t : text_maps (TInt t)
| TmF32 : text_maps TF32
| TmF64 : text_maps TF64
| TmChar : text_maps TChar
| TmString : text_maps TString
| TmBytes : text_maps TBytes
| TmUnit : text_maps TUnit
| TmOption t : text_maps t -> text_maps (TOption t)
| TmSeq t : text_maps t -> text_maps (TSeq t)
| TmTuple ts : (forall t, In t ts -> text_maps t) -> text_maps (TTuple ts)
| TmMap tk tv : text_key tk -> text_maps tv -> text_maps (TMap tk tv)
| TmStruct fs : NoDup (map fst fs) -> (forall n t, In (n, t) fs -> text_maps t) -> text_maps (TStruct fs)
| TmNewtype t : text_maps t -> text_maps (TNewtype t)
| TmTupleStruct n ts : (forall t, In t ts -> text_maps t) -> text_maps (TTupleStruct n ts)
| TmUnitStruct : text_maps TUnitStruct
| TmEnum : text_maps TEnum
| TmValue : text_maps TValue.

(** The dialogue between a visitor and the map it reads ([MapAccess]): how many
    values have been asked for. *)
Fixpoint values_asked (cs : list map_call) : nat :=
  match cs with [] => 0 | NextKey :: t => values_asked t | NextValue :: t => S (values_asked t) end.

(** Types without maps and Values: sameness of their data is equality. *)
Inductive map_free : ty -> Prop :=
| MfFlat t : match t with
             | TBool | TInt _ | TF32 | TF64 | TChar | TString | TBytes | TUnit | TUnitStruct => True
             | _ => False
             end -> map_free t
| MfOption t : map_free t -> map_free (TOption t)
| MfSeq t : map_free t -> map_free (TSeq t)
| MfTuple ts : (forall t, In t ts -> map_free t) -> map_free (TTuple ts)
| MfStruct fs : (forall n t, In (n, t) fs -> map_free t) -> map_free (TStruct fs)
| MfNewtype t : map_free t -> map_free (TNewtype t)
| MfTupleStruct n ts : (forall t, In t ts -> map_free t) -> map_free (TTupleStruct n ts).

(** A deserialisation agrees with a conversion, in result and in error. *)
Definition agrees {A} (o : outcome data model_error) (r : result A model_error) (mk : A -> data) : Prop :=
  match r with Ok a => o = Done (mk a) | Err e => o = Fail e end.

(** What a struct field becomes: the conversion of the Value held under its
    name or, for a missing optional field, [None]. *)
Definition field_becomes (conv : ty -> value -> data -> Prop) (v : value) (f : str * ty) (d : str * data) : Prop :=
  fst d = fst f /\
  ((exists x, holds v (fst f) x /\ conv (snd f) x (snd d))
   \/ (lacks v (fst f) /\ (exists t, snd f = TOption t) /\ snd d = DNone)).
