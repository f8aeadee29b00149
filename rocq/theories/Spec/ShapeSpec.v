(** Vocabulary for C69: how a Rust datum looks as a Value. *)
From Coq Require Import ZArith List Bool String.
Import ListNotations.
From Verif.Model Require Import Text Num Flt Value Convert Serde.
From Verif.Spec Require Import Spec FloatSpec.
Open Scope Z_scope.

(** [bindings h m]: the map m holds exactly the last binding of each key of
    the history h. *)
Definition bindings (h : list (str * value)) (m : vmap) : Prop :=
  NoDup (map fst m) /\ forall k x, In (k, x) m <-> last_binding h k x.

(** [represents d v]: the Value v is how the datum d looks. *)
Inductive represents : data -> value -> Prop :=
| RpBool b : represents (DBool b) (VBool b)
| RpSigned t z : In t [I8; I16; I32; I64] -> represents (DInt t z) (VInt z)
| RpUnsigned t z : In t [U8; U16; U32; U64] -> represents (DInt t z) (VUInt z)
| RpF32 f g : widens f g -> represents (DF32 f) (VFloat g)
| RpF64 f : represents (DF64 f) (VFloat f)
| RpChar c : represents (DChar c) (VStr [c])
| RpStr s : represents (DStr s) (VStr s)
| RpBytes l : represents (DBytes l) (VArr (map VUInt l))
| RpUnit : represents DUnit VNone
| RpNone : represents DNone VNone
| RpUnitStruct : represents DUnitStruct VNone
| RpSome d v : represents d v -> represents (DSome d) v
| RpNewtype d v : represents d v -> represents (DNewtype d) v
| RpSeq l vs : Forall2 represents l vs -> represents (DSeq l) (VArr vs)
| RpTuple l vs : Forall2 represents l vs -> represents (DTuple l) (VArr vs)
| RpTupleStruct l vs : Forall2 represents l vs -> represents (DTupleStruct l) (VArr vs)
| RpStruct fs h m : represents_fields fs h -> bindings h m -> represents (DStruct fs) (VMap m)
| RpMap es h m : represents_entries es h -> bindings h m -> represents (DMap es) (VMap m)
| RpUnitVariant n : represents (DUnitVariant n) (VStr n)
| RpNewtypeVariant n d v : represents d v -> represents (DNewtypeVariant n d) (VMap [(n, v)])
| RpTupleVariant n l vs : Forall2 represents l vs -> represents (DTupleVariant n l) (VMap [(n, VArr vs)])
| RpStructVariant n fs h m : represents_fields fs h -> bindings h m ->
    represents (DStructVariant n fs) (VMap [(n, VMap m)])
| RpValue v : represents (DValue v) v
(** Fields, in order, under their names. *)
with represents_fields : list (str * data) -> list (str * value) -> Prop :=
| RfNil : represents_fields [] []
| RfCons n d v fs h : represents d v -> represents_fields fs h -> represents_fields ((n, d) :: fs) ((n, v) :: h)
(** Map entries, in order, under the text of their keys. *)
with represents_entries : list (data * data) -> list (str * value) -> Prop :=
| ReNil : represents_entries [] []
| ReCons a kv k d v es h : represents a kv -> into_string kv = Ok k -> represents d v ->
    represents_entries es h -> represents_entries ((a, d) :: es) ((k, v) :: h).

(** d' is d or occurs inside it. *)
Inductive inside : data -> data -> Prop :=
| InHere d : inside d d
| InSome d x : inside d x -> inside (DSome d) x
| InSeq l d x : In d l -> inside d x -> inside (DSeq l) x
| InTuple l d x : In d l -> inside d x -> inside (DTuple l) x
| InKey m a b x : In (a, b) m -> inside a x -> inside (DMap m) x
| InVal m a b x : In (a, b) m -> inside b x -> inside (DMap m) x
| InStruct fs n d x : In (n, d) fs -> inside d x -> inside (DStruct fs) x
| InNewtype d x : inside d x -> inside (DNewtype d) x
| InTupleStruct l d x : In d l -> inside d x -> inside (DTupleStruct l) x
| InNewtypeVariant n d x : inside d x -> inside (DNewtypeVariant n d) x
| InTupleVariant n l d x : In d l -> inside d x -> inside (DTupleVariant n l) x
| InStructVariant n fs f d x : In (f, d) fs -> inside d x -> inside (DStructVariant n fs) x.

(** Every f32 inside is a binary32 number (as Rust guarantees). *)
Definition real_f32s (d : data) : Prop := forall f, inside d (DF32 f) -> f32_valid f = true.
