(** What deserialising a Value into a type gives: [reads_as t v d], or why it is
    refused: [refuses t v e] (C92).  Scalars are read as by [try_into] (C60),
    Values in messages are shown as by [Display] (C07); nothing else refers to
    the model's functions. *)
From Coq Require Import ZArith List Bool String.
Import ListNotations.
From Verif.Model Require Import Text Num Flt Value Convert Serde.
From Verif.Spec Require Import Spec Numerals SerdeSpec.
Open Scope Z_scope.

(** Rust types: fields of a struct are distinct, maps are keyed by booleans,
    integers, chars, strings or newtypes of them. *)
Inductive proper : ty -> Prop :=
| PrFlat t : match t with
             | TBool | TInt _ | TF32 | TF64 | TChar | TString | TBytes | TUnit | TUnitStruct | TEnum | TValue => True
             | _ => False
             end -> proper t
| PrOption t : proper t -> proper (TOption t)
| PrSeq t : proper t -> proper (TSeq t)
| PrTuple ts : (forall t, In t ts -> proper t) -> proper (TTuple ts)
| PrMap k v : key_type k -> proper v -> proper (TMap k v)
| PrStruct fs : NoDup (map fst fs) -> (forall n t, In (n, t) fs -> proper t) -> proper (TStruct fs)
| PrNewtype t : proper t -> proper (TNewtype t)
| PrTupleStruct n ts : (forall t, In t ts -> proper t) -> proper (TTupleStruct n ts).

(** The entries of r are the last ones for each key in the history ps. *)
Definition last_entries (ps r : list (data * data)) : Prop :=
  NoDup (map fst r) /\
  forall a b, In (a, b) r <-> exists before after, ps = before ++ (a, b) :: after /\ ~ In a (map fst after).

Inductive reads_as : ty -> value -> data -> Prop :=
| RaBool v b : into_bool v = Ok b -> reads_as TBool v (DBool b)
| RaInt t v z : ~ wide t -> into_int t v = Ok z -> reads_as (TInt t) v (DInt t z)
| RaF32 v f : into_f64 v = Ok f -> reads_as TF32 v (DF32 (f64_to_f32 f))
| RaF64 v f : into_f64 v = Ok f -> reads_as TF64 v (DF64 f)
| RaChar v c : into_char v = Ok c -> reads_as TChar v (DChar c)
| RaString v s : into_string v = Ok s -> reads_as TString v (DStr s)
| RaUnit : reads_as TUnit VNone DUnit
| RaUnitStruct : reads_as TUnitStruct VNone DUnitStruct
| RaNone t : reads_as (TOption t) VNone DNone
| RaSome t v d : v <> VNone -> reads_as t v d -> reads_as (TOption t) v (DSome d)
| RaNewtype t v d : reads_as t v d -> reads_as (TNewtype t) v (DNewtype d)
| RaSeq t l r : Forall2 (reads_as t) l r -> reads_as (TSeq t) (VArr l) (DSeq r)
| RaTuple ts l r : reads_each ts l r -> reads_as (TTuple ts) (VArr l) (DTuple r)
| RaTupleStruct n ts l r : reads_each ts l r -> reads_as (TTupleStruct n ts) (VArr l) (DTupleStruct r)
| RaMap tk tv m ps r :
    Forall2 (fun e p => reads_as tk (VStr (fst e)) (fst p) /\ reads_as tv (snd e) (snd p)) m ps ->
    last_entries ps r -> reads_as (TMap tk tv) (VMap m) (DMap r)
| RaStruct fs v l : mapv v ->
    Forall2 (fun f d => fst d = fst f /\
      ((exists x, holds v (fst f) x /\ reads_as (snd f) x (snd d))
       \/ (lacks v (fst f) /\ (exists t, snd f = TOption t) /\ snd d = DNone))) fs l ->
    reads_as (TStruct fs) v (DStruct l)
| RaValue v : reads_as TValue v (DValue v)
(** One component after the other; what is left over is ignored. *)
with reads_each : list ty -> list value -> list data -> Prop :=
| ReDone rest : reads_each [] rest []
| ReMore t ts x xs d ds : reads_as t x d -> reads_each ts xs ds -> reads_each (t :: ts) (x :: xs) (d :: ds).

(** The kind of Value a type needs. *)
Inductive wrong_kind : ty -> value -> str -> Prop :=
| WkUnit v : v <> VNone -> wrong_kind TUnit v (lit "None")
| WkUnitStruct v : v <> VNone -> wrong_kind TUnitStruct v (lit "None")
| WkSeq t v : ~ arrayv v -> wrong_kind (TSeq t) v (lit "Array")
| WkTuple ts v : ~ arrayv v -> wrong_kind (TTuple ts) v (lit "Array")
| WkTupleStruct n ts v : ~ arrayv v -> wrong_kind (TTupleStruct n ts) v (lit "Array")
| WkMap k t v : ~ mapv v -> wrong_kind (TMap k t) v (lit "Map")
| WkStruct fs v : ~ mapv v -> wrong_kind (TStruct fs) v (lit "Map").

(** What a tuple (struct) of n components is called in a message. *)
Inductive called_tuple : nat -> str -> Prop :=
| CtTuple n s : canonical s (Z.of_nat n) -> called_tuple n (lit "a tuple of size " ++ s).
Inductive called_tuple_struct (name : str) : nat -> str -> Prop :=
| CtOne s : canonical s 1 -> called_tuple_struct name 1 (lit "tuple struct " ++ name ++ lit " with " ++ s ++ lit " element")
| CtMany n s : n <> 1%nat -> canonical s (Z.of_nat n) ->
    called_tuple_struct name n (lit "tuple struct " ++ name ++ lit " with " ++ s ++ lit " elements").

Inductive refuses : ty -> value -> model_error -> Prop :=
| RfBool v e : into_bool v = Err e -> refuses TBool v e
| RfInt t v e : ~ wide t -> into_int t v = Err e -> refuses (TInt t) v e
| RfWide t v : wide t -> refuses (TInt t) v (EDeserialization (type_name t ++ lit " is not supported"))
| RfF32 v e : into_f64 v = Err e -> refuses TF32 v e
| RfF64 v e : into_f64 v = Err e -> refuses TF64 v e
| RfChar v e : into_char v = Err e -> refuses TChar v e
| RfString v e : into_string v = Err e -> refuses TString v e
| RfKind t v kind : wrong_kind t v kind ->
    refuses t v (EDeserialization (lit "Can't deserialize " ++ v_display v ++ lit " to " ++ kind))
| RfSome t v e : v <> VNone -> refuses t v e -> refuses (TOption t) v e
| RfNewtype t v e : refuses t v e -> refuses (TNewtype t) v e
| RfSeq t l1 x l2 e : (forall y, In y l1 -> exists d, reads_as t y d) -> refuses t x e ->
    refuses (TSeq t) (VArr (l1 ++ x :: l2)) e
| RfTuple ts l what e : called_tuple (List.length ts) what -> refuses_each what 0 ts l e -> refuses (TTuple ts) (VArr l) e
| RfTupleStruct n ts l what e : called_tuple_struct n (List.length ts) what -> refuses_each what 0 ts l e ->
    refuses (TTupleStruct n ts) (VArr l) e
| RfMapKey tk tv m1 k x m2 e :
    (forall k' x', In (k', x') m1 -> (exists a, reads_as tk (VStr k') a) /\ exists b, reads_as tv x' b) ->
    refuses tk (VStr k) e -> refuses (TMap tk tv) (VMap (m1 ++ (k, x) :: m2)) e
| RfMapValue tk tv m1 k x m2 e :
    (forall k' x', In (k', x') m1 -> (exists a, reads_as tk (VStr k') a) /\ exists b, reads_as tv x' b) ->
    (exists a, reads_as tk (VStr k) a) -> refuses tv x e -> refuses (TMap tk tv) (VMap (m1 ++ (k, x) :: m2)) e
| RfField fs m1 n x m2 t e :
    (forall n' x' t', In (n', x') m1 -> In (n', t') fs -> exists d, reads_as t' x' d) ->
    In (n, t) fs -> refuses t x e -> refuses (TStruct fs) (VMap (m1 ++ (n, x) :: m2)) e
| RfMissing f1 n t f2 m :
    (forall n' x' t', In (n', x') m -> In (n', t') (f1 ++ (n, t) :: f2) -> exists d, reads_as t' x' d) ->
    (forall n' t', In (n', t') f1 -> (exists x, holds (VMap m) n' x) \/ exists u, t' = TOption u) ->
    lacks (VMap m) n -> (forall u, t <> TOption u) ->
    refuses (TStruct (f1 ++ (n, t) :: f2)) (VMap m) (EDeserialization (lit "missing field `" ++ n ++ lit "`"))
(** The first component that is refused, or missing. *)
with refuses_each : str -> nat -> list ty -> list value -> model_error -> Prop :=
| FeShort what i s t ts : canonical s (Z.of_nat i) ->
    refuses_each what i (t :: ts) [] (EDeserialization (lit "invalid length " ++ s ++ lit ", expected " ++ what))
| FeHere what i t ts x xs e : refuses t x e -> refuses_each what i (t :: ts) (x :: xs) e
| FeLater what i t ts x xs d e : reads_as t x d -> refuses_each what (S i) ts xs e ->
    refuses_each what i (t :: ts) (x :: xs) e.
