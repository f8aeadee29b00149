(** What a later layer does to typed data (C93): [updated t d x d'] = "data d of
    type t, overridden by the Value x, is d'".  What replaces something is read
    as in C92 ([reads_as]); merging is not mentioned. *)
From Coq Require Import List.
Import ListNotations.
From Verif.Model Require Import Text Value Serde.
From Verif.Spec Require Import Spec SerdeSpec ReadSpec.

(** The data a map Value can be overridden in key by key. *)
Inductive map_datum : data -> Prop :=
| MdStruct l : map_datum (DStruct l)
| MdMap m : map_datum (DMap m)
| MdValue v : mapv v -> map_datum (DValue v)
| MdSome d : map_datum d -> map_datum (DSome d)
| MdNewtype d : map_datum d -> map_datum (DNewtype d).

(** [overlaid v x r]: untyped, r is v with x laid over it. *)
Inductive overlaid : value -> value -> value -> Prop :=
| OvReplace v x : ~ (mapv v /\ mapv x) -> overlaid v x x
| OvMaps v x r : mapv v -> mapv x -> mapv r -> uniq r ->
    (forall k y, holds r k y ->
       (holds v k y /\ lacks x k) \/ (lacks v k /\ holds x k y)
       \/ exists a b, holds v k a /\ holds x k b /\ overlaid a b y) ->
    (forall k, lacks r k -> lacks v k /\ lacks x k) ->
    overlaid v x r.

Inductive updated : ty -> data -> value -> data -> Prop :=
(** no map on one side: replaced *)
| UpReplace t d x d' : ~ (map_datum d /\ mapv x) -> reads_as t x d' -> updated t d x d'
| UpSome t d x d' : map_datum d -> mapv x -> updated t d x d' -> updated (TOption t) (DSome d) x (DSome d')
| UpNewtype t d x d' : map_datum d -> mapv x -> updated t d x d' -> updated (TNewtype t) (DNewtype d) x (DNewtype d')
| UpValue v x r : mapv v -> mapv x -> overlaid v x r -> updated TValue (DValue v) x (DValue r)
| UpStruct fs l x l' : mapv x -> updated_fields fs l x l' -> updated (TStruct fs) (DStruct l) x (DStruct l')
(** entries are kept, added or overridden; none disappears *)
| UpMap tk tv m x r : mapv x -> NoDup (map fst r) ->
    (forall a b, In (a, b) r -> exists k, reads_as tk (VStr k) a /\
       ((In (a, b) m /\ lacks x k)
        \/ ((forall b0, ~ In (a, b0) m) /\ exists y, holds x k y /\ reads_as tv y b)
        \/ exists b0 y, In (a, b0) m /\ holds x k y /\ updated tv b0 y b)) ->
    (forall a b, In (a, b) m -> In a (map fst r)) ->
    (forall k y a, holds x k y -> reads_as tk (VStr k) a -> In a (map fst r)) ->
    updated (TMap tk tv) (DMap m) x (DMap r)
(** fields the map does not mention are kept *)
with updated_fields : list (str * ty) -> list (str * data) -> value -> list (str * data) -> Prop :=
| UfNil x : updated_fields [] [] x []
| UfKept n t fs d l x l' : lacks x n -> updated_fields fs l x l' ->
    updated_fields ((n, t) :: fs) ((n, d) :: l) x ((n, d) :: l')
| UfSet n t fs d l x y d' l' : holds x n y -> updated t d y d' -> updated_fields fs l x l' ->
    updated_fields ((n, t) :: fs) ((n, d) :: l) x ((n, d') :: l').
