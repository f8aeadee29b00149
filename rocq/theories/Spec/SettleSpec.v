(** Typed settings out of many layers (C111).  [settled t ms d]: of the maps ms
    (those the layers give, in order of registration), a program asking for the
    type t gets d.  [settled_at t cs d]: of the Values cs that the layers mention at
    one place (not none).  What replaces everything before it is read as in C92
    ([reads_as]); merging is not mentioned. *)
From Coq Require Import List.
Import ListNotations.
From Verif.Model Require Import Text Value Serde.
From Verif.Spec Require Import Spec SerdeSpec ReadSpec.

Inductive settled_at : ty -> list value -> data -> Prop :=
(** the last mention is no map: it alone counts *)
| SaLast t cs x d : ~ mapv x -> reads_as t x d -> settled_at t (cs ++ [x]) d
(** the last mention is a map: it and the maps directly before it count *)
| SaMaps t cs x ms d : mapv x -> trailing_maps (cs ++ [x]) ms -> settled t ms d -> settled_at t (cs ++ [x]) d
with settled : ty -> list value -> data -> Prop :=
| SeSome t ms d : settled t ms d -> settled (TOption t) ms (DSome d)
| SeNewtype t ms d : settled t ms d -> settled (TNewtype t) ms (DNewtype d)
| SeStruct fs ms l : settled_fields ms fs l -> settled (TStruct fs) ms (DStruct l)
(** an entry for every key mentioned anywhere *)
| SeMap tk tv ms r : NoDup (map fst r) ->
    (forall a b, In (a, b) r -> exists k c cs, reads_as tk (VStr k) a /\ defs k ms (c :: cs) /\ settled_at tv (c :: cs) b) ->
    (forall k a c cs, defs k ms (c :: cs) -> reads_as tk (VStr k) a -> In a (map fst r)) ->
    settled (TMap tk tv) ms (DMap r)
| SeValue ms v : mapv v -> uniq v ->
    (forall k y, holds v k y -> exists c cs, defs k ms (c :: cs) /\ settled_at TValue (c :: cs) (DValue y)) ->
    (forall k, lacks v k -> defs k ms []) ->
    settled TValue ms (DValue v)
(** each field from its own mentions; only an Option may be mentioned nowhere *)
with settled_fields : list value -> list (str * ty) -> list (str * data) -> Prop :=
| SfNil ms : settled_fields ms [] []
| SfSet ms n t fs c cs d l : defs n ms (c :: cs) -> settled_at t (c :: cs) d -> settled_fields ms fs l ->
    settled_fields ms ((n, t) :: fs) ((n, d) :: l)
| SfMissing ms n t fs l : defs n ms [] -> settled_fields ms fs l ->
    settled_fields ms ((n, TOption t) :: fs) ((n, DNone) :: l).

(** Types that read no map: the last mention alone decides. *)
Inductive leaf_type : ty -> Prop :=
| LfFlat t : match t with
             | TBool | TInt _ | TF32 | TF64 | TChar | TString | TUnit | TUnitStruct | TSeq _ | TTuple _ | TTupleStruct _ _ => True
             | _ => False
             end -> leaf_type t
| LfOption t : leaf_type t -> leaf_type (TOption t)
| LfNewtype t : leaf_type t -> leaf_type (TNewtype t).
