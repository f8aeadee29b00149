(** Vocabulary for C107 (adjacently tagged enums) and C108 (types of the
    standard library). *)
From Coq Require Import ZArith List Bool String.
Import ListNotations.
From Verif.Model Require Import Text Num Flt Value Convert Serde.
From Verif.Spec Require Import Spec Numerals SerdeSpec.
Local Open Scope Z_scope.

(** A map with these entries and no others. *)
Definition exactly (v : value) (l : vmap) : Prop :=
  exists m, v = VMap m /\ NoDup (map fst m) /\ forall k x, In (k, x) m <-> In (k, x) l.

(** The name of an enum value's variant and what its content is written as. *)
Inductive beside_tag : data -> str -> option value -> Prop :=
| BtUnit n : beside_tag (DUnitVariant n) n None
| BtNewtype n d x : ser d = Done x -> beside_tag (DNewtypeVariant n d) n (Some x)
| BtTuple n l x : ser (DTuple l) = Done x -> beside_tag (DTupleVariant n l) n (Some x)
| BtStruct n fs x : ser (DStruct fs) = Done x -> beside_tag (DStructVariant n fs) n (Some x).

(** [l] lists the members of the set of the elements of [r]. *)
Definition lists_set (l r : list data) : Prop := NoDup l /\ forall d, In d l <-> In d r.

(** What an array type of n elements is called in a message. *)
Inductive called_array : nat -> str -> Prop :=
| CaEmpty : called_array 0 (lit "an empty array")
| CaSome n s : n <> 0%nat -> canonical s (Z.of_nat n) -> called_array n (lit "an array of length " ++ s).

(** A length of time of [total] nanoseconds, as seconds and nanoseconds. *)
Definition amounts_to (d : Z * Z) (total : Z) : Prop :=
  0 <= snd d < 1000000000 /\ total = fst d * 1000000000 + snd d.
(** The two numbers under the names a and b of a map without other keys. *)
Definition two_numbers (v : value) (a b : str) (s n : Z) : Prop :=
  exists x y, exactly v [(a, x); (b, y)] /\ into_int U64 x = Ok s /\ into_int U32 y = Ok n.
