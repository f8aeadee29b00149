(** What an ordinary enum reads when it stands in a buffered place (C112). *)
From Coq Require Import List.
Import ListNotations.
From Verif.Model Require Import Text Value Serde Buffered.
From Verif.Spec Require Import Spec SerdeSpec ReadSpec BufferedSpec.

(** What stands beside the name of a variant. *)
Inductive beside_reads (lax : bool) (n : str) : shape -> value -> data -> Prop :=
| BrUnit x : strict lax true TUnit x DUnit -> beside_reads lax n ShUnit x (DUnitVariant n)
| BrNewtype t x d : strict lax true t x d -> beside_reads lax n (ShNewtype t) x (DNewtypeVariant n d)
| BrTuple ts x ds : strict lax true (TTuple ts) x (DTuple ds) -> beside_reads lax n (ShTuple ts) x (DTupleVariant n ds)
| BrStruct fs x ds : strict lax true (TStruct fs) x (DStruct ds) -> beside_reads lax n (ShStruct fs) x (DStructVariant n ds).
(** The name of a unit variant, or a map from the name to the content. *)
Inductive enum_reads (lax : bool) (vs : list (str * shape)) : value -> data -> Prop :=
| ErName n : In (n, ShUnit) vs -> enum_reads lax vs (VStr n) (DUnitVariant n)
| ErEntry n sh x d : In (n, sh) vs -> beside_reads lax n sh x d -> enum_reads lax vs (VMap [(n, x)]) d.
