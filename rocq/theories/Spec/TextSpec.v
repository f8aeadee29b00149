(** Which Values can be handed over as their text, for which type (C94). *)
From Coq Require Import ZArith Reals List Bool String.
From Coq Require Import Floats.SpecFloat.
Import ListNotations.
From Verif.Model Require Import Text Num Flt Value Serde.
From Verif.Spec Require Import Numerals FloatSpec.
Local Open Scope Z_scope.

(** [text_safe t v]: reading v as t and reading the text of v as t give the same.
    Integers for number and string types; floats for float and string types, and
    for an integer type that holds the whole number they are, up to 2^53 (minus
    zero excepted); booleans for bool and string; strings for everything. *)
Inductive text_safe : ty -> value -> Prop :=
| TsInt t v z src : int_value v z src -> text_safe (TInt t) v
| TsIntF32 v z src : int_value v z src -> text_safe TF32 v
| TsIntF64 v z src : int_value v z src -> text_safe TF64 v
| TsF32 f : text_safe TF32 (VFloat f)
| TsF64 f : text_safe TF64 (VFloat f)
| TsWhole t f z : finite64 f -> real f = IZR z -> Z.abs z <= 2 ^ 53 -> z <> 0 \/ negative f = false -> fits t z ->
    text_safe (TInt t) (VFloat f)
| TsBool b : text_safe TBool (VBool b)
| TsString v : text_safe TString v
| TsText t s : text_safe t (VStr s)
| TsOption t v : text_safe t v -> text_safe (TOption t) v
| TsNewtype t v : text_safe t v -> text_safe (TNewtype t) v.
