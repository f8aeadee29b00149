(** What a visitor is given for each hint: the call [handed h v c], or the error
    [hint_refused h v e] (C95).  Scalars are converted as by [try_into]
    (C10..C16), Values in messages are shown as by [Display] (C07). *)
From Coq Require Import ZArith List Bool String.
Import ListNotations.
From Verif.Model Require Import Text Num Flt Value Convert Serde Deserializer.
From Verif.Spec Require Import Spec Numerals SerdeSpec.
Local Open Scope Z_scope.

(** A Value as it is: what [deserialize_any] shows of it. *)
Inductive as_it_is : value -> visit_call -> Prop :=
| AsNone : as_it_is VNone CUnit
| AsBool b : as_it_is (VBool b) (CBool b)
| AsInt z : as_it_is (VInt z) (CInt I64 z)
| AsLong z : as_it_is (VLong z) (CInt I128 z)
| AsUInt z : as_it_is (VUInt z) (CInt U64 z)
| AsULong z : as_it_is (VULong z) (CInt U128 z)
| AsFloat f : as_it_is (VFloat f) (CF64 f)
| AsStr s : as_it_is (VStr s) (CStr s)
| AsArr l : as_it_is (VArr l) (CSeq l)
| AsMap m : as_it_is (VMap m) (CMap m).

(** Hints that name a kind of Value. *)
Definition wants_none (h : hint) : Prop := h = HUnit \/ h = HUnitStruct.
Definition wants_array (h : hint) : Prop := h = HSeq \/ h = HTuple \/ h = HTupleStruct.
Definition wants_map (h : hint) : Prop := h = HMap \/ h = HStruct.
(** Hints the code does not support at all. *)
Definition unsupported (h : hint) : Prop := h = HBytes \/ h = HByteBuf \/ h = HEnum.

Inductive handed : hint -> value -> visit_call -> Prop :=
| HaAny v c : as_it_is v c -> handed HAny v c
| HaIgnored v c : as_it_is v c -> handed HIgnoredAny v c
| HaBool v b : into_bool v = Ok b -> handed HBool v (CBool b)
| HaInt t v z : ~ wide t -> into_int t v = Ok z -> handed (HInt t) v (CInt t z)
| HaF32 v f : into_f64 v = Ok f -> handed HF32 v (CF32 (f64_to_f32 f))
| HaF64 v f : into_f64 v = Ok f -> handed HF64 v (CF64 f)
| HaChar v c : into_char v = Ok c -> handed HChar v (CChar c)
| HaStr v s : into_string v = Ok s -> handed HStr v (CStr s)
| HaString v s : into_string v = Ok s -> handed HString v (CString s)
| HaIdentifier v s : into_string v = Ok s -> handed HIdentifier v (CStr s)
| HaNone : handed HOption VNone CNone
| HaSome v : v <> VNone -> handed HOption v (CSome v)
| HaNewtype v : handed HNewtypeStruct v (CNewtype v)
| HaUnit h : wants_none h -> handed h VNone CUnit
| HaSeq h l : wants_array h -> handed h (VArr l) (CSeq l)
| HaMap h m : wants_map h -> handed h (VMap m) (CMap m).

Inductive hint_refused : hint -> value -> model_error -> Prop :=
| HrBool v e : into_bool v = Err e -> hint_refused HBool v e
| HrInt t v e : ~ wide t -> into_int t v = Err e -> hint_refused (HInt t) v e
| HrWide t v : wide t -> hint_refused (HInt t) v (EDeserialization (type_name t ++ lit " is not supported"))
| HrF32 v e : into_f64 v = Err e -> hint_refused HF32 v e
| HrF64 v e : into_f64 v = Err e -> hint_refused HF64 v e
| HrChar v e : into_char v = Err e -> hint_refused HChar v e
| HrText h v e : h = HStr \/ h = HString \/ h = HIdentifier -> into_string v = Err e -> hint_refused h v e
| HrKind h v kind :
    (wants_none h /\ v <> VNone /\ kind = lit "None") \/ (wants_array h /\ ~ arrayv v /\ kind = lit "Array")
    \/ (wants_map h /\ ~ mapv v /\ kind = lit "Map") ->
    hint_refused h v (EDeserialization (lit "Can't deserialize " ++ v_display v ++ lit " to " ++ kind)).

(** How many elements a visitor asked for. *)
Fixpoint elements_asked (cs : list seq_call) : nat :=
  match cs with [] => 0 | NextElement :: t => S (elements_asked t) | SizeHint :: t => elements_asked t end.

(** The call the visitor of a type expects. *)
Inductive expects : ty -> visit_call -> Prop :=
| ExBool b : expects TBool (CBool b)
| ExInt t z : expects (TInt t) (CInt t z)
| ExF32 f : expects TF32 (CF32 f)
| ExF64 f : expects TF64 (CF64 f)
| ExChar c : expects TChar (CChar c)
| ExString s : expects TString (CString s)
| ExUnit : expects TUnit CUnit
| ExUnitStruct : expects TUnitStruct CUnit
| ExNone t : expects (TOption t) CNone
| ExSome t v : expects (TOption t) (CSome v)
| ExNewtype t v : expects (TNewtype t) (CNewtype v)
| ExSeq t l : expects (TSeq t) (CSeq l)
| ExTuple ts l : expects (TTuple ts) (CSeq l)
| ExTupleStruct n ts l : expects (TTupleStruct n ts) (CSeq l)
| ExMap k t m : expects (TMap k t) (CMap m)
| ExStruct fs m : expects (TStruct fs) (CMap m)
| ExValue v c : as_it_is v c -> expects TValue c.
