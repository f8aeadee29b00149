(** C95: what a visitor is given (hand-written [Deserialize] implementations). *)
From Coq Require Import ZArith Bool String Lia.
From Coq Require Import List.
Import ListNotations.
From Verif.Model Require Import Text Num Flt Value Convert Serde Deserializer.
From Verif.Spec Require Import Spec Numerals SerdeSpec CallsSpec.
From Verif.Proofs Require Import Basics DeProofs Calls.
Local Open Scope Z_scope.

Theorem C95_what_is_handed_over : forall h v c, deserialize h v = Done c <-> handed h v c.
Proof. exact handed_iff. Qed.
Print Assumptions C95_what_is_handed_over.

Theorem C95_what_is_refused : forall h v e, deserialize h v = Fail e <-> hint_refused h v e.
Proof. exact hint_refused_iff. Qed.
Print Assumptions C95_what_is_refused.

Theorem C95_panics_exactly_for_bytes_and_enums : forall h v, deserialize h v = Panic <-> unsupported h.
Proof. exact unsupported_iff. Qed.
Print Assumptions C95_panics_exactly_for_bytes_and_enums.

(** [deserialize_any] hides nothing: different Values are shown differently. *)
Theorem C95_any_tells_values_apart : forall v v' c, deserialize HAny v = Done c -> deserialize HAny v' = Done c -> v = v'.
Proof. intros v v' c H H'. rewrite <- H in H'. cbn in H'. injection H' as H'. destruct v, v'; cbn in H'; congruence. Qed.
Print Assumptions C95_any_tells_values_apart.

(** An array hands over its elements in order, each as it is, then None for
    ever; the size hint is always the number of elements left. *)
Theorem C95_sequence_access_replies : forall cs l rs l', seq_access_run l cs = (rs, l') ->
  l' = skipn (elements_asked cs) l /\ List.length rs = List.length cs /\
  forall i c, nth_error cs i = Some c ->
    nth_error rs i = Some match c with
      | NextElement => RElement (nth_error l (elements_asked (firstn i cs)))
      | SizeHint => RSize (Some (List.length l - elements_asked (firstn i cs))%nat)
      end.
Proof. exact seq_access_skip. Qed.
Print Assumptions C95_sequence_access_replies.

(** serde's own visitors get the call they expect, or the error of C92 (or
    the panic of C61); they never see another kind of call. *)
Theorem C95_serde_visitors_get_what_they_expect : forall t v c, deserialize (hint_of t) v = Done c -> expects t c.
Proof. exact expects_ok. Qed.
Print Assumptions C95_serde_visitors_get_what_they_expect.

(** Reading a type is its visitor's reply to the call of its hint, drawing from
    the sequence and map accesses above and in C67. *)
Theorem C95_typed_reads_are_visitors_on_these_calls : forall t v, de t v = de_calls t v.
Proof. intros t v. symmetry. apply de_calls_eq. Qed.
Print Assumptions C95_typed_reads_are_visitors_on_these_calls.

Example C95_example :
  deserialize (HInt U8) (VStr (lit "12")) = Done (CInt U8 12)
  /\ deserialize HAny (VStr (lit "12")) = Done (CStr (lit "12"))
  /\ handed HOption (VArr []) (CSome (VArr []))
  /\ hint_refused HTuple (VInt 1) (EDeserialization (lit "Can't deserialize 1 to Array"))
  /\ seq_access_run [VInt 1; VInt 2] [SizeHint; NextElement; SizeHint; NextElement; NextElement; NextElement] =
     ([RSize (Some 2%nat); RElement (Some (VInt 1)); RSize (Some 1%nat); RElement (Some (VInt 2)); RElement None; RElement None], [])
  /\ unsupported HEnum
  /\ de_calls (TStruct [(lit "a", TOption (TInt I16)); (lit "b", TMap TString TValue)])
       (VMap [(lit "x", VArr [VNone]); (lit "b", VMap [(lit "k", VMap [])])]) =
     Done (DStruct [(lit "a", DNone); (lit "b", DMap [(DStr (lit "k"), DValue (VMap []))])]).
Proof.
  repeat match goal with |- _ /\ _ => split end; try reflexivity.
  - constructor. discriminate.
  - apply (HrKind HTuple (VInt 1) (lit "Array")). right; left. split; [right; left; reflexivity|]. split; [intros [? [=]]|reflexivity].
  - right; right; reflexivity.
Qed.
