(** C69: what a serialised datum looks like; C09 and C60 for f32. *)
From Coq Require Import ZArith Reals Bool String Lia.
From Coq Require Import Floats.SpecFloat.
From Coq Require Import List.
Import ListNotations.
From Verif.Model Require Import Text Num Flt Value Convert Serde.
From Verif.Spec Require Import Spec Numerals SerdeSpec FloatSpec ShapeSpec.
From Verif.Proofs Require Import Basics Float32 Shape.
Open Scope Z_scope.

(** ** C09, f32: the Value holds exactly the same number. *)
Theorem C09_f32_is_the_same_number : forall f, f32_valid f = true ->
  exists g, from_f32 f = VFloat g /\ widens f g.
Proof. intros f V. exists (f32_to_f64 f). split; [reflexivity | now apply f32_widens]. Qed.
Print Assumptions C09_f32_is_the_same_number.
(** The smallest positive f32 (a subnormal) and 0.1f32. *)
Example C09_f32_example : f32_valid (S754_finite false 1 (-149)) = true
  /\ f32_valid (S754_finite true 13421773 (-27)) = true.
Proof. split; reflexivity. Qed.

(** ** C60, f32: the f64 conversion correctly rounded to f32. *)
Theorem C60_f32_is_the_f64_rounded : forall v,
  (forall f, into_f64 v = Ok f -> exists g, de TF32 v = Done (DF32 g) /\ narrows f g)
  /\ (forall e, into_f64 v = Err e -> de TF32 v = Fail e).
Proof.
  intros v. split; intros x E; cbn [de]; rewrite E; cbn; [|reflexivity].
  exists (f64_to_f32 x). split; [reflexivity | apply f64_to_f32_narrows].
Qed.
Print Assumptions C60_f32_is_the_f64_rounded.
Example C60_f32_example : de TF32 (VStr (lit "1e39")) = Done (DF32 (S754_infinity false))
  /\ de TF32 (VInt 16777217) = Done (DF32 (S754_finite false 8388608 1)).
Proof. split; vm_compute; reflexivity. Qed.

(** ** C69 *)
Theorem C69_serialised_shape : forall d v, data_uniq d -> real_f32s d ->
  ser d = Done v -> represents d v.
Proof. intros d v U R E. exact (ser_shape d v U R E). Qed.
Print Assumptions C69_serialised_shape.
Theorem C69_the_shape_determines_the_value : forall d v v',
  represents d v -> represents d v' -> vequiv v v'.
Proof. exact shape_determines. Qed.
Print Assumptions C69_the_shape_determines_the_value.

(** A struct with an f32, an enum, a repeated-text map and an option. *)
Definition c69_datum : data :=
  DStruct [(lit "ratio", DF32 (S754_finite false 8388608 (-24)));
           (lit "mode", DTupleVariant (lit "Pair") [DInt U8 1; DChar 120]);
           (lit "m", DMap [(DInt I8 1, DNone); (DStr (lit "1"), DSome (DBool true))])].
Example C69_example : data_uniq c69_datum /\ real_f32s c69_datum /\
  ser c69_datum = Done (VMap [(lit "ratio", VFloat (S754_finite false 4503599627370496 (-53)));
                              (lit "mode", VMap [(lit "Pair", VArr [VUInt 1; VStr (lit "x")])]);
                              (lit "m", VMap [(lit "1", VBool true)])]).
Proof.
  split; [|split; [|vm_compute; reflexivity]].
  - apply DuStruct. intros n d [[= <- <-]|[[= <- <-]|[[= <- <-]|[]]]].
    + apply DuScalar; exact I.
    + apply DuTupleVariant. intros d [<-|[<-|[]]]; apply DuScalar; exact I.
    + apply DuMap. intros a b [[= <- <-]|[[= <- <-]|[]]]; split; try (apply DuScalar; exact I).
      apply DuSome, DuScalar; exact I.
  - intros f H. inversion H as [| | | | | |? n d ? Hin Hi| | | | |]; subst.
    destruct Hin as [[= <- <-]|[[= <- <-]|[[= <- <-]|[]]]].
    + inversion Hi; subst; reflexivity.
    + inversion Hi as [| | | | | | | | | |? ? d ? Hd Hx|]; subst. destruct Hd as [<-|[<-|[]]]; inversion Hx.
    + inversion Hi as [| | | |? a b ? Hd Hx|? a b ? Hd Hx| | | | | |]; subst;
        destruct Hd as [[= <- <-]|[[= <- <-]|[]]]; inversion Hx; subst;
        match goal with X : inside (DBool _) _ |- _ => inversion X end.
Qed.
