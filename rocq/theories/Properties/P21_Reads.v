(** C92: what each type reads from each Value, and why it refuses. *)
From Coq Require Import ZArith Bool String Lia.
From Coq Require Import List.
Import ListNotations.
From Verif.Model Require Import Text Num Flt Value Convert Serde.
From Verif.Spec Require Import Spec Numerals SerdeSpec ReadSpec.
From Verif.Proofs Require Import Basics Conversions SerProofs DeProofs SerdeMore RoundTrip Loaded ReadAs.

(** What is handed over is what [reads_as] says, and conversely (listed in some order). *)
Theorem C92_reads_exactly_this : forall t v, proper t -> uniq v ->
  (forall d, de t v = Done d -> reads_as t v d) /\
  (forall d, reads_as t v d -> exists d', de t v = Done d' /\ data_equiv d d').
Proof. intros t v P U. exact (de_reads t P v U). Qed.
Print Assumptions C92_reads_exactly_this.

(** What is refused, and with which error, is what [refuses] says. *)
Theorem C92_refuses_exactly_this : forall t v e, proper t -> uniq v -> (de t v = Fail e <-> refuses t v e).
Proof. intros t v e P U. now apply de_refuses. Qed.
Print Assumptions C92_refuses_exactly_this.

(** Without enums and byte strings one of the two always happens. *)
Theorem C92_read_or_refused : forall t v, proper t -> uniq v -> no_enum t ->
  ((exists d, reads_as t v d) \/ exists e, refuses t v e) /\ ~ ((exists d, reads_as t v d) /\ exists e, refuses t v e).
Proof.
  intros t v P U N. pose proof (read_iff t v P U) as R. pose proof (de_refuses t P v) as F. split.
  - destruct (de t v) as [d|e|] eqn:E; [left; apply R; eauto | right; exists e; now apply F|].
    exfalso. revert E. now apply de_no_panic.
  - intros [H (e & He)]. apply R in H as (d & Hd). apply F in He; auto. congruence.
Qed.
Print Assumptions C92_read_or_refused.

(** The error does not depend on how the specification is derived: it is unique. *)
Theorem C92_one_error : forall t v e e', proper t -> uniq v -> refuses t v e -> refuses t v e' -> e = e'.
Proof. intros t v e e' P U H H'. apply (de_refuses t P v _ U) in H. apply (de_refuses t P v _ U) in H'. congruence. Qed.
Print Assumptions C92_one_error.

(** A pair of a count and a list of optional names, in a struct with an optional remark. *)
Definition rd_type : ty := TStruct [(lit "pair", TTuple [TInt U8; TSeq (TOption TString)]); (lit "remark", TOption TUnit);
  (lit "by", TMap (TInt U8) TBool)].
Definition rd_value (n : Z) (rest : list (str * value)) : value := VMap
  [(lit "other", VBool true); (lit "pair", VArr [VInt n; VArr [VNone; VInt 7]; VNone]); (lit "by", VMap rest)].
Example C92_example : proper rd_type
  /\ reads_as rd_type (rd_value 255 [(lit "1", VInt 0); (lit "+1", VBool true)])
       (DStruct [(lit "pair", DTuple [DInt U8 255; DSeq [DNone; DSome (DStr (lit "7"))]]); (lit "remark", DNone);
                 (lit "by", DMap [(DInt U8 1, DBool true)])])
  /\ refuses (TStruct [(lit "a", TNewtype (TTupleStruct (lit "P") [TBool; TUnit]))]) (VMap [(lit "a", VArr [VBool true])])
       (EDeserialization (lit "invalid length 1, expected tuple struct P with 2 elements"))
  /\ refuses rd_type (VMap [(lit "pair", VArr [VInt 1; VArr []])]) (EDeserialization (lit "missing field `by`"))
  /\ refuses (TOption TUnit) (VInt 3) (EDeserialization (lit "Can't deserialize 3 to None")).
Proof.
  assert (P : proper rd_type).
  { apply PrStruct; [repeat constructor; cbn; intuition discriminate|].
    intros n t [[= <- <-]|[[= <- <-]|[[= <- <-]|[]]]].
    - apply PrTuple. intros t [<-|[<-|[]]]; [now apply PrFlat | apply PrSeq, PrOption; now apply PrFlat].
    - apply PrOption; now apply PrFlat.
    - apply PrMap; [constructor; cbn; tauto | now apply PrFlat]. }
  assert (P2 : proper (TStruct [(lit "a", TNewtype (TTupleStruct (lit "P") [TBool; TUnit]))])).
  { apply PrStruct; [repeat constructor; cbn; tauto|]. intros n t [[= <- <-]|[]]. apply PrNewtype, PrTupleStruct.
    intros t [<-|[<-|[]]]; now apply PrFlat. }
  assert (U : forall m, NoDup (map fst m) -> Forall (fun e => uniq (snd e)) m -> uniq (VMap m)).
  { intros m N F. apply UMap; auto. intros k x H. rewrite Forall_forall in F. exact (F (k, x) H). }
  assert (UA : forall l, Forall uniq l -> uniq (VArr l)) by (intros l F; apply UArr, Forall_forall, F).
  Ltac ux U UA := repeat first [ apply UScalar; exact I | apply U | apply UA | constructor; try (cbn; intuition discriminate) ].
  split; [exact P|]. split; [|split; [|split]].
  - apply (de_reads rd_type P); [unfold rd_value; ux U UA | reflexivity].
  - apply (de_refuses _ P2); [unfold rd_value; ux U UA | reflexivity].
  - apply (de_refuses _ P); [unfold rd_value; ux U UA | reflexivity].
  - apply (de_refuses (TOption TUnit)); [apply PrOption; now apply PrFlat | now apply UScalar | reflexivity].
Qed.
