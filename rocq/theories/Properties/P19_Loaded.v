(** C90: a loaded configuration can be saved and loaded again. *)
From Coq Require Import ZArith Bool String.
From Coq Require Import List.
Import ListNotations.
From Verif.Model Require Import Text Num Flt Value Convert Serde.
From Verif.Spec Require Import Spec Numerals SerdeSpec.
From Verif.Proofs Require Import Basics SerProofs DeProofs SerdeMore RoundTrip Loaded.
Open Scope Z_scope.

(** Whatever a load hands over is a datum of the type asked for: integers in
    range, floats valid, maps with distinct keys. *)
Theorem C90_loaded_data_have_their_type : forall t v d, round_trips t -> wf v -> de t v = Done d -> has_type t d.
Proof. intros t v d R. exact (loaded_typed t R v d). Qed.
Print Assumptions C90_loaded_data_have_their_type.

(** It can be saved exactly when no Value inside it holds a 128-bit integer. *)
Theorem C90_loaded_data_can_be_saved : forall t v d, round_trips t -> wf v -> de t v = Done d ->
  (~ data_wide d <-> exists saved, ser d = Done saved).
Proof. exact loaded_saves. Qed.
Print Assumptions C90_loaded_data_can_be_saved.

(** What is saved (listed in any order) loads as the same datum, and saving that
    gives the same Value again. *)
Theorem C90_saved_data_load_and_save_alike : forall t v d saved saved', round_trips t -> wf v ->
  de t v = Done d -> ser d = Done saved -> vequiv saved saved' -> uniq saved' ->
  exists d', de t saved' = Done d' /\ data_equiv d d' /\ exists again, ser d' = Done again /\ vequiv saved again.
Proof. exact loaded_again. Qed.
Print Assumptions C90_saved_data_load_and_save_alike.

(** A saved struct holds exactly the names of its fields: keys the type does not
    know are lost, missing optional fields appear. *)
Theorem C90_saved_struct_has_exactly_its_fields : forall fs v d saved, round_trips (TStruct fs) -> wf v ->
  de (TStruct fs) v = Done d -> ser d = Done saved ->
  forall k, In k (map fst fs) <-> exists x, holds saved k x.
Proof. exact loaded_struct_keys. Qed.
Print Assumptions C90_saved_struct_has_exactly_its_fields.

(** struct { port: u16, ratio: f32, label: Option<String> } from a configuration
    with numbers in quotes, an unknown key and no label. *)
Definition lx_ty : ty := TStruct
  [(lit "port", TInt U16); (lit "tls", TBool); (lit "label", TOption TString)].
Definition lx_value : value := VMap
  [(lit "port", VStr (lit "8080")); (lit "tls", VInt 1); (lit "extra", VArr [VInt 1])].
Definition lx_datum : data := DStruct
  [(lit "port", DInt U16 8080); (lit "tls", DBool true); (lit "label", DNone)].
Example C90_example : round_trips lx_ty /\ wf lx_value /\ de lx_ty lx_value = Done lx_datum /\
  ser lx_datum = Done (VMap [(lit "port", VUInt 8080); (lit "tls", VBool true); (lit "label", VNone)]).
Proof.
  split; [|split; [|split; reflexivity]].
  - constructor; [repeat constructor; cbn; intuition discriminate|].
    cbn. intros n t [[= <- <-]|[[= <- <-]|[[= <- <-]|[]]]]; repeat (constructor; auto).
  - apply wf_map. split; [repeat constructor; cbn; intuition discriminate|].
    intros k x [[= <- <-]|[[= <- <-]|[[= <- <-]|[]]]]; (split; [reflexivity|]); try reflexivity.
    apply wf_arr. intros x [<-|[]]; reflexivity.
Qed.
