(** C55-C67: the serde integration of Value. *)
From Coq Require Import ZArith Bool String Lia List.
Import ListNotations.
From Verif.Model Require Import Text Num Flt Value Convert Serde.
From Verif.Spec Require Import Spec Numerals SerdeSpec.
From Verif.Proofs Require Import Basics Conversions SerProofs DeProofs RoundTrip SerdeMore.
Open Scope Z_scope.

(** ** C55 *)
Theorem C55_value_to_value_is_identity : forall v, uniq v -> ~ has_wide v -> ser (DValue v) = Done v.
Proof. exact ser_value_identity. Qed.
Print Assumptions C55_value_to_value_is_identity.

Theorem C55_wide_integers_fail : forall v, uniq v -> has_wide v ->
  exists t, has_wide_of t v /\ ser (DValue v) = Fail (ESerialization (type_name t ++ lit " is not supported")).
Proof. exact ser_value_wide. Qed.
Print Assumptions C55_wide_integers_fail.

Definition sx_deep (leaf : value) : value :=
  VMap [(lit "a", VArr [VNone; VBool true; VMap [(lit "b", leaf)]]); (lit "c", VStr (lit "x"))].
Lemma sx_deep_uniq leaf : scalarv leaf -> uniq (sx_deep leaf).
Proof.
  intros S. unfold sx_deep. apply UMap.
  - repeat constructor; cbn; intuition discriminate.
  - intros k x [[= <- <-]|[[= <- <-]|[]]]; [|now constructor]. apply UArr.
    intros x [<-|[<-|[<-|[]]]]; try (now constructor). apply UMap.
    + repeat constructor; cbn; tauto.
    + intros k x [[= <- <-]|[]]; now constructor.
Qed.
Example C55_example_ok : uniq (sx_deep (VUInt 7)) /\ ~ has_wide (sx_deep (VUInt 7)).
Proof.
  split; [now apply sx_deep_uniq|]. intros H. inversion H as [| | |? k x Hin Hx]; subst.
  destruct Hin as [[= <- <-]|[[= <- <-]|[]]]; [|inversion Hx].
  inversion Hx as [| |? y Hy Hw|]; subst. destruct Hy as [<-|[<-|[<-|[]]]]; try (inversion Hw; fail).
  inversion Hw as [| | |? k' x' Hin' Hx']; subst. destruct Hin' as [[= <- <-]|[]]. inversion Hx'.
Qed.
Example C55_example_wide : uniq (sx_deep (VLong 7)) /\ has_wide (sx_deep (VLong 7)).
Proof.
  split; [now apply sx_deep_uniq|].
  eapply HwMap; [left; reflexivity|]. eapply HwArr; [right; right; left; reflexivity|].
  eapply HwMap; [left; reflexivity|]. constructor.
Qed.

(** ** C56 *)
Theorem C56_value_from_value_is_identity : forall v, uniq v -> de TValue v = Done (DValue v).
Proof. intros v U. cbn [de]. rewrite de_value_identity by auto. reflexivity. Qed.
Print Assumptions C56_value_from_value_is_identity.
Example C56_example : uniq (sx_deep (VULong 7)).
Proof. now apply sx_deep_uniq. Qed.

(** ** C57.  The serialised Value may be listed in any order before it is read
    back. *)
Theorem C57_typed_data_survives : forall t d, round_trips t -> has_type t d -> ~ data_wide d ->
  exists v, ser d = Done v /\
    forall v', vequiv v v' -> uniq v' ->
      exists d', de t v' = Done d' /\ has_type t d' /\ data_equiv d d'.
Proof.
  intros t d R H W. destruct (round_trip t R d H W) as (v & E & _ & S). eauto.
Qed.
Print Assumptions C57_typed_data_survives.

Theorem C57_map_free_data_survives_exactly : forall t d, round_trips t -> map_free t -> has_type t d -> ~ data_wide d ->
  exists v, ser d = Done v /\ de t v = Done d.
Proof.
  intros t d R M H W. destruct (round_trip t R d H W) as (v & E & U & S). exists v; split; auto.
  destruct (S v (vequiv_refl v) U) as (d' & D & H' & Eq). rewrite D. f_equal. symmetry. eapply map_free_equal; eauto.
Qed.
Print Assumptions C57_map_free_data_survives_exactly.

(** struct { name: String, ports: Vec<u16>, limits: HashMap<i32, Option<f32>>, pair: (bool, char) } *)
Definition sx_ty : ty := TStruct
  [(lit "name", TString); (lit "ports", TSeq (TInt U16));
   (lit "limits", TMap (TInt I32) (TOption TF32)); (lit "pair", TTuple [TBool; TChar])].
Definition sx_datum : data := DStruct
  [(lit "name", DStr (lit "srv")); (lit "ports", DSeq [DInt U16 80; DInt U16 443]);
   (lit "limits", DMap [(DInt I32 (-1), DSome (DF32 (f64_to_f32 (f64_of_Z 2)))); (DInt I32 5, DNone)]);
   (lit "pair", DTuple [DBool true; DChar 65])].
Lemma sx_datum_uniq : data_uniq sx_datum.
Proof.
  apply DuStruct. cbn. intros n d [[= <- <-]|[[= <- <-]|[[= <- <-]|[[= <- <-]|[]]]]]; try (apply DuScalar; exact I).
  - apply DuSeq. intros d [<-|[<-|[]]]; apply DuScalar; exact I.
  - apply DuMap. intros a b [[= <- <-]|[[= <- <-]|[]]]; (split; [apply DuScalar; exact I|]); [apply DuSome|]; apply DuScalar; exact I.
  - apply DuTuple. intros d [<-|[<-|[]]]; apply DuScalar; exact I.
Qed.
Example C57_example : round_trips sx_ty /\ has_type sx_ty sx_datum /\ ~ data_wide sx_datum /\
  exists v, ser sx_datum = Done v /\ de sx_ty v = Done sx_datum.
Proof.
  split; [|split; [|split]].
  - constructor; [repeat constructor; cbn; intuition discriminate|].
    cbn. intros n t [[= <- <-]|[[= <- <-]|[[= <- <-]|[[= <- <-]|[]]]]]; repeat (constructor; auto).
    cbn. intros t [<-|[<-|[]]]; constructor.
  - apply HtStruct; [reflexivity|]. cbn [map fst snd].
    apply Forall2_cons; [constructor|]. apply Forall2_cons.
    { apply HtSeq. intros d [<-|[<-|[]]]; apply HtInt; cbv; intuition discriminate. }
    apply Forall2_cons.
    { apply HtMap.
      - apply KtInt. exact (fun x => x).
      - repeat constructor; cbn; intuition discriminate.
      - intros a b [[= <- <-]|[[= <- <-]|[]]]; (split; [apply HtInt; cbv; intuition discriminate|]); repeat constructor. }
    apply Forall2_cons; [|constructor]. apply HtTuple. repeat constructor.
  - pose proof (ser_exact _ sx_datum_uniq) as S. unfold ser_summary in S.
    destruct (ser sx_datum) as [v|e|] eqn:E; [tauto | discriminate | discriminate].
  - eexists; split; reflexivity.
Qed.

(** ** C58 *)
Theorem C58_every_value_into_an_enum_panics : forall v, de TEnum v = Panic.
Proof. reflexivity. Qed.
Print Assumptions C58_every_value_into_an_enum_panics.

Theorem C58_no_enum_survives : forall t d v, distinct_fields t -> has_type t d -> has_enum d ->
  ser d = Done v -> forall d', de t v <> Done d'.
Proof. intros t d v DF H E S. eapply enum_never_survives; eauto. Qed.
Print Assumptions C58_no_enum_survives.

(** Serialising the enums themselves works. *)
Example C58_example :
  has_type (TSeq TEnum) (DSeq [DUnitVariant (lit "A"); DStructVariant (lit "B") [(lit "x", DInt U8 1)]]) /\
  ser (DSeq [DUnitVariant (lit "A"); DStructVariant (lit "B") [(lit "x", DInt U8 1)]]) =
    Done (VArr [VStr (lit "A"); VMap [(lit "B", VMap [(lit "x", VUInt 1)])]]) /\
  distinct_fields (TSeq TEnum) /\ has_enum (DSeq [DUnitVariant (lit "A"); DStructVariant (lit "B") [(lit "x", DInt U8 1)]]).
Proof.
  split; [constructor; intros d [<-|[<-|[]]]; repeat constructor|]. split; [reflexivity|].
  split; [apply DfSeq; now apply DfFlat|]. eapply HeSeq; [left; reflexivity | apply HeHere; constructor].
Qed.

(** ** C59 *)
Theorem C59_deserialisation_never_panics : forall t v, no_enum t -> de t v <> Panic.
Proof. intros t v N. now apply de_no_panic. Qed.
Print Assumptions C59_deserialisation_never_panics.
Theorem C59_bytes_always_panic : forall v, de TBytes v = Panic.
Proof. reflexivity. Qed.
Print Assumptions C59_bytes_always_panic.
Example C59_example : no_enum sx_ty.
Proof.
  constructor. cbn. intros n t [[= <- <-]|[[= <- <-]|[[= <- <-]|[[= <- <-]|[]]]]]; repeat constructor.
  cbn. intros t [<-|[<-|[]]]; constructor.
Qed.

(** ** C60 *)
Theorem C60_scalars_agree_with_try_into : forall v,
  agrees (de TBool v) (into_bool v) DBool
  /\ (forall t, ~ wide t -> agrees (de (TInt t) v) (into_int t v) (DInt t))
  /\ agrees (de TF64 v) (into_f64 v) DF64
  /\ agrees (de TF32 v) (into_f64 v) (fun f => DF32 (f64_to_f32 f))
  /\ agrees (de TChar v) (into_char v) DChar
  /\ agrees (de TString v) (into_string v) DStr.
Proof.
  intros v. cbn [de]. unfold agrees.
  repeat split; try (match goal with |- context [of_result ?r] => destruct r end; reflexivity).
  intros t W. unfold de_int. destruct t; cbn in W; try tauto; match goal with |- context [of_result ?r] => destruct r end; reflexivity.
Qed.
Print Assumptions C60_scalars_agree_with_try_into.
Theorem C60_wide_integers_never_deserialise : forall t v, wide t -> exists msg, de (TInt t) v = Fail (EDeserialization msg).
Proof. intros t v W; destruct t; cbn in W; try tauto; eexists; reflexivity. Qed.
Print Assumptions C60_wide_integers_never_deserialise.
Example C60_example : de (TInt U8) (VStr (lit "12")) = Done (DInt U8 12)
  /\ (exists e, de (TInt U8) (VInt 300) = Fail e) /\ (exists e, de (TInt I128) (VLong 1) = Fail e).
Proof. repeat split; eexists; reflexivity. Qed.

(** ** C61 *)
Theorem C61_struct_success : forall fs v ds, NoDup (map fst fs) -> uniq v -> mapv v ->
  (de (TStruct fs) v = Done ds <->
   exists l, ds = DStruct l /\ Forall2 (field_becomes (fun t x d => de t x = Done d) v) fs l).
Proof. intros. now apply struct_iff. Qed.
Print Assumptions C61_struct_success.

Theorem C61_only_named_fields_matter : forall fs v v' ds, NoDup (map fst fs) -> uniq v -> uniq v' -> mapv v -> mapv v' ->
  (forall n x, In n (map fst fs) -> (holds v n x <-> holds v' n x)) ->
  de (TStruct fs) v = Done ds -> de (TStruct fs) v' = Done ds.
Proof. intros. now apply struct_only_fields with v. Qed.
Print Assumptions C61_only_named_fields_matter.

Theorem C61_missing_field_is_an_error : forall fs v n t, NoDup (map fst fs) -> uniq v -> mapv v ->
  no_enum (TStruct fs) -> In (n, t) fs -> lacks v n -> (forall u, t <> TOption u) ->
  exists e, de (TStruct fs) v = Fail e.
Proof.
  intros fs v n t ND U M NE Hn L NO. pose proof (de_no_panic _ NE v) as NP.
  destruct (de (TStruct fs) v) as [ds|e|] eqn:E; [exfalso | eauto | congruence].
  apply struct_iff in E as (l & _ & F); auto.
  destruct (Forall2_in_l _ _ _ _ F Hn) as (d & _ & _ & [(x & Hx & _)|(_ & (u & Hu) & _)]); cbn in *.
  - exact (L x Hx).
  - exact (NO u Hu).
Qed.
Print Assumptions C61_missing_field_is_an_error.

Theorem C61_non_maps_are_errors : forall fs v, ~ mapv v -> exists e, de (TStruct fs) v = Fail e.
Proof. intros fs v N. destruct v; try (eexists; reflexivity). destruct N; eexists; reflexivity. Qed.
Print Assumptions C61_non_maps_are_errors.

Example C61_example :
  let fs := [(lit "a", TInt U8); (lit "b", TOption TBool)] in
  de (TStruct fs) (VMap [(lit "zz", VArr []); (lit "a", VStr (lit "7"))])
    = Done (DStruct [(lit "a", DInt U8 7); (lit "b", DNone)])
  /\ (exists e, de (TStruct fs) (VMap [(lit "b", VBool true)]) = Fail e)
  /\ (exists e, de (TStruct fs) (VMap [(lit "a", VInt 7); (lit "b", VArr [])]) = Fail e).
Proof. repeat split; eexists; reflexivity. Qed.

(** ** C62 *)
Theorem C62_sequences : forall t v ds, de (TSeq t) v = Done ds <->
  exists l r, v = VArr l /\ ds = DSeq r /\ Forall2 (fun x d => de t x = Done d) l r.
Proof. exact seq_iff. Qed.
Print Assumptions C62_sequences.
Theorem C62_tuples : forall ts v ds, de (TTuple ts) v = Done ds <->
  exists first rest r, v = VArr (first ++ rest) /\ ds = DTuple r /\
    List.length first = List.length ts /\ Forall2 (fun tx d => de (fst tx) (snd tx) = Done d) (combine ts first) r.
Proof. exact tuple_iff. Qed.
Print Assumptions C62_tuples.
Theorem C62_short_or_non_arrays_are_errors : forall ts v,
  (forall l, v = VArr l -> (List.length l < List.length ts)%nat) -> (forall t, In t ts -> no_enum t) ->
  exists e, de (TTuple ts) v = Fail e.
Proof.
  intros ts v H NE. pose proof (de_no_panic (TTuple ts) (NeTuple ts NE) v) as NP.
  destruct (de (TTuple ts) v) as [ds|e|] eqn:E; [exfalso | eauto | congruence].
  apply tuple_iff in E as (a & b & r & -> & _ & L & _). specialize (H _ eq_refl). rewrite app_length in H. lia.
Qed.
Print Assumptions C62_short_or_non_arrays_are_errors.
Theorem C62_non_arrays_are_no_sequences : forall t v, ~ arrayv v -> exists e, de (TSeq t) v = Fail e.
Proof. intros t v N. destruct v; try (eexists; reflexivity). destruct N; eexists; reflexivity. Qed.
Print Assumptions C62_non_arrays_are_no_sequences.
Example C62_example :
  de (TTuple [TBool; TString]) (VArr [VInt 1; VInt 2; VInt 3]) = Done (DTuple [DBool true; DStr (lit "2")])
  /\ (exists e, de (TTuple [TBool; TString]) (VArr [VInt 1]) = Fail e)
  /\ de (TSeq TString) (VArr [VInt 1; VBool true]) = Done (DSeq [DStr (lit "1"); DStr (lit "true")]).
Proof. repeat split; try reflexivity. eexists; reflexivity. Qed.

(** ** C63 *)
Theorem C63_entries_are_stored_under_their_key_text : forall tk tv m v,
  has_type (TMap tk tv) (DMap m) -> ser (DMap m) = Done v ->
  (forall a b, In (a, b) m -> exists s x, key_text a s /\ ser b = Done x /\ holds v s x)
  /\ (forall s x, holds v s x -> exists a b, In (a, b) m /\ key_text a s /\ ser b = Done x)
  /\ v_len v = List.length m.
Proof. exact ser_map_stored. Qed.
Print Assumptions C63_entries_are_stored_under_their_key_text.
Theorem C63_distinct_keys_have_distinct_texts : forall t a b s, key_type t -> has_type t a -> has_type t b ->
  key_text a s -> key_text b s -> a = b.
Proof. exact key_text_inj. Qed.
Print Assumptions C63_distinct_keys_have_distinct_texts.
Theorem C63_textless_keys_fail : forall m a b, data_uniq (DMap m) -> In (a, b) m -> textless a ->
  exists e, ser (DMap m) = Fail e.
Proof.
  intros m a b U H T. pose proof (ser_exact _ U) as S. unfold ser_summary in S.
  destruct (ser (DMap m)) as [v|e|]; [|eauto|tauto]. destruct S as (_ & S & _). destruct S. eapply BkHere; eauto.
Qed.
Print Assumptions C63_textless_keys_fail.
Example C63_example :
  has_type (TMap (TInt I16) TBool) (DMap [(DInt I16 (-3), DBool true); (DInt I16 12, DBool false)]) /\
  ser (DMap [(DInt I16 (-3), DBool true); (DInt I16 12, DBool false)]) =
    Done (VMap [(lit "-3", VBool true); (lit "12", VBool false)]) /\
  textless (DSome DUnit) /\ (exists e, ser (DMap [(DSome DUnit, DBool true)]) = Fail e).
Proof.
  split; [|split; [reflexivity | split; [repeat constructor | eexists; reflexivity]]].
  constructor; [now constructor | repeat constructor; cbn; intuition discriminate|].
  intros a b [[= <- <-]|[[= <- <-]|[]]]; (split; [apply HtInt; cbv; intuition discriminate | constructor]).
Qed.

(** ** C64 *)
Theorem C64_nested_option_collapses_refuted : forall t,
  has_type (TOption (TOption t)) (DSome DNone) /\
  ser (DSome DNone) = Done VNone /\ ser DNone = Done VNone /\
  de (TOption (TOption t)) VNone = Done DNone /\ DNone <> DSome DNone.
Proof. intros t. repeat split; try reflexivity; [repeat constructor | discriminate]. Qed.
Print Assumptions C64_nested_option_collapses_refuted.
(** No Value at all deserialises to Some(None). *)
Theorem C64_some_none_is_never_deserialised : forall t v, de (TOption (TOption t)) v <> Done (DSome DNone).
Proof.
  intros t v H. cbn [de] in H. destruct v; try discriminate;
    apply obind_done in H as (d & H & [= ->]); apply obind_done in H as (d' & _ & H); discriminate.
Qed.
Print Assumptions C64_some_none_is_never_deserialised.
Theorem C64_plain_option_survives : forall t d, round_trips t -> never_none t -> has_type (TOption t) d -> ~ data_wide d ->
  exists v, ser d = Done v /\ exists d', de (TOption t) v = Done d' /\ data_equiv d d'.
Proof.
  intros t d R N H W. destruct (round_trip (TOption t) (RtOption t R N) d H W) as (v & E & U & S).
  exists v; split; auto. destruct (S v (vequiv_refl v) U) as (d' & D & _ & Eq). eauto.
Qed.
Print Assumptions C64_plain_option_survives.
Example C64_example : round_trips (TSeq TUnit) /\ never_none (TSeq TUnit) /\ has_type (TOption (TSeq TUnit)) (DSome (DSeq [DUnit]))
  /\ de (TOption (TSeq TUnit)) (VArr [VNone]) = Done (DSome (DSeq [DUnit])).
Proof. repeat split; repeat constructor. intros d [<-|[]]; constructor. Qed.

(** ** C65 *)
Theorem C65_order_is_irrelevant_for_text_keys : forall t v v' d, text_maps t -> vequiv v v' -> uniq v -> uniq v' ->
  de t v = Done d -> exists d', de t v' = Done d' /\ data_equiv d d'.
Proof. intros t v v' d T E U U' D. eapply de_order; eauto. Qed.
Print Assumptions C65_order_is_irrelevant_for_text_keys.
(** With other keys it does matter. *)
Theorem C65_order_matters_for_other_keys_refuted : exists v v',
  vequiv v v' /\ uniq v /\ uniq v' /\
  exists d d', de (TMap (TInt U8) TString) v = Done d /\ de (TMap (TInt U8) TString) v' = Done d' /\ ~ data_equiv d d'.
Proof.
  exists (VMap [(lit "1", VStr (lit "x")); (lit "+1", VStr (lit "y"))]),
         (VMap [(lit "+1", VStr (lit "y")); (lit "1", VStr (lit "x"))]).
  split; [|split; [|split]].
  - apply EqvMap; cbn; intros k x [[= <- <-]|[[= <- <-]|[]]]; eexists; (split; [|constructor; exact I]); auto.
  - apply UMap; [repeat constructor; cbn; intuition discriminate|]. intros k x [[= <- <-]|[[= <- <-]|[]]]; now constructor.
  - apply UMap; [repeat constructor; cbn; intuition discriminate|]. intros k x [[= <- <-]|[[= <- <-]|[]]]; now constructor.
  - exists (DMap [(DInt U8 1, DStr (lit "y"))]), (DMap [(DInt U8 1, DStr (lit "x"))]).
    split; [reflexivity|]. split; [reflexivity|]. intros H. inversion H as [? S| | | |? ? A B| | | |]; subst.
    destruct (A _ _ (or_introl eq_refl)) as (b & [[= <-]|[]] & E). inversion E.
Qed.
Print Assumptions C65_order_matters_for_other_keys_refuted.
Example C65_example : text_maps (TMap TString (TMap (TNewtype TString) (TInt U8))).
Proof. repeat constructor. Qed.

(** ** C66 *)
Theorem C66_serialisation_succeeds_exactly_when : forall d, data_uniq d ->
  ((exists v, ser d = Done v) <-> ~ data_wide d /\ ~ data_bad_key d) /\ ser d <> Panic.
Proof.
  intros d U. pose proof (ser_exact d U) as S. unfold ser_summary in S.
  destruct (ser d) as [v|[]|] eqn:E; try tauto; (split; [|discriminate]).
  - split; [tauto | eauto].
  - split; [intros [? ?]; discriminate | tauto].
  - split; [intros [? ?]; discriminate | tauto].
Qed.
Print Assumptions C66_serialisation_succeeds_exactly_when.
Theorem C66_the_error_names_the_cause : forall d e, data_uniq d -> ser d = Fail e ->
  (data_wide d /\ exists msg, e = ESerialization msg)
  \/ (data_bad_key d /\ exists kind, e = EConversion kind (lit "String") (lit "conversion not supported")).
Proof.
  intros d e U E. pose proof (ser_exact d U) as S. unfold ser_summary in S. rewrite E in S.
  destruct e; try tauto; [left; eauto | right]. destruct S as (? & -> & ->). eauto.
Qed.
Print Assumptions C66_the_error_names_the_cause.
Example C66_example : data_uniq sx_datum /\ data_wide (DSome (DInt I128 5))
  /\ (exists e, ser (DSome (DInt I128 5)) = Fail e) /\ data_bad_key (DSeq [DMap [(DUnit, DUnit)]]).
Proof.
  split; [|split; [repeat constructor | split; [eexists; reflexivity|]]].
  - exact sx_datum_uniq.
  - eapply BkSeq; [left; reflexivity|]. eapply BkHere; [left; reflexivity | constructor].
Qed.

(** ** C67: how a visitor may talk to a map. *)
Theorem C67_map_access_panics_exactly_when_overrun : forall cs m,
  map_access_run m cs = Panic <-> (List.length m < values_asked cs)%nat.
Proof. exact map_access_panics. Qed.
Print Assumptions C67_map_access_panics_exactly_when_overrun.
Theorem C67_map_access_replies : forall cs m rs m', map_access_run m cs = Done (rs, m') ->
  m' = skipn (values_asked cs) m /\ List.length rs = List.length cs /\
  forall i c, nth_error cs i = Some c ->
    nth_error rs i = Some match c with
      | NextKey => RKey match nth_error m (values_asked (firstn i cs)) with Some e => Some (VStr (fst e)) | None => None end
      | NextValue => RValue match nth_error m (values_asked (firstn i cs)) with Some e => snd e | None => VNone end
      end.
Proof. exact map_access_skip. Qed.
Print Assumptions C67_map_access_replies.
Example C67_example :
  map_access_run [(lit "a", VInt 1); (lit "b", VInt 2)] [NextKey; NextKey; NextValue; NextValue; NextKey] =
    Done ([RKey (Some (VStr (lit "a"))); RKey (Some (VStr (lit "a"))); RValue (VInt 1); RValue (VInt 2); RKey None], [])
  /\ map_access_run [(lit "a", VInt 1)] [NextValue; NextValue] = Panic.
Proof. split; reflexivity. Qed.
