(** C78-C82: whole configurations read into structs, writing back, introspection
    and errors. *)
From Coq Require Import ZArith Bool String Permutation Lia.
From Coq Require Import List.
Import ListNotations.
From Verif.Model Require Import Text Num Flt Value Merge Paths Finder World Layers Config Convert Serde Errors.
From Verif.Spec Require Import Spec MergeSpec ConfigSpec EnvSpec PathSpec SerdeSpec ErrorSpec.
From Verif.Proofs Require Import Basics Merge ConfigBuild Utf8 Env Files SerProofs DeProofs RoundTrip SerdeMore EndToEnd ErrorTexts.
From Verif.Properties Require Import P06_Layers.

(** ** C78.  [c] is [c0] with an environment layer registered last; [fs] are the
    fields of the struct asked for. *)
Theorem C78_struct_fields_come_from_the_environment_or_the_layers :
  forall w c c0 r n prefix p v v0 skip fs ds,
  registered c (r ++ [(n, env_layer_new prefix)]) -> registered c0 r ->
  (forall n' l x, In (n', l) r -> layer_read w l = Ok x -> wf x) ->
  trimmed prefix p -> p <> [] ->
  build_value w c skip = Ok v -> build_value w c0 skip = Ok v0 -> NoDup (map fst fs) ->
  (de (TStruct fs) v = Done ds <->
   exists l, ds = DStruct l /\ Forall2 (fun f d =>
     (exists s, last_exposed p (w_env w) (fst f) s /\ fst d = fst f /\ de (snd f) (VStr s) = Done (snd d))
     \/ ((forall kv s, In kv (w_env w) -> ~ exposes p kv (fst f) s)
         /\ field_becomes (fun t x d => de t x = Done d) v0 f d)) fs l).
Proof. exact typed_with_environment. Qed.
Print Assumptions C78_struct_fields_come_from_the_environment_or_the_layers.

(** One variable whose text the field's type does not accept makes the whole
    struct fail, whatever the other layers say; in particular a variable named
    like a field that is itself a struct, sequence, tuple, map or unit. *)
Theorem C78_one_bad_variable_fails_the_struct :
  forall w c c0 r n prefix p v v0 skip fs k t s,
  registered c (r ++ [(n, env_layer_new prefix)]) -> registered c0 r ->
  (forall n' l x, In (n', l) r -> layer_read w l = Ok x -> wf x) ->
  trimmed prefix p -> p <> [] ->
  build_value w c skip = Ok v -> build_value w c0 skip = Ok v0 -> NoDup (map fst fs) ->
  In (k, t) fs -> last_exposed p (w_env w) k s ->
  (forall d, de t (VStr s) <> Done d) -> no_enum (TStruct fs) ->
  exists e, de (TStruct fs) v = Fail e.
Proof.
  intros w c c0 r n prefix p v v0 skip fs k t s R R0 W T Np B B0 ND I X Bad NE.
  pose proof (de_no_panic _ NE v) as NP. destruct (de (TStruct fs) v) as [ds|e|] eqn:E; [exfalso | eauto | congruence].
  apply (typed_with_environment w c c0 r n prefix p v v0 skip fs ds R R0 W T Np B B0 ND) in E as (l & _ & F).
  destruct (Forall2_in_l _ _ _ _ F I) as (d & _ & [(s' & X' & _ & D)|(N & _)]); cbn [fst snd] in *.
  - rewrite (last_exposed_fun p _ _ s' s Np X' X) in D. exact (Bad _ D).
  - exact (exposed_not_both _ _ _ _ X N).
Qed.
Print Assumptions C78_one_bad_variable_fails_the_struct.

Theorem C78_text_is_no_compound : forall t s,
  match t with
  | TSeq _ | TTuple _ | TMap _ _ | TStruct _ | TTupleStruct _ _ | TUnit | TUnitStruct => True
  | _ => False
  end -> exists e, de t (VStr s) = Fail e.
Proof. exact text_is_not_compound. Qed.
Print Assumptions C78_text_is_no_compound.

(** The defaults are a serialised struct in a memory layer registered first: a
    field none of the other layers mentions comes back as it was. *)
Theorem C78_untouched_fields_keep_their_default :
  forall w c n0 dv r skip v fs ds l k d,
  registered c ((n0, LMemory dv) :: r) ->
  round_trips (TStruct fs) -> has_type (TStruct fs) (DStruct ds) -> ~ data_wide (DStruct ds) ->
  ser (DStruct ds) = Done dv ->
  (forall n' l x, In (n', l) r -> layer_read w l = Ok x -> wf x /\ lacks x k) ->
  build_value w c skip = Ok v -> de (TStruct fs) v = Done (DStruct l) -> In (k, d) ds ->
  exists d', In (k, d') l /\ data_equiv d d'.
Proof. exact untouched_field. Qed.
Print Assumptions C78_untouched_fields_keep_their_default.

(** struct { db: String, port: u16, keep: Option<u8> } over the environment of C32. *)
Definition t78_fields : list (str * ty) :=
  [(lit "db", TString); (lit "port", TInt U16); (lit "keep", TOption (TInt U8))].
Definition t78_default : list (str * data) :=
  [(lit "db", DStr (lit "none")); (lit "port", DInt U16 80); (lit "keep", DSome (DInt U8 7))].
Example C78_example :
  let dv := VMap [(lit "db", VStr (lit "none")); (lit "port", VUInt 80); (lit "keep", VUInt 7)] in
  let r := [(lit "d", LMemory dv)] in
  let r' := r ++ [(lit "e", env_layer_new (lit "APP_"))] in
  let c := {| layers_names := map fst r'; layers := r' |} in
  ser (DStruct t78_default) = Done dv
  /\ registered c r'
  /\ round_trips (TStruct t78_fields) /\ has_type (TStruct t78_fields) (DStruct t78_default)
  /\ ~ data_wide (DStruct t78_default)
  /\ (exists x, layer_read ex_env_world (env_layer_new (lit "APP_")) = Ok x /\ lacks x (lit "keep"))
  /\ exists v, build_value ex_env_world c false = Ok v
     /\ de (TStruct t78_fields) v
        = Done (DStruct [(lit "db", DStr (lit "x")); (lit "port", DInt U16 8080); (lit "keep", DSome (DInt U8 7))]).
Proof.
  cbv zeta. split; [reflexivity|]. split.
  { split; [reflexivity|]. split; [repeat constructor; cbn; intuition discriminate | apply Permutation_refl]. }
  split.
  { apply RtStruct; [repeat constructor; cbn; intuition discriminate|].
    cbn. intros n t [[= <- <-]|[[= <- <-]|[[= <- <-]|[]]]]; repeat (constructor; auto). }
  split.
  { apply HtStruct; [reflexivity|]. cbn [map snd t78_fields t78_default].
    apply Forall2_cons; [constructor|]. apply Forall2_cons; [apply HtInt; cbv; intuition discriminate|].
    apply Forall2_cons; [|constructor]. apply HtSome, HtInt. cbv; intuition discriminate. }
  split.
  { intros H. inversion H as [| | | | | | |fs n d I D| | | | |]; subst. cbn in I.
    destruct I as [[= <- <-]|[[= <- <-]|[[= <- <-]|[]]]]; inversion D; subst; cbn in *; auto.
    match goal with X : data_wide (DInt U8 _) |- _ => inversion X; subst; cbn in *; auto end. }
  split.
  { eexists. split; [reflexivity|]. apply lacks_mget. reflexivity. }
  eexists. split; reflexivity.
Qed.

(** APP_port=http instead: the struct cannot be read at all. *)
Example C78_bad_example :
  (forall d, de (TInt U16) (VStr (lit "http")) <> Done d) /\ no_enum (TStruct t78_fields)
  /\ exists e, de (TStruct t78_fields)
       (VMap [(lit "db", VStr (lit "x")); (lit "port", VStr (lit "http"))]) = Fail e.
Proof.
  split; [intros d; discriminate|]. split; [|eexists; reflexivity].
  apply NeStruct. cbn. intros n t [[= <- <-]|[[= <- <-]|[[= <- <-]|[]]]]; repeat constructor.
Qed.

(** ** C79.  Writing a value to the layer [get_layer] returns and building again
    gives what the layers would give with that file replaced by the written
    value (as the codec reads it back). *)
Theorem C79_a_written_layer_is_built_with_its_new_value :
  forall tc w w' c c' r1 n p r2 v s v' skip,
  registered c (r1 ++ (n, LFile (toml_handler tc) p) :: r2) ->
  registered c' (r1 ++ (n, LMemory v') :: r2) ->
  (forall n' l, In (n', l) (r1 ++ r2) -> built_in tc l /\ forall q, l = LFile (toml_handler tc) q -> ~ same_file w p q) ->
  get_layer c n = Some (LFile (toml_handler tc) p)
  /\ (layer_write w (LFile (toml_handler tc) p) v = (w', Ok tt) ->
      toml_to_string tc v = Ok s -> is_text s = true -> toml_from_str tc s = Ok v' -> w_can_read w p = true ->
      build_value w' c skip = build_value w c' skip).
Proof. exact write_back. Qed.
Print Assumptions C79_a_written_layer_is_built_with_its_new_value.

(** A write that fails, other than by running out of space halfway, changes no build. *)
Theorem C79_a_refused_write_changes_no_build : forall tc w w' c r l v e skip,
  registered c r -> (forall n' l, In (n', l) r -> built_in tc l) -> built_in tc l ->
  layer_write w l v = (w', Err e) -> e <> BIo IoWriteFault -> build_value w' c skip = build_value w c skip.
Proof. exact failed_write_back. Qed.
Print Assumptions C79_a_refused_write_changes_no_build.

Example C79_example :
  let r1 := [(lit "m", LMemory ex_defaults)] in
  let r2 := [(lit "e", env_layer_new (lit "APP_"))] in
  let r := r1 ++ (lit "f", LFile (toml_handler ex_codec) (lit "b.toml")) :: r2 in
  let c := {| layers_names := map fst r; layers := r |} in
  let v := VMap [(lit "x", VInt 1)] in
  let w' := fst (layer_write ex_env_world (LFile (toml_handler ex_codec) (lit "b.toml")) v) in
  registered c r
  /\ (forall n' l, In (n', l) (r1 ++ r2) -> built_in ex_codec l /\ forall q, l = LFile (toml_handler ex_codec) q -> ~ same_file ex_env_world (lit "b.toml") q)
  /\ layer_write ex_env_world (LFile (toml_handler ex_codec) (lit "b.toml")) v = (w', Ok tt)
  /\ build_value w' c false
     = Ok (VMap [(lit "db", VStr (lit "x")); (lit "keep", VInt 1); (lit "x", VInt 1); (lit "port", VStr (lit "8080"))]).
Proof.
  cbv zeta. split.
  { split; [reflexivity|]. split; [repeat constructor; cbn; intuition discriminate | apply Permutation_refl]. }
  split; [|split; reflexivity].
  cbn. intros n' l [[= <- <-]|[[= <- <-]|[]]]; (split; [constructor | discriminate]).
Qed.

(** ** C80: introspection. *)

(** What Debug lists, after any history of additions: the first registration of
    every name, with the kind of its layer, in some order. *)
Theorem C80_debug_lists_the_registered_layers : forall tc ops h r,
  registrations tc ops h -> keeps_first h r ->
  Permutation (debug_layers (config_run tc ops)) (map (fun nl => (fst nl, layer_name (snd nl))) r).
Proof.
  intros tc ops h r H K. destruct (registration_history tc ops h r H K) as [(_ & _ & P) _].
  unfold debug_layers. now apply Permutation_map.
Qed.
Print Assumptions C80_debug_lists_the_registered_layers.

Theorem C80_kinds : forall v prefix h p,
  layer_name (mem_layer_new v) = lit "Memory" /\ layer_name (env_layer_new prefix) = lit "Environment"
  /\ layer_name (file_layer_new h p) = lit "File".
Proof. repeat split. Qed.
Print Assumptions C80_kinds.

(** has_value: a file layer has one exactly when its file exists, the others always. *)
Theorem C80_has_value : forall w v prefix h p,
  layer_has_value w (mem_layer_new v) = true /\ layer_has_value w (env_layer_new prefix) = true
  /\ (layer_has_value w (file_layer_new h p) = true <-> exists node, w_fs w p = Some node)
  /\ file_exists w (file_layer_new h p) = Some (layer_has_value w (file_layer_new h p))
  /\ file_get_path (file_layer_new h p) = Some p.
Proof.
  intros w v prefix h p. split; [reflexivity|]. split; [reflexivity|]. split; [|split; reflexivity].
  cbn. unfold fs_exists. destruct (w_fs w p); split; try discriminate; eauto. intros [x X]; discriminate.
Qed.
Print Assumptions C80_has_value.

(** has_value tells nothing about read_value: an environment layer with a blank
    prefix has a value and never reads, a missing file has none and reads. *)
Theorem C80_has_value_means_readable_refuted : forall w prefix h p, trimmed prefix [] -> w_fs w p = None ->
  (layer_has_value w (env_layer_new prefix) = true /\ exists e, layer_read w (env_layer_new prefix) = Err e)
  /\ (layer_has_value w (file_layer_new h p) = false /\ exists v, layer_read w (file_layer_new h p) = Ok v).
Proof.
  intros w prefix h p T N. split.
  - split; [reflexivity|]. eexists. exact (proj1 (env_layer_blank w prefix VNone T)).
  - cbn. unfold fs_exists. rewrite N. cbn. split; eauto.
Qed.
Print Assumptions C80_has_value_means_readable_refuted.

(** The prefix is kept without surrounding white space, and shown in brackets. *)
Theorem C80_prefix : forall prefix,
  exists p, trimmed prefix p /\ env_get_prefix (env_layer_new prefix) = Some p
    /\ env_display (env_layer_new prefix) = Some (lit "EnvironmentConfigLayer[" ++ p ++ lit "]").
Proof. intros prefix. exists (trim prefix). split; [apply trim_trimmed | split; reflexivity]. Qed.
Print Assumptions C80_prefix.

(** The consuming with_file_layer succeeds and fails with add_file_layer. *)
Theorem C80_with_file_layer : forall tc c name p,
  (forall c', with_file_layer tc c name p = Ok c' <-> add_file_layer tc c name p = (c', Ok tt))
  /\ (forall e, with_file_layer tc c name p = Err e <-> exists c', add_file_layer tc c name p = (c', Err e)).
Proof.
  intros tc c name p. unfold with_file_layer. destruct (add_file_layer tc c name p) as [c1 [[]|e1]].
  - split; [intros c' | intros e]; split; try discriminate; try congruence. intros [c' [= _ X]].
  - split; [intros c' | intros e]; split; try discriminate; [intros [= ->]; eauto | intros [c' [= _ ->]]; auto].
Qed.
Print Assumptions C80_with_file_layer.

Example C80_example : forall tc,
  debug_layers (config_run tc [OpMemory (lit "a") (VInt 1); OpEnv (lit "b") (lit "X_"); OpMemory (lit "a") (VInt 3)])
  = [(lit "a", lit "Memory"); (lit "b", lit "Environment")].
Proof. intros tc. reflexivity. Qed.

(** ** C81: every failing conversion says what could not be converted to what. *)
Theorem C81_conversion_errors_name_source_and_target : forall v e,
  (forall t, into_int t v = Err e -> exists from why, source (ity_name t) v from why /\ e = EConversion from (ity_name t) why)
  /\ (into_bool v = Err e -> exists from why, source (lit "bool") v from why /\ e = EConversion from (lit "bool") why)
  /\ (into_f64 v = Err e -> exists from why, source (lit "f64") v from why /\ e = EConversion from (lit "f64") why)
  /\ (into_string v = Err e -> exists from why, source (lit "String") v from why /\ e = EConversion from (lit "String") why).
Proof.
  intros v e. split; [intros t; apply into_int_error|]. split; [apply into_bool_error|].
  split; [apply into_f64_error | apply into_string_error].
Qed.
Print Assumptions C81_conversion_errors_name_source_and_target.

(** Not so for char: numbers report the target u8, and a u128 reports the
    source i64. *)
Theorem C81_char_labels_refuted : forall z, (z > 255)%Z ->
  into_char (VInt z) = Err (EConversion (lit "i64") (lit "u8") (lit "Number value is out of target bounds"))
  /\ into_char (VULong z) = Err (EConversion (lit "i64") (lit "u8") (lit "Number value is out of target bounds")).
Proof.
  intros z G. unfold into_char, to_number, try_from, in_range. cbn [imin imax].
  destruct (Z.leb_spec z (2 ^ 8 - 1)) as [L|L]; [exfalso; change (2 ^ 8 - 1)%Z with 255%Z in L; lia|].
  rewrite andb_false_r. split; reflexivity.
Qed.
Print Assumptions C81_char_labels_refuted.
Example C81_example : into_int U8 (VStr (lit "x"))
  = Err (EConversion (lit "String") (lit "u8") (lit "can't parse string"))
  /\ into_int I8 (VFloat (f64_of_Z 300)) = Err (EConversion (lit "f64") (lit "i8") (lit "Number value is out of target bounds")).
Proof. split; reflexivity. Qed.

(** ** C82: errors can be told apart. *)
Theorem C82_model_errors_compare_equal_iff_identical : forall a b, model_error_eqb a b = true <-> a = b.
Proof. exact model_error_eqb_iff. Qed.
Print Assumptions C82_model_errors_compare_equal_iff_identical.

(** The text of an error is the documented one. *)
Theorem C82_error_texts : forall io a s, bak_error_display io a = s <-> bak_says io a s.
Proof.
  intros io a s. split.
  - intros <-. destruct a as [e|e|e|e]; constructor; destruct e; constructor.
  - intros H. destruct H as [e|e s H|e s H|e s H]; [reflexivity | | |]; destruct H; reflexivity.
Qed.
Print Assumptions C82_error_texts.
(** The text of an error says which subsystem it comes from ... *)
Theorem C82_the_text_names_the_subsystem : forall io a b, bak_error_display io a = bak_error_display io b ->
  match a, b with
  | BIo _, BIo _ | BModel _, BModel _ | BLayer _, BLayer _ | BFinder _, BFinder _ => True
  | _, _ => False
  end.
Proof. exact bak_text_kind. Qed.
Print Assumptions C82_the_text_names_the_subsystem.

(** ... and, when the operating system's own texts differ, which error it is:
    two errors the API returns have the same text only when they are the same. *)
Theorem C82_different_errors_have_different_texts : forall io a b,
  (forall x y, io x = io y -> x = y) ->
  (forall e, a = BModel e \/ b = BModel e -> plain_labels e) ->
  bak_error_display io a = bak_error_display io b -> a = b.
Proof. exact bak_text_inj. Qed.
Print Assumptions C82_different_errors_have_different_texts.

(** The labels of the conversion errors are plain. *)
Theorem C82_conversion_errors_have_plain_labels : forall v e,
  (exists t, into_int t v = Err e) \/ into_bool v = Err e \/ into_f64 v = Err e
  \/ into_string v = Err e \/ into_char v = Err e ->
  plain_labels e.
Proof.
  intros v e H.
  assert (S : forall to from why, source to v from why -> ~ In 32%Z from).
  { intros to from why S. inversion S; subst; cbn; intuition discriminate. }
  assert (T : forall t, ~ In 58%Z (ity_name t)) by (intros []; cbn; intuition discriminate).
  assert (P : forall from to why, ~ In 32%Z from -> ~ In 58%Z to -> plain_labels (EConversion from to why)).
  { intros from to why A B f t w [= <- <- <-]. auto. }
  destruct H as [[t H]|[H|[H|[H|H]]]].
  - apply into_int_error in H as (f & y & Sf & ->). apply P; [eapply S; eauto | apply T].
  - apply into_bool_error in H as (f & y & Sf & ->). apply P; [eapply S; eauto | cbn; intuition discriminate].
  - apply into_f64_error in H as (f & y & Sf & ->). apply P; [eapply S; eauto | cbn; intuition discriminate].
  - apply into_string_error in H as (f & y & Sf & ->). apply P; [eapply S; eauto | cbn; intuition discriminate].
  - destruct v as [| | | | | | |[]| |]; cbn [into_char] in H; try discriminate H;
      try (apply to_number_error in H as ->; apply P; [cbn; intuition discriminate | apply T]);
      injection H as <-; (apply P; cbn; intuition discriminate).
Qed.
Print Assumptions C82_conversion_errors_have_plain_labels.

Example C82_example :
  bak_error_display (fun _ => []) (BModel (EConversion (lit "String") (lit "u8") (lit "can't parse string")))
  = lit "Model Error: Error converting from String to u8: can't parse string".
Proof. reflexivity. Qed.
