(** C01-C07: the container API of [Value]. *)
From Coq Require Import ZArith List Bool String Permutation.
From Coq Require Import Floats.SpecFloat.
Import ListNotations.
From Verif.Model Require Import Text Num Flt Value Convert.
From Verif.Spec Require Import Spec Containers.
From Verif.Proofs Require Import Basics Containers Display.
Open Scope Z_scope.

(** C01. *)
Theorem C01_set_history_from_empty : forall h v rs,
  set_calls new_map h = (v, rs) ->
  (forall r, In r rs -> r = Ok tt) /\ List.length rs = List.length h
  /\ (forall k x, last_binding h k x -> v_get v k = x)
  /\ (forall k, ~ In k (map fst h) -> v_get v k = VNone)
  /\ v_len v = List.length (nodup str_eq_dec (map fst h)).
Proof. exact set_history_new. Qed.
Print Assumptions C01_set_history_from_empty.

Theorem C01_set_history_from_any_map : forall m h v rs,
  set_calls (VMap m) h = (v, rs) ->
  mapv v /\ (forall r, In r rs -> r = Ok tt) /\ List.length rs = List.length h
  /\ (forall k x, last_binding h k x -> v_get v k = x)
  /\ (forall k, ~ In k (map fst h) -> v_get v k = v_get (VMap m) k).
Proof. exact set_history. Qed.
Print Assumptions C01_set_history_from_any_map.

Theorem C01_set_changes_no_other_key : forall v k k' x v' r,
  v_set v k x = (v', r) -> k' <> k -> v_get v' k' = v_get v k'.
Proof. exact set_other. Qed.
Print Assumptions C01_set_changes_no_other_key.

Example C01_example :
  let h := [(lit "a", VInt 1); (lit "b", VInt 2); (lit "a", VStr (lit "x"))] in
  last_binding h (lit "a") (VStr (lit "x")) /\
  v_get (fst (set_calls new_map h)) (lit "a") = VStr (lit "x") /\
  v_len (fst (set_calls new_map h)) = 2%nat.
Proof.
  cbv zeta; split; [|split; vm_compute; reflexivity].
  exists [(lit "a", VInt 1); (lit "b", VInt 2)], []; split; [reflexivity | auto].
Qed.

(** C02. *)
Theorem C02_push_history : forall l h v rs,
  push_calls (VArr l) h = (v, rs) ->
  (forall r, In r rs -> r = Ok tt) /\ List.length rs = List.length h
  /\ v_len v = (List.length l + List.length h)%nat
  /\ (forall i x, nth_error (l ++ h) i = Some x -> v_at v i = x)
  /\ (forall i, (v_len v <= i)%nat -> v_at v i = VNone)
  /\ (forall n, next_calls (v_iter v) n = map (nth_error (l ++ h)) (seq 0 n)).
Proof. exact push_history. Qed.
Print Assumptions C02_push_history.

Theorem C02_push_history_from_empty : forall h v rs,
  push_calls new_array h = (v, rs) ->
  v = VArr h /\ v_len v = List.length h
  /\ (forall i x, nth_error h i = Some x -> v_at v i = x)
  /\ (forall i, (List.length h <= i)%nat -> v_at v i = VNone)
  /\ (forall extra, next_calls (v_iter v) (List.length h + extra) = map Some h ++ repeat None extra).
Proof. exact push_history_new. Qed.
Print Assumptions C02_push_history_from_empty.

Example C02_example :
  next_calls (v_iter (fst (push_calls new_array [VInt 1; VNone]))) 4
  = [Some (VInt 1); Some VNone; None; None].
Proof. reflexivity. Qed.

(** C03. *)
Theorem C03_wrong_kind_is_harmless : forall v k x i n,
  (~ mapv v -> v_set v k x = (v, Err EMapOnly) /\ v_get v k = VNone)
  /\ (~ arrayv v -> v_push v x = (v, Err EArrayOnly) /\ v_at v i = VNone
                    /\ next_calls (v_iter v) n = repeat None n)
  /\ (scalarv v -> v_len v = match v with
                             | VStr s => List.length (utf8_encode s)
                             | _ => 0%nat
                             end).
Proof. exact wrong_kind. Qed.
Print Assumptions C03_wrong_kind_is_harmless.

(** The kind predicates a caller uses to tell the kinds apart. *)
Theorem C03_kind_predicates : forall v,
  (is_map v = true <-> mapv v) /\ (is_array v = true <-> arrayv v) /\ (is_none v = true <-> v = VNone).
Proof.
  intros v. repeat split; intros H; destruct v; try discriminate H; try (destruct H as [? E]; discriminate E);
    try reflexivity; try (eexists; reflexivity).
Qed.
Print Assumptions C03_kind_predicates.

Example C03_example : ~ mapv (VStr (lit "x")) /\ ~ arrayv (VMap []) /\ scalarv (VStr (lit "x")).
Proof. repeat split; intros [? E]; discriminate. Qed.

(** C04. *)
Theorem C04_value_map_macro : forall kvs, exists v,
  value_map_macro kvs = Done v /\ mapv v
  /\ (forall k x, last_binding kvs k x -> v_get v k = x)
  /\ (forall k, ~ In k (map fst kvs) -> lacks v k)
  /\ (forall k x, last_binding kvs k x <-> holds v k x)
  /\ v_len v = List.length (nodup str_eq_dec (map fst kvs)).
Proof. exact value_map_spec. Qed.
Print Assumptions C04_value_map_macro.

Theorem C04_value_vec_macro : forall vs, value_vec_macro vs = Done (VArr vs).
Proof. exact (value_vec_loop_ok []). Qed.
Print Assumptions C04_value_vec_macro.

Example C04_example :
  value_map_macro [(lit "a", VInt 1); (lit "a", VInt 2)] = Done (VMap [(lit "a", VInt 2)]).
Proof. reflexivity. Qed.

(** C05. *)
Theorem C05_equality_means_same_content : forall a b, wf a -> wf b ->
  (v_eqb a b = true <-> rust_eq a b).
Proof. exact v_eqb_rust_eq_wf. Qed.
Print Assumptions C05_equality_means_same_content.

Theorem C05_equality_symmetric : forall a b, wf a -> wf b -> v_eqb a b = v_eqb b a.
Proof. exact v_eqb_sym_wf. Qed.
Print Assumptions C05_equality_symmetric.

Theorem C05_equality_transitive : forall a b c, wf a -> wf b -> wf c ->
  v_eqb a b = true -> v_eqb b c = true -> v_eqb a c = true.
Proof. exact v_eqb_trans_wf. Qed.
Print Assumptions C05_equality_transitive.

Theorem C05_equality_ignores_map_order : forall a a' b b',
  wf a -> wf a' -> wf b -> wf b' -> vequiv a a' -> vequiv b b' -> v_eqb a b = v_eqb a' b'.
Proof. exact v_eqb_vequiv_wf. Qed.
Print Assumptions C05_equality_ignores_map_order.

Theorem C05_reflexive_iff_no_nan : forall v, wf v -> (v_eqb v v = true <-> ~ has_nan v).
Proof. exact v_eqb_refl_nan_wf. Qed.
Print Assumptions C05_reflexive_iff_no_nan.

Theorem C05_numeric_kinds_differ : forall x y,
  v_eqb (VInt x) (VUInt y) = false /\ v_eqb (VInt x) (VLong y) = false
  /\ v_eqb (VUInt x) (VULong y) = false /\ v_eqb (VLong x) (VULong y) = false
  /\ (forall f, v_eqb (VInt x) (VFloat f) = false) /\ (forall s, v_eqb (VInt x) (VStr s) = false).
Proof. exact numeric_kinds_differ. Qed.
Print Assumptions C05_numeric_kinds_differ.

Example C05_example :
  let a := VMap [(lit "x", VInt 1); (lit "y", VMap [(lit "p", VNone); (lit "q", VFloat S754_nan)])] in
  let b := VMap [(lit "y", VMap [(lit "q", VFloat S754_nan); (lit "p", VNone)]); (lit "x", VInt 1)] in
  v_eqb a b = false /\ has_nan a /\
  v_eqb (VMap [(lit "x", VInt 1); (lit "y", VInt 2)]) (VMap [(lit "y", VInt 2); (lit "x", VInt 1)]) = true.
Proof.
  cbv zeta; split; [reflexivity|split; [|reflexivity]].
  eapply HnMap; [right; left; reflexivity|]. eapply HnMap; [right; left; reflexivity|]. constructor.
Qed.

(** C06. *)
Theorem C06_nested_get : forall v p, wf v ->
  (forall x, at_path v p x -> get_path v p = x)
  /\ ((forall x, ~ at_path v p x) -> get_path v p = VNone).
Proof. exact nested_get. Qed.
Print Assumptions C06_nested_get.

Example C06_example :
  let v := VMap [(lit "a", VMap [(lit "b", VInt 7)])] in
  at_path v [lit "a"; lit "b"] (VInt 7) /\ wf v /\ get_path v [lit "b"; lit "a"] = VNone.
Proof.
  cbv zeta; split; [|split; [|reflexivity]].
  - econstructor; [eexists; split; [reflexivity | left; reflexivity]|].
    econstructor; [eexists; split; [reflexivity | left; reflexivity]|]. constructor.
  - cbn; repeat split; repeat constructor; cbn; tauto.
Qed.

(** C07. *)
Theorem C07_display_is_string_conversion : forall v, scalarv v -> v <> VNone ->
  into_string v = Ok (v_display v).
Proof. exact display_scalar. Qed.
Print Assumptions C07_display_is_string_conversion.

Theorem C07_display_containers :
  v_display VNone = lit "none"
  /\ (forall l, exists body, v_display (VArr l) = lit "[" ++ body ++ lit "]"
        /\ separated (lit ", ") (map v_display l) body)
  /\ (forall m, exists body, v_display (VMap m) = lit "{" ++ body ++ lit "}"
        /\ separated (lit ", ") (map (fun e => fst e ++ lit ": " ++ v_display (snd e)) m) body).
Proof. exact display_containers. Qed.
Print Assumptions C07_display_containers.

Theorem C07_display_of_strings_and_booleans :
  (forall s, v_display (VStr s) = s)
  /\ v_display (VBool true) = lit "true" /\ v_display (VBool false) = lit "false".
Proof. exact display_str_bool. Qed.
Print Assumptions C07_display_of_strings_and_booleans.

Example C07_example :
  v_display (VArr [VInt (-1); VMap [(lit "a", VBool true)]; VNone]) = lit "[-1, {a: true}, none]".
Proof. reflexivity. Qed.
