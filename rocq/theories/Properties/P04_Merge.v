(** C19-C25: [Value::merge] and [Value::clone_merge]. *)
From Coq Require Import ZArith List Bool String Permutation.
Import ListNotations.
From Verif.Model Require Import Text Num Flt Value Merge.
From Verif.Spec Require Import Spec Containers MergeSpec.
From Verif.Proofs Require Import Basics Merge MergeMore.
Open Scope Z_scope.

(** C19: what every key of the merged map holds. *)
Theorem C19_merge_key_by_key : forall a b k, uniq a -> uniq b -> mapv a -> mapv b ->
  mapv (v_merge a b)
  /\ (forall x, holds a k x -> lacks b k -> holds (v_merge a b) k x)
  /\ (forall y, lacks a k -> holds b k y -> holds (v_merge a b) k y)
  /\ (forall x y, holds a k x -> holds b k y -> mapv x -> mapv y -> holds (v_merge a b) k (v_merge x y))
  /\ (forall x y, holds a k x -> holds b k y -> ~ (mapv x /\ mapv y) -> holds (v_merge a b) k y)
  /\ (lacks a k -> lacks b k -> lacks (v_merge a b) k).
Proof. exact merge_key_by_key. Qed.
Print Assumptions C19_merge_key_by_key.

(** The same as one equivalence: these are the only ways to hold x under k. *)
Theorem C19_merge_holds_iff : forall a b k x, uniq a -> uniq b -> mapv a -> mapv b ->
  (holds (v_merge a b) k x <->
     (lacks b k /\ holds a k x)
     \/ (holds b k x /\ forall y, holds a k y -> ~ (mapv y /\ mapv x))
     \/ (exists y z, holds a k y /\ holds b k z /\ mapv y /\ mapv z /\ x = v_merge y z)).
Proof. exact merge_holds. Qed.
Print Assumptions C19_merge_holds_iff.

Example C19_example :
  let a := VMap [(lit "x", VInt 1); (lit "m", VMap [(lit "p", VInt 1); (lit "q", VInt 2)])] in
  let b := VMap [(lit "m", VMap [(lit "q", VStr (lit "!"))]); (lit "y", VNone)] in
  uniq a /\ uniq b /\ mapv a /\ mapv b
  /\ v_merge a b = VMap [(lit "x", VInt 1); (lit "m", VMap [(lit "p", VInt 1); (lit "q", VStr (lit "!"))]); (lit "y", VNone)].
Proof.
  cbv zeta. repeat split; try (apply wf_uniq; cbn; repeat split; repeat constructor; cbn; intuition discriminate);
    eexists; reflexivity.
Qed.

(** C20. *)
Theorem C20_merge_at_every_path : forall p a b x, uniq a -> uniq b -> mapv a -> mapv b ->
  (at_path (v_merge a b) p x <->
     (at_path a p x /\ silent b p)
     \/ (at_path b p x /\ forall y, at_path a p y -> ~ (mapv y /\ mapv x))
     \/ (exists y z, at_path a p y /\ at_path b p z /\ mapv y /\ mapv z /\ x = v_merge y z)).
Proof. exact merge_at_path. Qed.
Print Assumptions C20_merge_at_every_path.

Theorem C20_consequences : forall a b p, uniq a -> uniq b -> mapv a -> mapv b ->
  (* a non-map of b wins *)
  (forall x, at_path b p x -> ~ mapv x -> at_path (v_merge a b) p x)
  (* nothing of a survives below a non-map of b *)
  /\ (forall x k q y, at_path b p x -> ~ mapv x -> ~ at_path (v_merge a b) (p ++ k :: q) y)
  (* where b is silent, a is untouched *)
  /\ (silent b p -> forall x, at_path (v_merge a b) p x <-> at_path a p x)
  (* where both have maps, the result is their merge *)
  /\ (forall x y, at_path a p x -> at_path b p y -> mapv x -> mapv y -> at_path (v_merge a b) p (v_merge x y))
  (* where a has no map (or nothing), b's value is taken whole *)
  /\ (forall y, at_path b p y -> (forall x, at_path a p x -> ~ mapv x) -> at_path (v_merge a b) p y).
Proof. exact merge_path_consequences. Qed.
Print Assumptions C20_consequences.

Example C20_example :
  let a := VMap [(lit "m", VMap [(lit "p", VInt 1)])] in
  let b := VMap [(lit "m", VMap [(lit "q", VInt 2)])] in
  silent b [lit "m"; lit "p"] /\ at_path a [lit "m"; lit "p"] (VInt 1)
  /\ get_path (v_merge a b) [lit "m"; lit "p"] = VInt 1.
Proof.
  cbv zeta. split; [|split; [|reflexivity]].
  - exists [lit "m"], (lit "p"), [], (VMap [(lit "q", VInt 2)]). repeat split.
    + econstructor; [apply holds_map; left; reflexivity | constructor].
    + eexists; reflexivity.
    + apply lacks_mget. reflexivity.
  - econstructor; [apply holds_map; left; reflexivity|].
    econstructor; [apply holds_map; left; reflexivity | constructor].
Qed.

(** C21. *)
Theorem C21_merge_respects_map_equality : forall a a' b b',
  uniq a -> uniq a' -> uniq b -> uniq b' -> vequiv a a' -> vequiv b b' ->
  vequiv (v_merge a b) (v_merge a' b').
Proof. exact merge_congr. Qed.
Print Assumptions C21_merge_respects_map_equality.

(** Every run of the loop, whatever the order of visiting and of storing. *)
Theorem C21_every_iteration_order_gives_the_same_map : forall a b r r',
  uniq a -> uniq b -> any_merge a b r -> any_merge a b r' -> vequiv r r' /\ vequiv r (v_merge a b).
Proof. exact any_merge_unique. Qed.
Print Assumptions C21_every_iteration_order_gives_the_same_map.

Theorem C21_modelled_run_is_one_of_them : forall a b, uniq a -> uniq b -> any_merge a b (v_merge a b).
Proof. exact (fun a b => any_merge_complete b a). Qed.
Print Assumptions C21_modelled_run_is_one_of_them.

Example C21_example :
  let m := [(lit "x", VInt 1); (lit "y", VInt 2)] in
  any_merge (VMap []) (VMap m) (VMap [(lit "y", VInt 2); (lit "x", VInt 1)]).
Proof.
  cbv zeta. eapply AnyMaps; [apply Permutation_refl|].
  eapply LoopAdd; [cbn; tauto | apply Permutation_refl |].
  eapply LoopAdd; [cbn; intuition discriminate | apply Permutation_refl |].
  apply LoopEnd, Permutation_refl.
Qed.

(** C22. *)
Theorem C22_merge_identities : forall a b, uniq a -> uniq b ->
  v_merge a (VMap []) = a
  /\ (mapv b -> vequiv (v_merge (VMap []) b) b)
  /\ vequiv (v_merge a a) a
  /\ vequiv (v_merge (v_merge a b) b) (v_merge a b).
Proof. exact merge_identities. Qed.
Print Assumptions C22_merge_identities.

Example C22_example :
  let a := VMap [(lit "k", VMap [(lit "z", VInt 3)])] in
  let b := VMap [(lit "k", VInt 0); (lit "l", VArr [])] in
  v_merge (v_merge a b) b = v_merge a b /\ v_merge a b <> a.
Proof. split; [reflexivity | discriminate]. Qed.

(** C23. *)
Theorem C23_non_map_is_noop : forall a b, ~ mapv a \/ ~ mapv b -> v_merge a b = a.
Proof. exact merge_nonmap_noop. Qed.
Print Assumptions C23_non_map_is_noop.

Example C23_example : ~ mapv (VArr [VInt 1]) /\ v_merge (VArr [VInt 1]) (VMap [(lit "k", VNone)]) = VArr [VInt 1]
  /\ v_merge (VMap [(lit "k", VNone)]) (VInt 3) = VMap [(lit "k", VNone)].
Proof. repeat split. intros [? E]; discriminate. Qed.

(** C24: exactly when pre-merging layers is harmless. *)
Theorem C24_associative_iff_no_shadow_conflict : forall a b c,
  uniq a -> uniq b -> uniq c -> mapv a -> mapv b -> mapv c ->
  (vequiv (v_merge (v_merge a b) c) (v_merge a (v_merge b c)) <-> ~ shadow_conflict a b c).
Proof. exact assoc_iff. Qed.
Print Assumptions C24_associative_iff_no_shadow_conflict.

(** A simple sufficient condition: b has no scalar or array where a has a map. *)
Theorem C24_associative_when_kinds_agree : forall a b c,
  uniq a -> uniq b -> uniq c -> mapv a -> mapv b -> mapv c ->
  (forall p x y, at_path a p x -> at_path b p y -> mapv x -> mapv y) ->
  vequiv (v_merge (v_merge a b) c) (v_merge a (v_merge b c)).
Proof. exact assoc_kinds_agree. Qed.
Print Assumptions C24_associative_when_kinds_agree.

Theorem C24_associativity_refuted : exists a b c,
  wf a /\ wf b /\ wf c /\ mapv a /\ mapv b /\ mapv c /\ shadow_conflict a b c
  /\ v_eqb (v_merge (v_merge a b) c) (v_merge a (v_merge b c)) = false.
Proof. exact assoc_refuted. Qed.
Print Assumptions C24_associativity_refuted.

(** C25. *)
Theorem C25_merge_preserves_wf : forall a b, wf a -> wf b -> wf (v_merge a b).
Proof. exact (fun a b => v_merge_wf b a). Qed.
Print Assumptions C25_merge_preserves_wf.

Theorem C25_clone_merge_leaves_receiver : forall a b,
  v_clone_merge a b = (v_merge a b, a).
Proof. reflexivity. Qed.
Print Assumptions C25_clone_merge_leaves_receiver.

(** The number of keys after a merge: keys of a plus new keys of b. *)
Theorem C25_merge_size : forall m n r, uniq (VMap m) -> uniq (VMap n) -> v_merge (VMap m) (VMap n) = VMap r ->
  (forall k, In k (map fst r) <-> In k (map fst m) \/ In k (map fst n))
  /\ (List.length m <= List.length r <= List.length m + List.length n)%nat.
Proof. exact merge_size. Qed.
Print Assumptions C25_merge_size.

Example C25_example : wf (VMap [(lit "k", VFloat (f64_of_Z 3))]) /\ wf (VMap [(lit "k", VULong (2 ^ 128 - 1))]).
Proof. cbn; repeat split; repeat constructor; cbn; tauto. Qed.
