(** C26-C31: layered configurations. *)
From Coq Require Import ZArith List Bool String Permutation.
Import ListNotations.
From Verif.Model Require Import Text Num Flt Value Merge Paths Finder World Layers Config.
From Verif.Spec Require Import Spec MergeSpec ConfigSpec.
From Verif.Proofs Require Import Basics Merge MergeMore ConfigBuild.
Open Scope Z_scope.

(** C26.  [r] are the registered layers in order, [vs] what they read, [ms] the
    maps among them; [resolves] is the precedence rule of Spec/Spec.v. *)
Theorem C26_effective_value_is_layer_resolution : forall w c r vs ms skip,
  registered c r -> reads w r (map Ok vs) -> (forall v, In v vs -> wf v) -> only_maps vs ms ->
  exists v, build_value w c skip = Ok v /\ mapv v /\ wf v
    /\ forall p f, sees v p f <-> resolves ms p f.
Proof. exact build_resolution. Qed.
Print Assumptions C26_effective_value_is_layer_resolution.

(** The rule always gives exactly one answer. *)
Theorem C26_resolution_is_a_function : forall ms p, (forall v, In v ms -> mapv v /\ uniq v) ->
  (exists f, resolves ms p f) /\ (forall f g, resolves ms p f -> resolves ms p g -> f = g).
Proof. exact (fun ms p W => conj (resolves_total p ms) (fun f g => resolves_fun ms p f g W)). Qed.
Print Assumptions C26_resolution_is_a_function.

(** The result does not depend on the iteration order of any HashMap involved:
    layers reading equal maps (and configurations that store their layers in
    any order) give equal effective values. *)
Theorem C26_order_independent : forall w w' c c' r r' vs vs' skip skip',
  registered c r -> registered c' r' -> reads w r (map Ok vs) -> reads w' r' (map Ok vs') ->
  (forall v, In v vs -> wf v) -> (forall v, In v vs' -> wf v) -> Forall2 vequiv vs vs' ->
  exists v v', build_value w c skip = Ok v /\ build_value w' c' skip' = Ok v' /\ vequiv v v'.
Proof. exact build_order_independent. Qed.
Print Assumptions C26_order_independent.

(** A world and three layers in which the middle one replaces a map by a scalar. *)
Definition ex_world : world :=
  {| w_files := fun _ => None; w_target := fun p => p; w_can_read := fun _ => true; w_can_open := fun _ => true;
     w_room := fun _ => None; w_env := []; w_platform := {| pf_base := None; pf_cwd := None |} |}.
Definition ex_l1 := VMap [(lit "db", VMap [(lit "host", VStr (lit "a")); (lit "port", VInt 1)]); (lit "x", VInt 0)].
Definition ex_l2 := VMap [(lit "db", VBool false)].
Definition ex_l3 := VMap [(lit "db", VMap [(lit "port", VInt 2)])].
Definition ex_layers : list (str * layer) :=
  [(lit "1", LMemory ex_l1); (lit "2", LMemory ex_l2); (lit "s", LMemory (VStr (lit "junk"))); (lit "3", LMemory ex_l3)].
Definition ex_config : config := {| layers_names := map fst ex_layers; layers := rev ex_layers |}.

Example C26_example :
  registered ex_config ex_layers
  /\ reads ex_world ex_layers (map Ok [ex_l1; ex_l2; VStr (lit "junk"); ex_l3])
  /\ only_maps [ex_l1; ex_l2; VStr (lit "junk"); ex_l3] [ex_l1; ex_l2; ex_l3]
  /\ build_value ex_world ex_config false
     = Ok (VMap [(lit "db", VMap [(lit "port", VInt 2)]); (lit "x", VInt 0)])
  /\ resolves [ex_l1; ex_l2; ex_l3] [lit "db"; lit "host"] Nothing
  /\ resolves [ex_l1; ex_l2; ex_l3] [lit "x"] (Leaf (VInt 0)).
Proof.
  split; [|split; [|split; [|split; [|split]]]].
  - split; [reflexivity|]. split; [repeat constructor; cbn; intuition discriminate|].
    apply Permutation_sym, Permutation_rev.
  - repeat constructor.
  - apply OmMap; [eexists; reflexivity|]. apply OmMap; [eexists; reflexivity|].
    apply OmSkip; [intros [? E]; discriminate|]. apply OmMap; [eexists; reflexivity | constructor].
  - reflexivity.
  - apply (ResDown _ _ _ [VMap [(lit "host", VStr (lit "a")); (lit "port", VInt 1)]; VBool false]
             (VMap [(lit "port", VInt 2)]) [VMap [(lit "port", VInt 2)]]).
    + cbn [app]. repeat (apply DefsHave; [apply holds_map; left; reflexivity|]). constructor.
    + eexists; reflexivity.
    + apply (TrailCut [_] (VBool false)); [intros [? E]; discriminate|].
      intros v [<-|[]]; eexists; reflexivity.
    + apply ResNone. apply DefsLack; [apply lacks_mget; reflexivity | constructor].
  - apply (ResLeaf _ _ [] (VInt 0)); [|intros [? E]; discriminate]. cbn [app].
    apply DefsHave; [apply holds_map; right; left; reflexivity|].
    repeat (apply DefsLack; [apply lacks_mget; reflexivity|]). constructor.
Qed.

(** C27.  [h]: the registrations attempted by the history; [r]: first of each name. *)
Theorem C27_first_registration_wins : forall tc ops h r,
  registrations tc ops h -> keeps_first h r ->
  registered (config_run tc ops) r
  /\ (forall n l, get_layer (config_run tc ops) n = Some l <->
        exists before after, h = before ++ (n, l) :: after /\ ~ In n (map fst before))
  /\ (forall n, get_layer (config_run tc ops) n = None <-> ~ In n (map fst h)).
Proof. exact registration_history. Qed.
Print Assumptions C27_first_registration_wins.

Theorem C27_every_history_has_one : forall tc ops, exists h r, registrations tc ops h /\ keeps_first h r.
Proof. exact history_exists. Qed.
Print Assumptions C27_every_history_has_one.

Theorem C27_readding_a_name_changes_nothing : forall c n l l0,
  get_layer c n = Some l0 -> push_layer c n l = c.
Proof. exact readd_is_noop. Qed.
Print Assumptions C27_readding_a_name_changes_nothing.

Example C27_example : forall tc,
  keeps_first [(lit "a", LMemory (VInt 1)); (lit "b", LMemory (VInt 2)); (lit "a", LMemory (VInt 3))]
              [(lit "a", LMemory (VInt 1)); (lit "b", LMemory (VInt 2))]
  /\ get_layer (config_run tc [OpMemory (lit "a") (VInt 1); OpMemory (lit "b") (VInt 2); OpMemory (lit "a") (VInt 3)])
       (lit "a") = Some (LMemory (VInt 1)).
Proof.
  intros tc; split; [|reflexivity].
  apply (KeepOld [(lit "a", LMemory (VInt 1)); (lit "b", LMemory (VInt 2))]); [|cbn; auto].
  apply (KeepNew [(lit "a", LMemory (VInt 1))] [(lit "a", LMemory (VInt 1))]); [|cbn; intuition discriminate].
  apply (KeepNew [] []); [constructor | cbn; tauto].
Qed.

(** C28. *)
Theorem C28_strict_build : forall w c r, registered c r ->
  ((exists v, build_value w c false = Ok v) <-> forall n l, In (n, l) r -> exists v, layer_read w l = Ok v)
  /\ (forall r1 n l r2 e, r = r1 ++ (n, l) :: r2 ->
        (forall n' l', In (n', l') r1 -> exists v, layer_read w l' = Ok v) -> layer_read w l = Err e ->
        build_value w c false = Err e).
Proof. exact strict_build. Qed.
Print Assumptions C28_strict_build.

Example C28_example :
  let r := [(lit "m", LMemory ex_l1); (lit "e", LEnv []); (lit "f", LCustom
      {| cl_name := []; cl_has_value := fun _ => true; cl_read := fun _ => Err (BIo IoDenied);
         cl_can_write := false; cl_write := fun w _ => (w, Ok tt) |})] in
  let c := {| layers_names := map fst r; layers := r |} in
  registered c r
  /\ build_value ex_world c false = Err (BLayer (LErrorReadingValue (lit "Environment prefix cannot be empty")))
  /\ build_value ex_world c true = Ok ex_l1.
Proof.
  cbv zeta. split; [|split; reflexivity].
  split; [reflexivity|]. split; [repeat constructor; cbn; intuition discriminate | apply Permutation_refl].
Qed.

(** C29. *)
Theorem C29_lenient_build : forall w c r r' c',
  registered c r -> without_failing w r r' -> registered c' r' ->
  build_value w c true = build_value w c' false
  /\ (exists v, build_value w c true = Ok v)
  /\ (forall v, build_value w c false = Ok v -> build_value w c true = Ok v).
Proof. exact lenient_build. Qed.
Print Assumptions C29_lenient_build.

Theorem C29_reduced_configuration_exists : forall w c r, registered c r ->
  exists r' c', without_failing w r r' /\ registered c' r'.
Proof.
  exact (fun w c r R => match without_failing_total w r with
    | ex_intro _ r' F => match without_failing_registered w r r' F (proj1 (proj2 R)) with
                         | ex_intro _ c' R' => ex_intro _ r' (ex_intro _ c' (conj F R')) end end).
Qed.
Print Assumptions C29_reduced_configuration_exists.

(** An environment layer without prefix fails and is left out. *)
Example C29_example :
  let r := [(lit "m", LMemory ex_l1); (lit "e", LEnv []); (lit "n", LMemory ex_l2)] in
  let r' := [(lit "m", LMemory ex_l1); (lit "n", LMemory ex_l2)] in
  registered {| layers_names := map fst r; layers := r |} r /\ without_failing ex_world r r'
  /\ registered {| layers_names := map fst r'; layers := r' |} r'
  /\ (exists e, build_value ex_world {| layers_names := map fst r; layers := r |} false = Err e)
  /\ exists v, build_value ex_world {| layers_names := map fst r; layers := r |} true = Ok v /\ v <> VMap [].
Proof.
  cbv zeta. split; [split; [reflexivity|]; split; [repeat constructor; cbn; intuition discriminate | apply Permutation_refl]|].
  split; [|split; [split; [reflexivity|]; split; [repeat constructor; cbn; intuition discriminate | apply Permutation_refl]|]].
  - eapply WfKeep; [reflexivity|]. eapply WfDrop; [reflexivity|]. eapply WfKeep; [reflexivity|]. constructor.
  - split; [eexists; reflexivity|]. eexists. split; [reflexivity | discriminate].
Qed.

(** C30. *)
Theorem C30_non_map_layer_contributes_nothing : forall w c c' r1 n l r2 v skip,
  registered c (r1 ++ (n, l) :: r2) -> registered c' (r1 ++ r2) ->
  layer_read w l = Ok v -> ~ mapv v -> build_value w c skip = build_value w c' skip.
Proof. exact nonmap_layer. Qed.
Print Assumptions C30_non_map_layer_contributes_nothing.

Example C30_example :
  let r1 := [(lit "1", LMemory ex_l1); (lit "2", LMemory ex_l2)] in
  ex_layers = r1 ++ (lit "s", LMemory (VStr (lit "junk"))) :: [(lit "3", LMemory ex_l3)]
  /\ layer_read ex_world (LMemory (VStr (lit "junk"))) = Ok (VStr (lit "junk")) /\ ~ mapv (VStr (lit "junk")).
Proof. repeat split. intros [? E]; discriminate. Qed.

(** C31. *)
Theorem C31_missing_file_contributes_nothing : forall w c c' r1 n h p r2 skip,
  registered c (r1 ++ (n, LFile h p) :: r2) -> registered c' (r1 ++ r2) -> w_fs w p = None ->
  layer_read w (LFile h p) = Ok (VMap []) /\ layer_has_value w (LFile h p) = false
  /\ build_value w c skip = build_value w c' skip.
Proof. exact missing_file_layer. Qed.
Print Assumptions C31_missing_file_contributes_nothing.

Example C31_example : forall h,
  let r := [(lit "f", LFile h (lit "/etc/app.toml")); (lit "m", LMemory ex_l1)] in
  registered {| layers_names := map fst r; layers := r |} ([] ++ (lit "f", LFile h (lit "/etc/app.toml")) :: [(lit "m", LMemory ex_l1)])
  /\ w_fs ex_world (lit "/etc/app.toml") = None.
Proof.
  intros h; cbv zeta. split; [|reflexivity].
  split; [reflexivity|]. split; [repeat constructor; cbn; intuition discriminate | apply Permutation_refl].
Qed.
