(** C49-C54: the create_config! macro. *)
From Coq Require Import ZArith Bool String Permutation List Lia.
Import ListNotations.
From Verif.Model Require Import Text Num Flt Value Merge Paths Finder World Layers Config Macro.
From Verif.Spec Require Import Spec MergeSpec ConfigSpec EnvSpec FinderSpec PathSpec MacroSpec.
From Verif.Proofs Require Import Basics Merge ConfigBuild Utf8 Env PathLemmas Files FinderProofs FinderTop FinderMore MacroProofs.

(** ** C49.  The registrations: "default", then the file layers whose search and
    extension succeed ([macro_run]), then "environment"; of equal names the first. *)
Theorem C49_macro_never_fails_and_registers_in_order : forall tc ms w, exists dv h r cfg w',
  value_map_macro (ms_default ms) = Done dv /\ default_map ms dv
  /\ create_config tc ms w = Done (cfg, w')
  /\ macro_run tc (ms_file_name ms) dv [(lit "default", LMemory dv)] w (ms_layers ms) h w'
  /\ keeps_first (h ++ env_registration ms) r /\ registered cfg r.
Proof. exact create_config_spec. Qed.
Print Assumptions C49_macro_never_fails_and_registers_in_order.

Theorem C49_default_is_first_environment_is_last : forall tc ms w cfg w' dv,
  create_config tc ms w = Done (cfg, w') -> value_map_macro (ms_default ms) = Done dv ->
  (exists rest, layers_names cfg = lit "default" :: rest) /\ get_layer cfg (lit "default") = Some (LMemory dv)
  /\ (forall prefix, ms_env ms = Some prefix -> ~ In (lit "environment") (map ls_name (ms_layers ms)) ->
       (exists init, layers_names cfg = init ++ [lit "environment"])
       /\ get_layer cfg (lit "environment") = Some (env_layer_new prefix)).
Proof. exact macro_layers. Qed.
Print Assumptions C49_default_is_first_environment_is_last.

(** The specified run is unique. *)
Theorem C49_the_run_is_determined : forall tc fname dv h w cs h1 w1 h2 w2,
  macro_run tc fname dv h w cs h1 w1 -> macro_run tc fname dv h w cs h2 w2 -> h1 = h2 /\ w1 = w2.
Proof. exact (fun tc fname dv h w cs h1 w1 h2 w2 A B => macro_run_fun tc fname dv h w cs h1 w1 A h2 w2 B). Qed.
Print Assumptions C49_the_run_is_determined.

Definition mx_codec : codec :=
  {| toml_from_str := fun s => if str_eqb s (lit "x = 1") then Ok (VMap [(lit "x", VInt 1)])
       else if str_eqb s (lit "x = 2") then Ok (VMap [(lit "x", VInt 2)])
       else if str_eqb s [] then Ok (VMap []) else Err (lit "bad");
     toml_to_string := fun v => match v with VMap [(_, VInt 1)] => Ok (lit "x = 1") | _ => Err (lit "no") end |}.
(** /e/app.toml holds "x = 2"; everything else is missing; /r is not writable. *)
Definition mx_world (space : option nat) : world :=
  {| w_files := fun p => if str_eqb p (lit "/e/app.toml") then Some (NFile (utf8_encode (lit "x = 2"))) else None;
     w_target := fun p => p; w_can_read := fun _ => true; w_can_open := fun p => negb (str_eqb p (lit "/r/app.toml"));
     w_room := fun _ => space; w_env := [];
     w_platform := {| pf_base := Some {| bd_home := lit "/h"; bd_config := lit "/c"; bd_pref := lit "/p" |}; pf_cwd := None |} |}.
Definition clause n ds i := {| ls_name := lit n; ls_dirs := ds; ls_init := i |}.
Definition mx_spec ls : macro_spec :=
  {| ms_file_name := lit "app"; ms_default := [(lit "x", VInt 1)]; ms_env := Some (lit "APP_"); ms_layers := ls |}.
Definition mx_ms := mx_spec [clause "global" [UserHome; DirPath (lit "/e")] (Some true);
  clause "cwd" [WorkingDirectory] (Some true); clause "local" [DirPath (lit "/n")] (Some true);
  clause "ro" [DirPath (lit "/r")] (Some true)].
Example C49_example : distinct_names mx_ms /\ exists cfg w',
  create_config mx_codec mx_ms (mx_world None) = Done (cfg, w') /\ layers_names cfg = map lit ["default"; "global"; "local"; "ro"; "environment"]%string
      /\ get_layer cfg (lit "global") = Some (LFile (toml_handler mx_codec) (lit "/e/app.toml"))
      /\ w_fs w' (lit "/n/app.toml") = Some (NFile (utf8_encode (lit "x = 1")))
      /\ w_fs w' (lit "/h/app.toml") = None /\ w_fs w' (lit "/r/app.toml") = None
      /\ build_value w' cfg false = Ok (VMap [(lit "x", VInt 1)]).
Proof.
  split; [repeat constructor; cbn; intuition discriminate|].
  do 2 eexists. split; [reflexivity|]. repeat split; reflexivity.
Qed.

(** ** C50. *)
Theorem C50_existing_files_are_never_modified : forall tc ms w cfg w' dv, distinct_names ms ->
  create_config tc ms w = Done (cfg, w') -> value_map_macro (ms_default ms) = Done dv ->
  same_system w w'
  /\ forall q, w_fs w' q = w_fs w q \/ created tc (ms_file_name ms) dv w w' (ms_layers ms) q.
Proof.
  intros tc ms w cfg w' dv D E V. destruct (create_config_run _ _ _ _ _ _ E V) as (h & r & M & _).
  exact (run_effect _ _ _ _ _ _ _ _ M D).
Qed.
Print Assumptions C50_existing_files_are_never_modified.

(** Also at every crash point of the macro. *)
Theorem C50_existing_files_survive_a_crash : forall tc ms w w' dv, distinct_names ms ->
  macro_crash tc (ms_file_name ms) dv [(lit "default", LMemory dv)] w (ms_layers ms) w' ->
  same_system w w'
  /\ forall q, w_fs w' q = w_fs w q \/ created tc (ms_file_name ms) dv w w' (ms_layers ms) q.
Proof. exact (fun tc ms w w' dv D C => macro_crash_effect tc ms dv w w' D C). Qed.
Print Assumptions C50_existing_files_survive_a_crash.

(** With a repeated name, the init of the second clause overwrites the existing
    file of the first one with the defaults. *)
Theorem C50_repeated_name_overwrites_refuted : exists tc ms w cfg w' p bs bs',
  NoDup (map fst (ms_default ms)) /\ create_config tc ms w = Done (cfg, w')
  /\ w_fs w p = Some (NFile bs) /\ w_fs w' p = Some (NFile bs') /\ bs <> bs'
  /\ toml_from_str tc (lit "x = 2") = Ok (VMap [(lit "x", VInt 2)]) /\ bs = utf8_encode (lit "x = 2").
Proof.
  exists mx_codec, (mx_spec [clause "a" [DirPath (lit "/e")] None; clause "a" [DirPath (lit "/n")] (Some true)]), (mx_world None).
  do 2 eexists. exists (lit "/e/app.toml"). do 2 eexists.
  split; [repeat constructor; cbn; intuition|]. split; [reflexivity|].
  split; [reflexivity|]. split; [reflexivity|]. split; [discriminate|]. split; reflexivity.
Qed.
Print Assumptions C50_repeated_name_overwrites_refuted.

(** ** C51. *)
Theorem C51_init_creates_the_missing_file : forall tc ms w cfg w' dv s before ls after p rest,
  distinct_names ms -> create_config tc ms w = Done (cfg, w') ->
  value_map_macro (ms_default ms) = Done dv ->
  ms_layers ms = before ++ ls :: after -> ls_init ls = Some true ->
  clause_candidates w (ms_file_name ms) ls (p :: rest) -> (forall q, In q (p :: rest) -> missing w q) ->
  has_extension p (lit "toml") ->
  (forall ls' q rest', In ls' before -> ls_init ls' = Some true ->
     clause_candidates w (ms_file_name ms) ls' (q :: rest') -> forall x, In x (p :: rest) -> ~ same_file w q x) ->
  toml_to_string tc dv = Ok s -> w_can_open w p = true -> room_for w p s ->
  w_fs w' p = Some (NFile (utf8_encode s)).
Proof. exact init_creates. Qed.
Print Assumptions C51_init_creates_the_missing_file.

(** Whatever the other clauses do, an init clause has a file afterwards. *)
Theorem C51_init_clause_has_a_file_afterwards : forall tc ms w cfg w' dv s before ls after p rest,
  distinct_names ms -> create_config tc ms w = Done (cfg, w') ->
  value_map_macro (ms_default ms) = Done dv ->
  ms_layers ms = before ++ ls :: after -> ls_init ls = Some true ->
  clause_candidates w (ms_file_name ms) ls (p :: rest) ->
  has_extension p (lit "toml") -> toml_to_string tc dv = Ok s -> w_can_open w p = true ->
  exists q, In q (p :: rest) /\ ~ missing w' q.
Proof. exact init_exists. Qed.
Print Assumptions C51_init_clause_has_a_file_afterwards.

Theorem C51_without_init_nothing_is_created : forall tc ms w cfg w',
  create_config tc ms w = Done (cfg, w') ->
  (forall ls, In ls (ms_layers ms) -> ls_init ls <> Some true) -> w' = w.
Proof.
  intros tc ms w cfg w' E N. destruct (macro_default ms) as (dv & V & _).
  destruct (create_config_run _ _ _ _ _ _ E V) as (h & r & M & _). exact (run_no_init _ _ _ _ _ _ _ _ M N).
Qed.
Print Assumptions C51_without_init_nothing_is_created.

Example C51_example :
  clause_candidates (mx_world None) (lit "app") (clause "local" [DirPath (lit "/n")] (Some true)) [lit "/n/app.toml"]
  /\ missing (mx_world None) (lit "/n/app.toml") /\ has_extension (lit "/n/app.toml") (lit "toml")
  /\ toml_to_string mx_codec (VMap [(lit "x", VInt 1)]) = Ok (lit "x = 1")
  /\ clause_candidates (mx_world None) (lit "app") (clause "g" [UserHome; DirPath (lit "/e")] (Some true))
       [lit "/h/app.toml"; lit "/e/app.toml"].
Proof.
  assert (RP : forall x, resolvable (w_platform (mx_world None)) (DirPath x) x) by (intros; eexists; split; [reflexivity | constructor]).
  split; [|split; [reflexivity|split; [|split; [reflexivity|]]]].
  - exists [lit "/n"], [(lit "/n/app.toml", lit "toml")]. split; [repeat constructor; apply RP|].
    split; [repeat constructor | reflexivity].
  - apply extension_iff. reflexivity.
  - exists [lit "/h"; lit "/e"], [(lit "/h/app.toml", lit "toml"); (lit "/e/app.toml", lit "toml")].
    split; [constructor; [eexists; split; [reflexivity | exact (OsHome _ {| bd_home := lit "/h"; bd_config := lit "/c"; bd_pref := lit "/p" |})]|]; repeat constructor; apply RP|].
    split; [repeat constructor | reflexivity].
Qed.

(** ** C52. *)
Theorem C52_second_run_changes_nothing : forall tc ms w cfg w' cfg' w'', distinct_names ms ->
  create_config tc ms w = Done (cfg, w') -> create_config tc ms w' = Done (cfg', w'') -> w'' = w'.
Proof. exact second_run. Qed.
Print Assumptions C52_second_run_changes_nothing.

(** The second run may, however, settle on another file: a file created by a
    later clause can be an earlier clause's candidate. *)
Theorem C52_second_run_same_layers_refuted : exists tc ms w cfg w' cfg' w'' n l l', distinct_names ms
  /\ create_config tc ms w = Done (cfg, w') /\ create_config tc ms w' = Done (cfg', w'')
  /\ get_layer cfg n = Some l /\ get_layer cfg' n = Some l' /\ l <> l'.
Proof.
  exists mx_codec, (mx_spec [clause "a" [DirPath (lit "/m"); DirPath (lit "/n")] None; clause "b" [DirPath (lit "/n")] (Some true)]), (mx_world None).
  do 4 eexists. exists (lit "a"), (LFile (toml_handler mx_codec) (lit "/m/app.toml")), (LFile (toml_handler mx_codec) (lit "/n/app.toml")).
  split; [repeat constructor; cbn; intuition discriminate|]. split; [reflexivity|]. split; [reflexivity|].
  split; [reflexivity|]. split; [reflexivity|]. intros X; injection X; discriminate.
Qed.
Print Assumptions C52_second_run_same_layers_refuted.

(** ** C53.  [r1]: the file layers up to the last created one, all missing before
    the run; [r2]: later layers, whose files the run did not touch. *)
Theorem C53_init_keeps_the_effective_value : forall tc ms w cfg w' dv s dv' r1 r2 skip,
  create_config tc ms w = Done (cfg, w') -> value_map_macro (ms_default ms) = Done dv -> uniq dv ->
  toml_to_string tc dv = Ok s -> is_text s = true -> toml_from_str tc s = Ok dv' -> vequiv dv' dv ->
  (forall t v, toml_from_str tc t = Ok v -> uniq v) ->
  registered cfg ((lit "default", LMemory dv) :: r1 ++ r2) ->
  (forall n l, In (n, l) r1 -> exists p, l = LFile (toml_handler tc) p /\ missing w p
     /\ room_for w p s /\ w_can_read w p = true) ->
  (forall n l, In (n, l) r2 -> (exists prefix, l = LEnv prefix)
     \/ exists p, l = LFile (toml_handler tc) p /\ w_fs w' p = w_fs w p) ->
  requiv (build_value w cfg skip) (build_value w' cfg skip).
Proof. exact effective_unchanged. Qed.
Print Assumptions C53_init_keeps_the_effective_value.

Theorem C53_first_start_keeps_the_effective_value : forall tc ms w cfg w' dv s dv' skip,
  create_config tc ms w = Done (cfg, w') -> value_map_macro (ms_default ms) = Done dv -> uniq dv ->
  toml_to_string tc dv = Ok s -> is_text s = true -> toml_from_str tc s = Ok dv' -> vequiv dv' dv ->
  (forall t v, toml_from_str tc t = Ok v -> uniq v) ->
  (forall ls ps p, In ls (ms_layers ms) -> clause_candidates w (ms_file_name ms) ls ps -> In p ps ->
     missing w p /\ room_for w p s /\ w_can_read w p = true) ->
  requiv (build_value w cfg skip) (build_value w' cfg skip).
Proof. exact effective_unchanged_fresh. Qed.
Print Assumptions C53_first_start_keeps_the_effective_value.

Example C53_example : let ms := mx_spec [clause "a" [DirPath (lit "/m")] (Some true); clause "b" [DirPath (lit "/n")] (Some true)] in
  value_map_macro (ms_default ms) = Done (VMap [(lit "x", VInt 1)])
  /\ toml_from_str mx_codec (lit "x = 1") = Ok (VMap [(lit "x", VInt 1)])
  /\ (forall t v, toml_from_str mx_codec t = Ok v -> uniq v)
  /\ clause_candidates (mx_world None) (lit "app") (clause "a" [DirPath (lit "/m")] (Some true)) [lit "/m/app.toml"]
  /\ missing (mx_world None) (lit "/m/app.toml")
  /\ exists cfg w', create_config mx_codec ms (mx_world None) = Done (cfg, w') /\ registered cfg ((lit "default", LMemory (VMap [(lit "x", VInt 1)]))
         :: [(lit "a", LFile (toml_handler mx_codec) (lit "/m/app.toml")); (lit "b", LFile (toml_handler mx_codec) (lit "/n/app.toml"))]
            ++ [(lit "environment", env_layer_new (lit "APP_"))])
         /\ w_fs w' (lit "/m/app.toml") = Some (NFile (utf8_encode (lit "x = 1")))
         /\ build_value w' cfg false = Ok (VMap [(lit "x", VInt 1)]).
Proof.
  cbv zeta. split; [reflexivity|]. split; [reflexivity|]. split; [|split; [|split; [reflexivity|]]].
  - intros t v. cbn [toml_from_str mx_codec].
    assert (U : forall z, uniq (VMap [(lit "x", VInt z)])).
    { intros z. apply UMap; [repeat constructor; cbn; tauto|]. intros k x [E|[]]; injection E as _ <-. now apply UScalar. }
    destruct (str_eqb t (lit "x = 1")); [intros E; injection E as <-; apply U|].
    destruct (str_eqb t (lit "x = 2")); [intros E; injection E as <-; apply U|].
    destruct (str_eqb t []); [|discriminate]. intros E; injection E as <-. apply UMap; [constructor | intros k x []].
  - exists [lit "/m"], [(lit "/m/app.toml", lit "toml")].
    split; [repeat constructor; eexists; split; [reflexivity | constructor]|]. split; [repeat constructor | reflexivity].
  - do 2 eexists. split; [reflexivity|]. split; [|split; reflexivity].
    split; [reflexivity|]. split; [repeat constructor; cbn; intuition discriminate | apply Permutation_refl].
Qed.

(** If an existing, customised layer precedes an init layer, creating the file
    of the latter overrides the customisation. *)
Theorem C53_created_defaults_override_earlier_layers_refuted : exists tc ms w cfg w', distinct_names ms
  /\ create_config tc ms w = Done (cfg, w')
  /\ build_value w cfg false = Ok (VMap [(lit "x", VInt 2)])
  /\ build_value w' cfg false = Ok (VMap [(lit "x", VInt 1)]).
Proof.
  exists mx_codec, (mx_spec [clause "a" [DirPath (lit "/e")] None; clause "b" [DirPath (lit "/n")] (Some true)]), (mx_world None).
  do 2 eexists. split; [repeat constructor; cbn; intuition discriminate|]. repeat split; reflexivity.
Qed.
Print Assumptions C53_created_defaults_override_earlier_layers_refuted.

(** ** C54. *)
Theorem C54_lenient_start_survives_a_crash : forall tc w p s w' c n r1 r2,
  write_crash w p (utf8_encode s) w' -> registered c (r1 ++ (n, LFile (toml_handler tc) p) :: r2) ->
  same_but p w w'
  /\ (exists v, build_value w' c true = Ok v)
  /\ (w' = w \/ exists k, w_fs w' p = Some (NFile (firstn k (utf8_encode s))) /\
       ((exists e, layer_read w' (LFile (toml_handler tc) p) = Err e /\
           forall c', registered c' (r1 ++ r2) -> build_value w' c true = build_value w' c' true)
        \/ exists t v, utf8 (firstn k (utf8_encode s)) t /\ toml_from_str tc t = Ok v
            /\ layer_read w' (LFile (toml_handler tc) p) = Ok v)).
Proof. exact crash_lenient. Qed.
Print Assumptions C54_lenient_start_survives_a_crash.

Theorem C54_other_layers_read_as_before : forall tc w p bs w' l,
  write_crash w p bs w' -> built_in tc l -> (forall q, l = LFile (toml_handler tc) q -> ~ same_file w p q) -> layer_read w' l = layer_read w l.
Proof. exact crash_others. Qed.
Print Assumptions C54_other_layers_read_as_before.

(** A later start does not repair the torn file: the macro leaves every existing
    path as it is, so with the crashed file a strict start can fail for good. *)
Theorem C54_torn_file_is_repaired_refuted : exists tc ms w dv w1, distinct_names ms
  /\ value_map_macro (ms_default ms) = Done dv
  /\ macro_crash tc (ms_file_name ms) dv [(lit "default", LMemory dv)] w (ms_layers ms) w1
  /\ exists cfg w2 e, create_config tc ms w1 = Done (cfg, w2) /\ w2 = w1 /\ build_value w2 cfg false = Err e
     /\ build_value w2 cfg true = Ok dv.
Proof.
  exists mx_codec, (mx_spec [clause "b" [DirPath (lit "/n")] (Some true)]), (mx_world None).
  exists (VMap [(lit "x", VInt 1)]), (set_node (mx_world None) (lit "/n/app.toml") (NFile (firstn 3 (utf8_encode (lit "x = 1"))))).
  split; [repeat constructor; cbn; intuition discriminate|]. split; [reflexivity|]. split.
  - eapply (CrashInWrite _ _ _ _ _ _ [] (clause "b" [DirPath (lit "/n")] (Some true)) []
      _ _ (lit "/n/app.toml") (lit "/n/app.toml") (lit "x = 1")); try reflexivity.
    + apply RunEnd.
    + exists [lit "/n/app.toml"]. split; [|split].
      * exists [lit "/n"], [(lit "/n/app.toml", lit "toml")].
        split; [repeat constructor; eexists; split; [reflexivity | constructor]|]. split; [repeat constructor | reflexivity].
      * apply ChosenFirst. intros q [<-|[]]. reflexivity.
      * apply extension_iff. reflexivity.
    + reflexivity.
    + exists [(lit "default", LMemory (VMap [(lit "x", VInt 1)]))], []. split; [reflexivity|]. cbn. intuition discriminate.
    + refine (CrashDuring _ _ _ 3 _ _); [discriminate | reflexivity].
  - do 3 eexists. split; [reflexivity|]. split; [reflexivity|]. split; reflexivity.
Qed.
Print Assumptions C54_torn_file_is_repaired_refuted.
