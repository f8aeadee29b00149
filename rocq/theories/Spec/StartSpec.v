(** Vocabulary for starting a program: [create_config!] followed by a build (C87). *)
From Coq Require Import ZArith List Bool String.
Import ListNotations.
From Verif.Model Require Import Text Value Paths Finder World Layers Config Macro.
From Verif.Spec Require Import Spec EnvSpec PathSpec ReadsSpec MacroSpec.

(** The names of the layers are distinct, also from the two built-in names. *)
Definition distinct_start (ms : macro_spec) : Prop :=
  NoDup (lit "default" :: lit "environment" :: map ls_name (ms_layers ms)).

(** The defaults are Values that Rust can build. *)
Definition proper_defaults (ms : macro_spec) : Prop :=
  forall k x, In (k, x) (ms_default ms) -> is_text k = true /\ wf x.
(** The TOML parser yields such Values. *)
Definition proper_codec (tc : codec) : Prop := forall t v, toml_from_str tc t = Ok v -> wf v.

(** [contributes tc w l ms]: in the world w the layer l contributes the maps ms
    (at most one): a memory layer its map; a file layer the map in its file (the
    empty one if there is no file), nothing if the file has no map or cannot be
    read; an environment layer the texts of the exposed variables, nothing if its
    prefix is blank. *)
Inductive contributes (tc : codec) (w : world) : layer -> list value -> Prop :=
| ConMemory v : mapv v -> contributes tc w (LMemory v) [v]
| ConFile p v : file_answer tc w p (Ok v) -> mapv v -> contributes tc w (LFile (toml_handler tc) p) [v]
| ConFileOther p v : file_answer tc w p (Ok v) -> ~ mapv v -> contributes tc w (LFile (toml_handler tc) p) []
| ConFileError p e : file_answer tc w p (Err e) -> contributes tc w (LFile (toml_handler tc) p) []
| ConEnv prefix p v : trimmed prefix p -> p <> [] -> mapv v ->
    (forall k x, holds v k x <-> exists s, last_exposed p (w_env w) k s /\ x = VStr s) ->
    contributes tc w (env_layer_new prefix) [v]
| ConEnvBlank prefix : trimmed prefix [] -> contributes tc w (env_layer_new prefix) [].

(** The environment gives key k the text s. *)
Definition env_gives (ms : macro_spec) (w : world) (k s : str) : Prop :=
  exists prefix p, ms_env ms = Some prefix /\ trimmed prefix p /\ p <> [] /\ last_exposed p (w_env w) k s.

(** The file layers registered by the clauses, in order. *)
Definition file_layers (tc : codec) (ms : macro_spec) (w w' : world) (fs : list (str * path)) : Prop :=
  exists dv, value_map_macro (ms_default ms) = Done dv
    /\ macro_run tc (ms_file_name ms) dv [(lit "default", LMemory dv)] w (ms_layers ms)
         ((lit "default", LMemory dv) :: map (fun np => (fst np, LFile (toml_handler tc) (snd np))) fs) w'.
