(** Vocabulary for what layers read (C85, C86). *)
From Coq Require Import ZArith List Bool String.
Import ListNotations.
From Verif.Model Require Import Text Value Paths Finder World Layers Config.
From Verif.Spec Require Import Spec EnvSpec PathSpec.

(** [file_answer tc w p x]: in the world w, a TOML file layer on p answers x. *)
Inductive file_answer (tc : codec) (w : world) (p : path) : result value bak_error -> Prop :=
| AnsMissing : w_fs w p = None -> file_answer tc w p (Ok (VMap []))
| AnsFolder : w_fs w p = Some NDir -> file_answer tc w p (Err (BIo IoIsDirectory))
| AnsDenied bs : w_fs w p = Some (NFile bs) -> w_can_read w p = false -> file_answer tc w p (Err (BIo IoDenied))
| AnsNoText bs : w_fs w p = Some (NFile bs) -> w_can_read w p = true -> (forall s, ~ utf8 bs s) ->
    file_answer tc w p (Err (BIo IoInvalidUtf8))
| AnsNoToml bs s msg : w_fs w p = Some (NFile bs) -> w_can_read w p = true -> utf8 bs s ->
    toml_from_str tc s = Err msg -> file_answer tc w p (Err (BLayer (LParseError msg)))
| AnsValue bs s v : w_fs w p = Some (NFile bs) -> w_can_read w p = true -> utf8 bs s ->
    toml_from_str tc s = Ok v -> file_answer tc w p (Ok v).

(** [looks_alike tc w w' l]: the two worlds agree on what concerns l: nothing for
    a memory layer, the file for a file layer, and for an environment layer which
    text the environment gives to each key. *)
Inductive looks_alike (tc : codec) (w w' : world) : layer -> Prop :=
| LookMemory v : looks_alike tc w w' (LMemory v)
| LookEnv prefix p : trimmed prefix p ->
    (forall k s, last_exposed p (w_env w) k s <-> last_exposed p (w_env w') k s) ->
    looks_alike tc w w' (env_layer_new prefix)
| LookFile p : w_fs w p = w_fs w' p -> w_can_read w p = w_can_read w' p ->
    looks_alike tc w w' (LFile (toml_handler tc) p).

(** The world w with another environment. *)
Definition with_env (w : world) (env : list (list byte * list byte)) : world :=
  {| w_files := w_files w; w_target := w_target w; w_can_read := w_can_read w; w_can_open := w_can_open w; w_room := w_room w;
     w_env := env; w_platform := w_platform w |}.
(** The environment prefixes of some layers. *)
Definition prefix_of (r : list (str * layer)) (p : str) : Prop :=
  exists n prefix, In (n, env_layer_new prefix) r /\ trimmed prefix p /\ p <> [].
