(** [BakuninConfig]: src/config.rs. *)
From Coq Require Import ZArith List Bool String.
Import ListNotations.
From Verif.Model Require Import Text Value Merge Paths Finder World Layers.
Open Scope Z_scope.

(** src/config.rs:11-14.  [layers] is the HashMap (entry list in iteration
    order), [layers_names] the Vec. *)
Record config := {
  layers_names : list str;
  layers : list (str * layer)
}.

(** [BakuninConfig::new], src/config.rs:17-22. *)
Definition config_new : config := {| layers_names := []; layers := [] |}.

(** [push_layer] / [with_layer], src/config.rs:29-48. *)
Definition push_layer (c : config) (name : str) (l : layer) : config :=
  if mhas name (layers c) then c
  else {| layers_names := layers_names c ++ [name];
          layers := minsert name l (layers c) |}.

(** [add_file_layer] (feature toml), src/config.rs:54-79: new config and result. *)
Definition add_file_layer (tc : codec) (c : config) (name : str) (p : path)
  : config * result unit bak_error :=
  if ext_match_path ExtToml p
  then (push_layer c name (file_layer_new (toml_handler tc) p), Ok tt)
  else
    let ext := match extension p with Some e => e | None => [] end in
    (c, Err (BLayer (LUnsupportedExtension ext))).

(** [with_file_layer], src/config.rs:84-87: consumes the builder, so an error
    loses it. *)
Definition with_file_layer (tc : codec) (c : config) (name : str) (p : path)
  : result config bak_error :=
  match add_file_layer tc c name p with
  | (c', Ok _) => Ok c'
  | (_, Err e) => Err e
  end.

(** [add_environment_layer] / [with_environment_layer], src/config.rs:94-104. *)
Definition add_environment_layer (c : config) (name prefix : str) : config :=
  push_layer c name (env_layer_new prefix).

(** [add_memory_layer] / [with_memory_layer], src/config.rs:109-119. *)
Definition add_memory_layer (c : config) (name : str) (v : value) : config :=
  push_layer c name (mem_layer_new v).

(** [get_layer], src/config.rs:121-123. *)
Definition get_layer (c : config) (name : str) : option layer := mget name (layers c).

(** The loop of [build_value], src/config.rs:130-145. *)
Fixpoint build_loop (w : world) (ls : list (str * layer)) (skip : bool)
    (acc : value) (names : list str) : result value bak_error :=
  match names with
  | [] => Ok acc
  | n :: rest =>
    match mget n ls with
    | Some l =>
      match layer_read w l with
      | Err e => if skip then build_loop w ls skip acc rest else Err e
      | Ok v => build_loop w ls skip (v_merge acc v) rest
      end
    | None => build_loop w ls skip acc rest
    end
  end.

(** [build_value], src/config.rs:127-148. *)
Definition build_value (w : world) (c : config) (skip_on_error : bool) : result value bak_error :=
  build_loop w (layers c) skip_on_error new_map (layers_names c).

(** [Debug for BakuninConfig], src/config.rs:151-163: the (name, kind) pairs shown. *)
Definition debug_layers (c : config) : list (str * str) :=
  map (fun e => (fst e, layer_name (snd e))) (layers c).

(** ** The mutating API as a state machine (for histories). *)
Inductive config_op :=
| OpLayer (name : str) (l : layer)
| OpFile (name : str) (p : path)
| OpEnv (name prefix : str)
| OpMemory (name : str) (v : value).

Definition config_step (tc : codec) (c : config) (o : config_op) : config :=
  match o with
  | OpLayer n l => push_layer c n l
  | OpFile n p => fst (add_file_layer tc c n p)
  | OpEnv n p => add_environment_layer c n p
  | OpMemory n v => add_memory_layer c n v
  end.

Definition config_run (tc : codec) (ops : list config_op) : config :=
  fold_left (config_step tc) ops config_new.
