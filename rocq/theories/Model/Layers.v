(** Configuration layers: src/config_layer/*.rs. *)
From Coq Require Import ZArith List Bool String.
Import ListNotations.
From Verif.Model Require Import Text Value Paths Finder World.
Open Scope Z_scope.

(** The [FileHandler] trait, src/config_layer/file_handler.rs:8-11. *)
Record file_handler := {
  fh_read : world -> path -> result value bak_error;
  fh_write : world -> path -> value -> world * result unit bak_error
}.

(** The [toml] crate: [toml::from_str::<Value>] and [toml::to_string_pretty],
    with their error texts.  External: theorems hold for every codec, and what
    a theorem needs of it is an explicit hypothesis. *)
Record codec := {
  toml_from_str : str -> result value str;
  toml_to_string : value -> result str str
}.

(** [TomlFileHandler::read], src/config_layer/handlers/toml.rs:7-11. *)
Definition toml_read (c : codec) (w : world) (p : path) : result value bak_error :=
  match fs_read_to_string w p with
  | Err e => Err (BIo e)
  | Ok content =>
    match toml_from_str c content with
    | Ok v => Ok v
    | Err msg => Err (BLayer (LParseError msg))
    end
  end.

(** [TomlFileHandler::write], src/config_layer/handlers/toml.rs:13-21. *)
Definition toml_write (c : codec) (w : world) (p : path) (v : value)
  : world * result unit bak_error :=
  match toml_to_string c v with
  | Err msg => (w, Err (BLayer (LSerializeError msg)))
  | Ok content =>
    match fs_write w p (utf8_encode content) with
    | (w', Ok _) => (w', Ok tt)
    | (w', Err e) => (w', Err (BIo e))
    end
  end.

Definition toml_handler (c : codec) : file_handler :=
  {| fh_read := toml_read c; fh_write := toml_write c |}.

(** A user-defined implementation of the [ConfigLayer] trait
    (src/config_layer/layer.rs:3-13), given by its method behaviours. *)
Record custom_layer := {
  cl_name : str;
  cl_has_value : world -> bool;
  cl_read : world -> result value bak_error;
  cl_can_write : bool;
  cl_write : world -> value -> world * result unit bak_error
}.

(** [Box<dyn ConfigLayer>]. *)
Inductive layer :=
| LMemory (v : value)                        (* MemoryConfigLayer, layer_mem.rs:5-7 *)
| LEnv (prefix : str)                        (* EnvironmentConfigLayer, layer_env.rs:7-9 *)
| LFile (h : file_handler) (p : path)        (* FileConfigLayer<T>, layer_file.rs:8-14 *)
| LCustom (c : custom_layer).

(** [EnvironmentConfigLayer::new], layer_env.rs:13-17. *)
Definition env_layer_new (prefix : str) : layer := LEnv (trim prefix).
(** [MemoryConfigLayer::new], layer_mem.rs:11-13. *)
Definition mem_layer_new (v : value) : layer := LMemory v.
(** [FileConfigLayer::new], layer_file.rs:20-25. *)
Definition file_layer_new (h : file_handler) (p : path) : layer := LFile h p.

(** One iteration of the loop in [EnvironmentConfigLayer::read_value],
    layer_env.rs:55-83. *)
Definition env_step (prefix : str) (m : vmap) (kv : list byte * list byte) : vmap :=
  match utf8_decode (fst kv) with
  | None => m                                         (* :58-61 *)
  | Some k0 =>
    let str_key := trim k0 in                         (* :57 *)
    if negb (starts_with prefix str_key) then m       (* :64-66 *)
    else
      let key := trim_start_matches prefix str_key in (* :68 *)
      match utf8_decode (snd kv) with
      | None => m                                     (* :72-79 *)
      | Some v => minsert key (VStr v) m              (* :82 *)
      end
  end.

Definition empty_prefix_msg : str := lit "Environment prefix cannot be empty".

(** [EnvironmentConfigLayer::read_value], layer_env.rs:41-86.  [env] is
    [std::env::vars_os()] in its order. *)
Definition env_read (prefix : str) (env : list (list byte * list byte))
  : result value bak_error :=
  match prefix with
  | [] => Err (BLayer (LErrorReadingValue empty_prefix_msg))
  | _ => Ok (VMap (fold_left (env_step prefix) env []))
  end.

(** [ConfigLayer::get_name]: layer_mem.rs:17, layer_env.rs:25, layer_file.rs:40. *)
Definition layer_name (l : layer) : str :=
  match l with
  | LMemory _ => lit "Memory"
  | LEnv _ => lit "Environment"
  | LFile _ _ => lit "File"
  | LCustom c => cl_name c
  end.

(** [ConfigLayer::has_value]: layer_mem.rs:21, layer_env.rs:29, layer_file.rs:44. *)
Definition layer_has_value (w : world) (l : layer) : bool :=
  match l with
  | LMemory _ => true
  | LEnv _ => true
  | LFile _ p => fs_exists w p
  | LCustom c => cl_has_value c w
  end.

(** [ConfigLayer::can_write]: layer_mem.rs:25, layer_env.rs:33, layer_file.rs:48. *)
Definition layer_can_write (l : layer) : bool :=
  match l with
  | LMemory _ | LEnv _ | LFile _ _ => false
  | LCustom c => cl_can_write c
  end.

(** [ConfigLayer::read_value]: layer_mem.rs:33, layer_env.rs:41, layer_file.rs:56-62. *)
Definition layer_read (w : world) (l : layer) : result value bak_error :=
  match l with
  | LMemory v => Ok v
  | LEnv prefix => env_read prefix (w_env w)
  | LFile h p => if negb (fs_exists w p) then Ok new_map else fh_read h w p
  | LCustom c => cl_read c w
  end.

(** [ConfigLayer::write_value]: layer_mem.rs:29, layer_env.rs:37, layer_file.rs:52-54. *)
Definition layer_write (w : world) (l : layer) (v : value) : world * result unit bak_error :=
  match l with
  | LMemory _ => (w, Err (BLayer LWriteNotSupported))
  | LEnv _ => (w, Err (BLayer LWriteNotSupported))
  | LFile h p => fh_write h w p v
  | LCustom c => cl_write c w v
  end.

(** [EnvironmentConfigLayer::get_prefix], layer_env.rs:19-21, on
    [EnvironmentConfigLayer::new(prefix)]. *)
Definition env_get_prefix (l : layer) : option str :=
  match l with LEnv p => Some p | _ => None end.
(** [Display for EnvironmentConfigLayer], layer_env.rs:89-93. *)
Definition env_display (l : layer) : option str :=
  match l with
  | LEnv p => Some (lit "EnvironmentConfigLayer[" ++ p ++ lit "]")
  | _ => None
  end.
(** [FileConfigLayer::get_path], [FileConfigLayer::exists], layer_file.rs:27-33. *)
Definition file_get_path (l : layer) : option path :=
  match l with LFile _ p => Some p | _ => None end.
Definition file_exists (w : world) (l : layer) : option bool :=
  match l with LFile _ p => Some (fs_exists w p) | _ => None end.
