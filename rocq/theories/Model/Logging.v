(** What the library hands to the [log] crate (C113, C114): the functions of
    Model/{Layers,Config,Finder,Macro}.v once more, each with the records it
    logs, in order.  A record is its arguments; the wording around them is not
    modelled, nor the filtering of records by the installed logger. *)
From Coq Require Import ZArith List Bool String.
Import ListNotations.
From Verif.Model Require Import Text Value Merge Paths Finder World Layers Config Macro.

Inductive message :=
| MsgLayerExists (name : str)                   (* trace!, src/config.rs:31-34 *)
| MsgLoadingEnv (prefix : str)                  (* trace!, src/config_layer/layer_env.rs:49-52 *)
| MsgBadKey (key : list byte)                   (* trace!, layer_env.rs:59 *)
| MsgBadValue (key : str) (bytes : list byte)   (* debug!, layer_env.rs:73-77 *)
| MsgReading (p : path)                         (* trace!, src/config_layer/handlers/toml.rs:8 *)
| MsgWriting (p : path)                         (* trace!, handlers/toml.rs:14 *)
| MsgSkipped (name : str) (e : bak_error)       (* warn!, src/config.rs:135 *)
| MsgUnresolved (d : os_dir)                    (* warn!, src/file_finder/os_directory.rs:72 *)
| MsgNotWritten (layer : str) (e : bak_error)   (* warn!, src/config_macro.rs:37 *)
| MsgNoFile (e : finder_error).                 (* warn!, src/config_macro.rs:43 *)

Inductive level := Trace | Debug | Warn.
Definition level_of (m : message) : level :=
  match m with
  | MsgLayerExists _ | MsgLoadingEnv _ | MsgBadKey _ | MsgReading _ | MsgWriting _ => Trace
  | MsgBadValue _ _ => Debug
  | MsgSkipped _ _ | MsgUnresolved _ | MsgNotWritten _ _ | MsgNoFile _ => Warn
  end.

(** ** Layers *)
(** One iteration of the loop in [EnvironmentConfigLayer::read_value],
    layer_env.rs:55-83. *)
Definition env_step_log (prefix : str) (st : vmap * list message) (kv : list byte * list byte) : vmap * list message :=
  let '(m, log) := st in
  match utf8_decode (fst kv) with
  | None => (m, log ++ [MsgBadKey (fst kv)])
  | Some k0 =>
    let str_key := trim k0 in
    if negb (starts_with prefix str_key) then (m, log)
    else
      let key := trim_start_matches prefix str_key in
      match utf8_decode (snd kv) with
      | None => (m, log ++ [MsgBadValue key (snd kv)])
      | Some v => (minsert key (VStr v) m, log)
      end
  end.
(** [EnvironmentConfigLayer::read_value], layer_env.rs:41-86. *)
Definition env_read_log (prefix : str) (env : list (list byte * list byte)) : result value bak_error * list message :=
  match prefix with
  | [] => (Err (BLayer (LErrorReadingValue empty_prefix_msg)), [])
  | _ => let '(m, log) := fold_left (env_step_log prefix) env ([], [MsgLoadingEnv prefix]) in (Ok (VMap m), log)
  end.
(** [ConfigLayer::read_value].  The handler of a file layer is the library's
    [TomlFileHandler] (handlers/toml.rs:7-11: the record comes first); what a
    user's own handlers and layers log is theirs and not listed. *)
Definition layer_read_log (w : world) (l : layer) : result value bak_error * list message :=
  match l with
  | LMemory v => (Ok v, [])
  | LEnv prefix => env_read_log prefix (w_env w)
  | LFile h p => if negb (fs_exists w p) then (Ok new_map, []) else (fh_read h w p, [MsgReading p])
  | LCustom c => (cl_read c w, [])
  end.
(** [ConfigLayer::write_value]; handlers/toml.rs:13-21. *)
Definition layer_write_log (w : world) (l : layer) (v : value) : (world * result unit bak_error) * list message :=
  (layer_write w l v, match l with LFile _ p => [MsgWriting p] | _ => [] end).

(** ** Configurations *)
(** [push_layer], src/config.rs:29-40. *)
Definition push_layer_log (c : config) (name : str) (l : layer) : config * list message :=
  if mhas name (layers c) then (c, [MsgLayerExists name])
  else ({| layers_names := layers_names c ++ [name]; layers := minsert name l (layers c) |}, []).
(** [add_file_layer], src/config.rs:54-79. *)
Definition add_file_layer_log (tc : codec) (c : config) (name : str) (p : path) : (config * result unit bak_error) * list message :=
  if ext_match_path ExtToml p
  then let '(c', log) := push_layer_log c name (file_layer_new (toml_handler tc) p) in ((c', Ok tt), log)
  else
    let ext := match extension p with Some e => e | None => [] end in
    ((c, Err (BLayer (LUnsupportedExtension ext))), []).
(** [build_value], src/config.rs:127-148. *)
Fixpoint build_loop_log (w : world) (ls : list (str * layer)) (skip : bool) (acc : value) (names : list str) (log : list message)
  : result value bak_error * list message :=
  match names with
  | [] => (Ok acc, log)
  | n :: rest =>
    match mget n ls with
    | Some l =>
      let '(r, ms) := layer_read_log w l in
      match r with
      | Err e => if skip then build_loop_log w ls skip acc rest (log ++ ms ++ [MsgSkipped n e]) else (Err e, log ++ ms)
      | Ok v => build_loop_log w ls skip (v_merge acc v) rest (log ++ ms)
      end
    | None => build_loop_log w ls skip acc rest log
    end
  end.
Definition build_value_log (w : world) (c : config) (skip_on_error : bool) : result value bak_error * list message :=
  build_loop_log w (layers c) skip_on_error new_map (layers_names c) [].

(** ** [create_config!] *)
(** [with_os_directory], src/file_finder/os_directory.rs:68-75. *)
Definition finder_with_os_dir_log (pf : platform) (st : finder * list message) (d : os_dir) : finder * list message :=
  match to_path_buf pf d with
  | Some p => (finder_with_folder (fst st) p, snd st)
  | None => (fst st, snd st ++ [MsgUnresolved d])
  end.
(** config_macro.rs:18-20. *)
Definition layer_finder_log (w : world) (fname : str) (ls : layer_spec) : finder * list message :=
  fold_left (finder_with_os_dir_log (w_platform w)) (ls_dirs ls) (finder_with_supported (finder_new fname), []).
(** One clause, config_macro.rs:18-44; simplified as [run_layer]. *)
Definition run_layer_log (tc : codec) (fname : str) (default_value : value) (st : config * world) (ls : layer_spec)
  : outcome ((config * world) * list message) finder_error :=
  let '(cfg, w) := st in
  let '(finder, log) := layer_finder_log w fname ls in
  match find_first (fun _ => fs_exists w) finder true with
  | Done layer_path =>
    let p := fr_path layer_path in
    let '((cfg', r), log1) := add_file_layer_log tc cfg (ls_name ls) p in
    let added := match r with Ok _ => true | Err _ => false end in
    match ls_init ls with
    | None => Done ((cfg', w), log ++ log1)
    | Some init =>
      if added && negb (fs_exists w p) && init then
        match get_layer cfg' (ls_name ls) with
        | Some l =>
          let '((w', res), log2) := layer_write_log w l default_value in
          Done ((cfg', w'), log ++ log1 ++ log2 ++ match res with Ok _ => [] | Err e => [MsgNotWritten (ls_name ls) e] end)
        | None => Done ((cfg', w), log ++ log1)
        end
      else Done ((cfg', w), log ++ log1)
    end
  | Fail e => Done ((cfg, w), log ++ [MsgNoFile e])
  | Panic => Panic
  end.
Fixpoint run_layers_log (tc : codec) (fname : str) (default_value : value) (st : config * world) (ls : list layer_spec) (log : list message)
  : outcome ((config * world) * list message) finder_error :=
  match ls with
  | [] => Done (st, log)
  | l :: rest => obind (run_layer_log tc fname default_value st l) (fun r => run_layers_log tc fname default_value (fst r) rest (log ++ snd r))
  end.
(** The whole expansion, config_macro.rs:8-52. *)
Definition create_config_log (tc : codec) (ms : macro_spec) (w : world) : outcome ((config * world) * list message) finder_error :=
  match value_map_macro (ms_default ms) with
  | Done default_value =>
    let '(config0, log0) := push_layer_log config_new (lit "default") (mem_layer_new default_value) in
    obind (run_layers_log tc (ms_file_name ms) default_value (config0, w) (ms_layers ms) log0) (fun r =>
      let '((cfg, w'), log) := r in
      match ms_env ms with
      | Some prefix => let '(cfg', log1) := push_layer_log cfg (lit "environment") (env_layer_new prefix) in Done ((cfg', w'), log ++ log1)
      | None => Done ((cfg, w'), log)
      end)
  | _ => Panic
  end.
