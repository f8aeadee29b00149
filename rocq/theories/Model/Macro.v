(** The [create_config!] macro: src/config_macro.rs:2-54. *)
From Coq Require Import ZArith List Bool String.
Import ListNotations.
From Verif.Model Require Import Text Value Merge Paths Finder World Layers Config.
Open Scope Z_scope.

(** One ["name": [Dir, ...] init: b] clause, config_macro.rs:6. *)
Record layer_spec := {
  ls_name : str;
  ls_dirs : list os_dir;
  ls_init : option bool
}.

(** The macro's arguments, config_macro.rs:3-7. *)
Record macro_spec := {
  ms_file_name : str;
  ms_default : list (str * value);
  ms_env : option str;
  ms_layers : list layer_spec
}.

(** The finder of one clause, config_macro.rs:18-20. *)
Definition layer_finder (w : world) (fname : str) (ls : layer_spec) : finder :=
  fold_left (finder_with_os_dir (w_platform w)) (ls_dirs ls)
            (finder_with_supported (finder_new fname)).

(** One clause, config_macro.rs:18-44.  Simplification: nothing else touches
    the file system while one clause runs (see C46 for searches under
    concurrent changes). *)
Definition run_layer (tc : codec) (fname : str) (default_value : value)
    (st : config * world) (ls : layer_spec) : outcome (config * world) finder_error :=
  let '(cfg, w) := st in
  match find_first (fun _ => fs_exists w) (layer_finder w fname ls) true with
  | Done layer_path =>
    let p := fr_path layer_path in
    let '(cfg', r) := add_file_layer tc cfg (ls_name ls) p in
    let added := match r with Ok _ => true | Err _ => false end in
    match ls_init ls with
    | None => Done (cfg', w)
    | Some init =>
      if added && negb (fs_exists w p) && init then
        match get_layer cfg' (ls_name ls) with
        | Some l => Done (cfg', fst (layer_write w l default_value))
        | None => Done (cfg', w)
        end
      else Done (cfg', w)
    end
  | Fail _ => Done (cfg, w)
  | Panic => Panic
  end.

Fixpoint run_layers (tc : codec) (fname : str) (default_value : value)
    (st : config * world) (ls : list layer_spec) : outcome (config * world) finder_error :=
  match ls with
  | [] => Done st
  | l :: rest =>
    obind (run_layer tc fname default_value st l) (fun st' =>
      run_layers tc fname default_value st' rest)
  end.

(** The whole expansion, config_macro.rs:8-52. *)
Definition create_config (tc : codec) (ms : macro_spec) (w : world)
  : outcome (config * world) finder_error :=
  match value_map_macro (ms_default ms) with
  | Done default_value =>
    let config0 := add_memory_layer config_new (lit "default") default_value in
    obind (run_layers tc (ms_file_name ms) default_value (config0, w) (ms_layers ms)) (fun st =>
      match ms_env ms with
      | Some prefix => Done (add_environment_layer (fst st) (lit "environment") prefix, snd st)
      | None => Done st
      end)
  | _ => Panic
  end.
