(** The long program of the README (section BakuninConfig, "Example of a full
    configuration handler"), which the README says [create_config!] simplifies. *)
From Coq Require Import ZArith List Bool String.
Import ListNotations.
From Verif.Model Require Import Text Value Merge Paths Finder World Layers Config Macro.

(** README.MD:240-288.  Its literals (file name, defaults, prefix) are parameters.
    [Panic]: the [unwrap] on [write_value] (README.MD:264).  Simplification: nothing
    else touches the file system meanwhile. *)
Definition readme_start (tc : codec) (fname : str) (defaults : list (str * value)) (prefix : str) (w : world)
  : outcome (config * world) finder_error :=
  match value_map_macro defaults with
  | Done default_value =>
    let config0 := add_memory_layer config_new (lit "default") default_value in
    let global_finder := finder_with_user_config (w_platform w) (finder_with_user_home (w_platform w)
                           (finder_with_supported (finder_new fname))) in
    obind (match find_first (fun _ => fs_exists w) global_finder true with
           | Done result =>
             let config1 := fst (add_file_layer tc config0 (lit "global") (fr_path result)) in
             if negb (fs_exists w (fr_path result)) then
               match get_layer config1 (lit "global") with
               | Some cfg =>
                 match layer_write w cfg default_value with
                 | (w1, Ok _) => Done (config1, w1)
                 | (_, Err _) => Panic
                 end
               | None => Done (config1, w)
               end
             else Done (config1, w)
           | Fail _ => Done (config0, w)
           | Panic => Panic
           end) (fun st =>
    let '(config1, w1) := st in
    let local_finder := finder_with_working_directory (w_platform w1) (finder_with_supported (finder_new fname)) in
    obind (match find_first (fun _ => fs_exists w1) local_finder false with
           | Done result => Done (fst (add_file_layer tc config1 (lit "local") (fr_path result)))
           | Fail _ => Done config1
           | Panic => Panic
           end) (fun config2 =>
    Done (add_environment_layer config2 (lit "env") prefix, w1)))
  | _ => Panic
  end.
