(** The same code in a world shared with other processes: between two accesses
    of this process to the outside world (an existence check, a file read, a
    file write, a look at the environment), other processes may change the world
    in any way.  Simplification: each such access is one atomic step (another
    process' non-atomic write shows up as several steps of [others]). *)
From Coq Require Import ZArith List Bool String.
Import ListNotations.
From Verif.Model Require Import Text Value Merge Paths Finder World Layers Config Macro.

(** A write performed by this process: the layer written, the world in which the
    existence check before it was answered, the world it was applied to and the
    world it left. *)
Record write_event := { we_layer : layer; we_checked : world; we_before : world; we_after : world }.

(** The state of a run: accesses made so far, the current world, own writes. *)
Record run := { r_clock : nat; r_world : world; r_log : list write_event }.
Definition run_start (w : world) : run := {| r_clock := 0; r_world := w; r_log := [] |}.

Section Shared.
(** What the other processes do right before our n-th access. *)
Variable others : nat -> world -> world.

Definition tick (s : run) : run :=
  {| r_clock := S (r_clock s); r_world := others (r_clock s) (r_world s); r_log := r_log s |}.

(** [ConfigLayer::read_value] (layer_mem.rs:33, layer_env.rs:41-86,
    layer_file.rs:56-62): the file layer checks [exists()] and then reads. *)
Definition c_layer_read (s : run) (l : layer) : run * result value bak_error :=
  match l with
  | LMemory v => (s, Ok v)
  | LEnv prefix => let s1 := tick s in (s1, env_read prefix (w_env (r_world s1)))
  | LFile h p =>
    let s1 := tick s in
    if negb (fs_exists (r_world s1) p) then (s1, Ok new_map)
    else let s2 := tick s1 in (s2, fh_read h (r_world s2) p)
  | LCustom c => let s1 := tick s in (s1, cl_read c (r_world s1))
  end.

(** The loop of [build_value], src/config.rs:130-145. *)
Fixpoint c_build_loop (s : run) (ls : list (str * layer)) (skip : bool)
    (acc : value) (names : list str) : run * result value bak_error :=
  match names with
  | [] => (s, Ok acc)
  | n :: rest =>
    match mget n ls with
    | Some l =>
      match c_layer_read s l with
      | (s', Err e) => if skip then c_build_loop s' ls skip acc rest else (s', Err e)
      | (s', Ok v) => c_build_loop s' ls skip (v_merge acc v) rest
      end
    | None => c_build_loop s ls skip acc rest
    end
  end.
(** [build_value], src/config.rs:127-148. *)
Definition c_build_value (s : run) (c : config) (skip_on_error : bool) : run * result value bak_error :=
  c_build_loop s (layers c) skip_on_error new_map (layers_names c).

(** [find_first] (alg_find_first.rs:14-41): its n-th [exists()] call is answered
    by the world of that moment. *)
Definition run_oracle (s : run) : fs_oracle := fun n => fs_exists (r_world (Nat.iter (S n) tick s)).
Definition c_find_first (s : run) (f : finder) (allow : bool) : run * outcome find_result finder_error :=
  match finder_validate f with
  | Err e => (s, Fail e)
  | Ok _ =>
    match find_first_folders (run_oracle s) allow (ff_name f) (ff_exts f) (ff_folders f) None 0 with
    | Done (Return r, t) => (Nat.iter t tick s, Done r)
    | Done (Next first, t) =>
      (Nat.iter t tick s,
       if allow then match first with Some r => Done r | None => Fail NoFilesFound end else Fail NoFilesFound)
    | Fail e => (s, Fail e)
    | Panic => (s, Panic)
    end
  end.

(** One clause of [create_config!], config_macro.rs:18-44.  Simplification: the
    platform directories are those of the moment the clause starts. *)
Definition c_run_layer (tc : codec) (fname : str) (default_value : value)
    (st : config * run) (ls : layer_spec) : outcome (config * run) finder_error :=
  let '(cfg, s) := st in
  let '(s1, found) := c_find_first s (layer_finder (r_world s) fname ls) true in
  match found with
  | Done layer_path =>
    let p := fr_path layer_path in
    let '(cfg', r) := add_file_layer tc cfg (ls_name ls) p in
    match ls_init ls, r with
    | Some init, Ok _ =>
      let s2 := tick s1 in
      if negb (fs_exists (r_world s2) p) && init then
        match get_layer cfg' (ls_name ls) with
        | Some l =>
          let s3 := tick s2 in
          let w' := fst (layer_write (r_world s3) l default_value) in
          Done (cfg', {| r_clock := r_clock s3; r_world := w';
                         r_log := r_log s3 ++ [{| we_layer := l; we_checked := r_world s2;
                                                  we_before := r_world s3; we_after := w' |}] |})
        | None => Done (cfg', s2)
        end
      else Done (cfg', s2)
    | _, _ => Done (cfg', s1)
    end
  | Fail _ => Done (cfg, s1)
  | Panic => Panic
  end.

Fixpoint c_run_layers (tc : codec) (fname : str) (default_value : value)
    (st : config * run) (ls : list layer_spec) : outcome (config * run) finder_error :=
  match ls with
  | [] => Done st
  | l :: rest =>
    obind (c_run_layer tc fname default_value st l) (fun st' =>
      c_run_layers tc fname default_value st' rest)
  end.

(** The whole expansion, config_macro.rs:8-52. *)
Definition c_create_config (tc : codec) (ms : macro_spec) (s : run)
  : outcome (config * run) finder_error :=
  match value_map_macro (ms_default ms) with
  | Done default_value =>
    let config0 := add_memory_layer config_new (lit "default") default_value in
    obind (c_run_layers tc (ms_file_name ms) default_value (config0, s) (ms_layers ms)) (fun st =>
      match ms_env ms with
      | Some prefix => Done (add_environment_layer (fst st) (lit "environment") prefix, snd st)
      | None => Done st
      end)
  | _ => Panic
  end.
End Shared.
