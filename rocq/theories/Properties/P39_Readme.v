(** C117: the README's long program and the macro that "simplifies" it. *)
From Coq Require Import ZArith Bool String.
From Coq Require Import List.
Import ListNotations.
From Verif.Model Require Import Text Value Merge Paths Finder World Layers Config Macro Readme.
From Verif.Spec Require Import Spec ConfigSpec FinderSpec PathSpec MacroSpec.
From Verif.Proofs Require Import ReadmeProofs.

(** The clauses of the README's macro call, README.MD:298-310. *)
Definition readme_global : layer_spec := {| ls_name := lit "global"; ls_dirs := [UserHome; UserConfig]; ls_init := Some true |}.
Definition readme_local : layer_spec := {| ls_name := lit "local"; ls_dirs := [WorkingDirectory]; ls_init := None |}.
Definition readme_macro (fname : str) (defaults : list (str * value)) (prefix : str) : macro_spec :=
  {| ms_file_name := fname; ms_default := defaults; ms_env := Some prefix; ms_layers := [readme_global; readme_local] |}.

(** Unless it panics, the long program leaves the same files and the same answers,
    then and later, as long as a local file missing at the start stays missing. *)
Theorem C117_long_program_agrees_with_macro : forall tc fname defaults prefix w,
  readme_start tc fname defaults prefix w <> Panic ->
  exists cfg cfg' w',
    create_config tc (readme_macro fname defaults prefix) w = Done (cfg, w')
    /\ readme_start tc fname defaults prefix w = Done (cfg', w')
    /\ forall later skip, (forall p, uses w' fname readme_local p -> missing w' p -> missing later p) ->
         build_value later cfg' skip = build_value later cfg skip.
Proof.
  intros tc fname defaults prefix w N. destruct (readme_same tc fname defaults prefix w) as (dv & cfg & w' & _ & M & _ & [P|(cfg' & E & B)]);
    [contradiction|]. exists cfg, cfg', w'. split; [exact M|]. split; [exact E|]. exact B.
Qed.
Print Assumptions C117_long_program_agrees_with_macro.

(** It panics exactly where the macro only warns: the global file is missing and
    cannot be written. *)
Theorem C117_long_program_panics_exactly : forall tc fname defaults prefix w,
  readme_start tc fname defaults prefix w = Panic <->
  exists dv p e, value_map_macro defaults = Done dv /\ uses w fname readme_global p /\ missing w p
    /\ snd (layer_write w (LFile (toml_handler tc) p) dv) = Err e.
Proof.
  intros tc fname defaults prefix w. destruct (readme_same tc fname defaults prefix w) as (dv & cfg & w' & D & _ & I & _).
  etransitivity; [exact I|]. split.
  - intros (p & e & H). exists dv, p, e. split; [exact D | exact H].
  - intros (dv' & p & e & D' & H). rewrite D in D'. injection D' as <-. exists p, e. exact H.
Qed.
Print Assumptions C117_long_program_panics_exactly.

(** A start out of an empty folder; later a local file appears. *)
Definition rm_codec : codec :=
  {| toml_from_str := fun s => Ok (VMap [(lit "x", VStr s)]); toml_to_string := fun _ => Ok (lit "written") |}.
Definition rm_world (can : bool) (local : option node) : world :=
  {| w_files := fun p => if str_eqb p (lit "/w/app.toml") then local else None;
     w_target := fun p => p; w_can_read := fun _ => true; w_can_open := fun _ => can; w_room := fun _ => None; w_env := [];
     w_platform := {| pf_base := Some {| bd_home := lit "/h"; bd_config := lit "/c"; bd_pref := lit "/p" |}; pf_cwd := Some (lit "/w") |} |}.
Definition rm_file : node := NFile (utf8_encode (lit "mine")).

(** Then they differ: the macro registers the missing local file, the long
    program does not. *)
Theorem C117_later_local_file_refuted :
  exists tc fname defaults prefix w cfg cfg' w' later skip,
    create_config tc (readme_macro fname defaults prefix) w = Done (cfg, w')
    /\ readme_start tc fname defaults prefix w = Done (cfg', w')
    /\ build_value later cfg' skip <> build_value later cfg skip.
Proof.
  exists rm_codec, (lit "app"), [(lit "x", VInt 1)], (lit "APP_"), (rm_world true None).
  assert (H : match create_config rm_codec (readme_macro (lit "app") [(lit "x", VInt 1)] (lit "APP_")) (rm_world true None),
                    readme_start rm_codec (lit "app") [(lit "x", VInt 1)] (lit "APP_") (rm_world true None) with
              | Done (cfg, w'), Done (cfg', w'') =>
                build_value (set_node w' (lit "/w/app.toml") rm_file) cfg true = Ok (VMap [(lit "x", VStr (lit "mine"))])
                /\ build_value (set_node w' (lit "/w/app.toml") rm_file) cfg' true = Ok (VMap [(lit "x", VStr (lit "written"))])
              | _, _ => False
              end) by (split; reflexivity).
  destruct (C117_long_program_agrees_with_macro rm_codec (lit "app") [(lit "x", VInt 1)] (lit "APP_") (rm_world true None)) as (cfg & cfg' & w' & E & E' & _).
  { intros P. rewrite P in H. destruct (create_config rm_codec _ _) as [[? ?]| |]; exact H. }
  rewrite E, E' in H. destruct H as [A B].
  exists cfg, cfg', w', (set_node w' (lit "/w/app.toml") rm_file), true. split; [exact E|]. split; [exact E'|].
  rewrite A, B. discriminate.
Qed.
Print Assumptions C117_later_local_file_refuted.

(** Both ways of ending occur; with a local file there from the start the answers
    come from it. *)
Example C117_example :
  readme_start rm_codec (lit "app") [(lit "x", VInt 1)] (lit "APP_") (rm_world false None) = Panic
  /\ match readme_start rm_codec (lit "app") [(lit "x", VInt 1)] (lit "APP_") (rm_world true (Some rm_file)) with
     | Done (cfg', w') => layers_names cfg' = map lit ["default"; "global"; "local"; "env"]%string
         /\ build_value w' cfg' true = Ok (VMap [(lit "x", VStr (lit "mine"))])
         /\ w_fs w' (lit "/h/app.toml") = Some (NFile (utf8_encode (lit "written")))
     | _ => False
     end.
Proof. split; [reflexivity|]. split; [reflexivity|]. split; reflexivity. Qed.
