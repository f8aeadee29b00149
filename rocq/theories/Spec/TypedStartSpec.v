(** Which source decides a setting after a start (C115). *)
From Coq Require Import List.
Import ListNotations.
From Verif.Model Require Import Text Value Paths Finder World Layers Config Macro.
From Verif.Spec Require Import Spec EnvSpec PathSpec ReadsSpec MacroSpec StartSpec.

(** Of the file layers fs, none gives the key k a value. *)
Definition no_file_has (tc : codec) (w' : world) (fs : list (str * path)) (k : str) : Prop :=
  forall n p m, In (n, p) fs -> file_answer tc w' p (Ok m) -> lacks m k.

(** [decides ... k x]: the setting k is decided by the Value x - the text of the
    environment variable; without one, what the last file that has the key gives
    it (not a table: tables are merged, C111); without one, the last default
    given for it. *)
Inductive decides (tc : codec) (ms : macro_spec) (w w' : world) (fs : list (str * path)) (k : str) : value -> Prop :=
| DcVariable s : env_gives ms w k s -> decides tc ms w w' fs k (VStr s)
| DcFile before n p after m x : (forall s, ~ env_gives ms w k s) -> fs = before ++ (n, p) :: after ->
    file_answer tc w' p (Ok m) -> holds m k x -> ~ mapv x -> no_file_has tc w' after k -> decides tc ms w w' fs k x
| DcDefault x : (forall s, ~ env_gives ms w k s) -> no_file_has tc w' fs k -> last_binding (ms_default ms) k x ->
    decides tc ms w w' fs k x.

(** Nobody gives the key a value. *)
Definition unmentioned (tc : codec) (ms : macro_spec) (w w' : world) (fs : list (str * path)) (k : str) : Prop :=
  (forall s, ~ env_gives ms w k s) /\ no_file_has tc w' fs k /\ forall x, ~ last_binding (ms_default ms) k x.
