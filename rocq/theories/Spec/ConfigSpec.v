(** Vocabulary for configurations (C26-C31): which layers a configuration has,
    and in which order. *)
From Coq Require Import ZArith List Bool Permutation String.
Import ListNotations.
From Verif.Model Require Import Text Value Paths Finder World Layers Config.
From Verif.Spec Require Import Spec PathSpec.

(** [registered c r]: r lists the layers of c, in order of registration, with
    distinct names.  (The HashMap behind c may iterate in any order.) *)
Definition registered (c : config) (r : list (str * layer)) : Prop :=
  layers_names c = map fst r /\ NoDup (map fst r) /\ Permutation (layers c) r.

(** [keeps_first h r]: r keeps, of the history h of registrations, the first one
    of every name, in order. *)
Inductive keeps_first {A} : list (str * A) -> list (str * A) -> Prop :=
| KeepNil : keeps_first [] []
| KeepNew h r n l : keeps_first h r -> ~ In n (map fst h) -> keeps_first (h ++ [(n, l)]) (r ++ [(n, l)])
| KeepOld h r n l : keeps_first h r -> In n (map fst h) -> keeps_first (h ++ [(n, l)]) r.

(** The registrations a history of API calls attempts: an [add_file_layer] call
    on a path whose extension is not "toml" is refused. *)
Definition toml_path (p : path) : Prop := has_extension p (lit "toml").
Inductive registrations (tc : codec) : list config_op -> list (str * layer) -> Prop :=
| RegNil : registrations tc [] []
| RegLayer ops h n l : registrations tc ops h -> registrations tc (ops ++ [OpLayer n l]) (h ++ [(n, l)])
| RegEnv ops h n p : registrations tc ops h -> registrations tc (ops ++ [OpEnv n p]) (h ++ [(n, env_layer_new p)])
| RegMem ops h n v : registrations tc ops h -> registrations tc (ops ++ [OpMemory n v]) (h ++ [(n, LMemory v)])
| RegFile ops h n p : registrations tc ops h -> toml_path p ->
    registrations tc (ops ++ [OpFile n p]) (h ++ [(n, LFile (toml_handler tc) p)])
| RegFileRefused ops h n p : registrations tc ops h -> ~ toml_path p ->
    registrations tc (ops ++ [OpFile n p]) h.

(** What the layers read, one by one. *)
Definition reads (w : world) (r : list (str * layer)) (rs : list (result value bak_error)) : Prop :=
  Forall2 (fun nl x => layer_read w (snd nl) = x) r rs.

(** [only_maps vs ms]: ms are the maps among vs. *)
Inductive only_maps : list value -> list value -> Prop :=
| OmNil : only_maps [] []
| OmMap v vs ms : mapv v -> only_maps vs ms -> only_maps (v :: vs) (v :: ms)
| OmSkip v vs ms : ~ mapv v -> only_maps vs ms -> only_maps (v :: vs) ms.

(** [without_failing w r r']: r' is r without the layers that fail to read. *)
Inductive without_failing (w : world) : list (str * layer) -> list (str * layer) -> Prop :=
| WfNil : without_failing w [] []
| WfKeep nl r r' v : layer_read w (snd nl) = Ok v -> without_failing w r r' ->
    without_failing w (nl :: r) (nl :: r')
| WfDrop nl r r' e : layer_read w (snd nl) = Err e -> without_failing w r r' ->
    without_failing w (nl :: r) r'.
