(** Vocabulary for [create_config!] (C49-C54). *)
From Coq Require Import ZArith Bool String List.
Import ListNotations.
From Verif.Model Require Import Text Value Paths Finder World Layers Config Macro.
From Verif.Spec Require Import Spec ConfigSpec FinderSpec PathSpec.

(** The paths a clause looks at, in order: its resolvable folders joined with
    the file name, with extension "toml". *)
Definition clause_candidates (w : world) (fname : str) (ls : layer_spec) (ps : list path) : Prop :=
  exists ds cs, resolved (w_platform w) (ls_dirs ls) ds
    /\ candidates {| ff_folders := ds; ff_name := fname; ff_exts := [lit "toml"] |} cs
    /\ ps = map fst cs.

Definition missing (w : world) (p : path) : Prop := w_fs w p = None.

(** The path a clause settles on: the first candidate that exists, else the
    first candidate. *)
Inductive chosen (w : world) : list path -> path -> Prop :=
| ChosenExisting before p after : (forall q, In q before -> missing w q) -> ~ missing w p ->
    chosen w (before ++ p :: after) p
| ChosenFirst p rest : (forall q, In q (p :: rest) -> missing w q) -> chosen w (p :: rest) p.

Definition uses (w : world) (fname : str) (ls : layer_spec) (p : path) : Prop :=
  exists ps, clause_candidates w fname ls ps /\ chosen w ps p /\ has_extension p (lit "toml").

(** The first registration of a name in a history. *)
Definition first_named {A} (h : list (str * A)) (n : str) (l : A) : Prop :=
  exists before after, h = before ++ (n, l) :: after /\ ~ In n (map fst before).

(** [macro_run tc fname dv h w cs h' w']: running the clauses cs, after the
    registrations h and in the world w, attempts the registrations h' in all and
    leaves the world w'.  A clause whose search fails or whose path is refused
    registers nothing; an init clause whose file is missing writes the defaults
    dv to the layer registered under its name. *)
Inductive macro_run (tc : codec) (fname : str) (dv : value)
  : list (str * layer) -> world -> list layer_spec -> list (str * layer) -> world -> Prop :=
| RunEnd h w : macro_run tc fname dv h w [] h w
| RunSkip h w ls cs h' w' : (forall p, ~ uses w fname ls p) ->
    macro_run tc fname dv h w cs h' w' -> macro_run tc fname dv h w (ls :: cs) h' w'
| RunAdd h w ls p cs h' w' : uses w fname ls p -> ~ (ls_init ls = Some true /\ missing w p) ->
    macro_run tc fname dv (h ++ [(ls_name ls, LFile (toml_handler tc) p)]) w cs h' w' ->
    macro_run tc fname dv h w (ls :: cs) h' w'
| RunInit h w ls p l w1 r cs h' w' : uses w fname ls p -> ls_init ls = Some true -> missing w p ->
    first_named (h ++ [(ls_name ls, LFile (toml_handler tc) p)]) (ls_name ls) l ->
    layer_write w l dv = (w1, r) ->
    macro_run tc fname dv (h ++ [(ls_name ls, LFile (toml_handler tc) p)]) w1 cs h' w' ->
    macro_run tc fname dv h w (ls :: cs) h' w'.

(** The layer names of the clauses are distinct and none is "default". *)
Definition distinct_names (ms : macro_spec) : Prop :=
  NoDup (lit "default" :: map ls_name (ms_layers ms)).

(** Nothing but files may differ between the two worlds. *)
Definition same_system (w w' : world) : Prop :=
  w_target w' = w_target w /\ w_env w' = w_env w /\ w_platform w' = w_platform w /\ w_can_read w' = w_can_read w
  /\ w_can_open w' = w_can_open w /\ w_space w' = w_space w.

(** Writing text s to p completes. *)
Definition room_for (w : world) (p : path) (s : str) : Prop :=
  w_space w p = None \/ exists n, w_space w p = Some n /\ (List.length (utf8_encode s) <= n)%nat.

(** The layer registered for env:, if any. *)
Definition env_registration (ms : macro_spec) : list (str * layer) :=
  match ms_env ms with
  | Some prefix => [(lit "environment", env_layer_new prefix)]
  | None => []
  end.

(** The default map: what the default: block binds, the last binding of a key
    being the one in force. *)
Definition default_map (ms : macro_spec) (dv : value) : Prop :=
  mapv dv /\ forall k x, holds dv k x <-> last_binding (ms_default ms) k x.

(** A crash while the clauses run: some clauses have completed, and the next one
    may have been in the middle of its write. *)
Inductive macro_crash (tc : codec) (fname : str) (dv : value) (h : list (str * layer)) (w : world)
    (cs : list layer_spec) : world -> Prop :=
| CrashBetween before after h1 w1 : cs = before ++ after -> macro_run tc fname dv h w before h1 w1 ->
    macro_crash tc fname dv h w cs w1
| CrashInWrite before ls after h1 w1 p q s w2 : cs = before ++ ls :: after ->
    macro_run tc fname dv h w before h1 w1 -> uses w1 fname ls p -> ls_init ls = Some true -> missing w1 p ->
    first_named (h1 ++ [(ls_name ls, LFile (toml_handler tc) p)]) (ls_name ls) (LFile (toml_handler tc) q) ->
    toml_to_string tc dv = Ok s -> write_crash w1 q (utf8_encode s) w2 ->
    macro_crash tc fname dv h w cs w2.

(** Between w and w' the file q was created: it was missing together with all
    candidates of some init clause, whose first candidate p leads to the same
    file (p may be q itself); and it now holds (the beginning of) the text of
    the defaults. *)
Definition created (tc : codec) (fname : str) (dv : value) (w w' : world) (cs : list layer_spec) (q : path) : Prop :=
  missing w q /\ exists ls p rest s k, In ls cs /\ ls_init ls = Some true
    /\ clause_candidates w fname ls (p :: rest) /\ (forall x, In x (p :: rest) -> missing w x)
    /\ has_extension p (lit "toml") /\ same_file w p q /\ toml_to_string tc dv = Ok s
    /\ w_fs w' q = Some (NFile (firstn k (utf8_encode s))).
