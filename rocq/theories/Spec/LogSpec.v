(** What should be logged (C113, C114), without reference to how it is
    collected. *)
From Coq Require Import ZArith Bool String List.
Import ListNotations.
From Verif.Model Require Import Text Value Paths Finder World Layers Config Macro Logging.
From Verif.Spec Require Import Spec ConfigSpec FinderSpec PathSpec MacroSpec EnvSpec.

Definition not_text (bs : list byte) : Prop := forall s, ~ utf8 bs s.

(** ** Reading one layer *)
(** Variables whose name is no text, and variables of the layer whose value is
    no text, in the order of the environment. *)
Inductive env_says (p : str) : list (list byte * list byte) -> list message -> Prop :=
| EyNil : env_says p [] []
| EyKey kv env ms : not_text (fst kv) -> env_says p env ms -> env_says p (kv :: env) (MsgBadKey (fst kv) :: ms)
| EyValue kv name t k env ms : utf8 (fst kv) name -> trimmed name t -> strips p t k -> not_text (snd kv) -> env_says p env ms ->
    env_says p (kv :: env) (MsgBadValue k (snd kv) :: ms)
| EyQuiet kv name t env ms : utf8 (fst kv) name -> trimmed name t ->
    ~ begins_with p t \/ (exists s, utf8 (snd kv) s) -> env_says p env ms -> env_says p (kv :: env) ms.
Inductive layer_says (w : world) : layer -> list message -> Prop :=
| LyMemory v : layer_says w (LMemory v) []
| LyCustom c : layer_says w (LCustom c) []
| LyBlank : layer_says w (LEnv []) []
| LyEnv p ms : p <> [] -> env_says p (w_env w) ms -> layer_says w (LEnv p) (MsgLoadingEnv p :: ms)
| LyMissing h p : missing w p -> layer_says w (LFile h p) []
| LyFile h p : ~ missing w p -> layer_says w (LFile h p) [MsgReading p].

(** ** A build *)
Inductive build_says (w : world) (skip : bool) : list (str * layer) -> list message -> Prop :=
| BsEnd : build_says w skip [] []
| BsRead n l r v ms rest : layer_read w l = Ok v -> layer_says w l ms -> build_says w skip r rest ->
    build_says w skip ((n, l) :: r) (ms ++ rest)
| BsSkipped n l r e ms rest : layer_read w l = Err e -> skip = true -> layer_says w l ms -> build_says w skip r rest ->
    build_says w skip ((n, l) :: r) (ms ++ MsgSkipped n e :: rest)
| BsStopped n l r e ms : layer_read w l = Err e -> skip = false -> layer_says w l ms ->
    build_says w skip ((n, l) :: r) ms.

(** The warnings among some records. *)
Inductive warnings : list message -> list message -> Prop :=
| WnNil : warnings [] []
| WnKeep m l ws : level_of m = Warn -> warnings l ws -> warnings (m :: l) (m :: ws)
| WnDrop m l ws : level_of m <> Warn -> warnings l ws -> warnings (m :: l) ws.
(** The records of one level among some records, in order. *)
Inductive at_level (lv : level) : list message -> list message -> Prop :=
| AlNil : at_level lv [] []
| AlKeep m l ms : level_of m = lv -> at_level lv l ms -> at_level lv (m :: l) (m :: ms)
| AlDrop m l ms : level_of m <> lv -> at_level lv l ms -> at_level lv (m :: l) ms.
(** One record for every variable of the layer whose value is no text. *)
Inductive bad_values (p : str) : list (list byte * list byte) -> list message -> Prop :=
| BvNil : bad_values p [] []
| BvSay kv name t k env ms : utf8 (fst kv) name -> trimmed name t -> strips p t k -> not_text (snd kv) -> bad_values p env ms ->
    bad_values p (kv :: env) (MsgBadValue k (snd kv) :: ms)
| BvElse kv env ms : (forall name t, utf8 (fst kv) name -> trimmed name t -> begins_with p t -> exists s, utf8 (snd kv) s) -> bad_values p env ms ->
    bad_values p (kv :: env) ms.
(** One record for every variable whose name is no text. *)
Inductive bad_names : list (list byte * list byte) -> list message -> Prop :=
| BnNil : bad_names [] []
| BnSay kv env ms : not_text (fst kv) -> bad_names env ms -> bad_names (kv :: env) (MsgBadKey (fst kv) :: ms)
| BnElse kv name env ms : utf8 (fst kv) name -> bad_names env ms -> bad_names (kv :: env) ms.
(** The layers that cannot be read, in order, as warnings. *)
Inductive failing (w : world) : list (str * layer) -> list message -> Prop :=
| FaNil : failing w [] []
| FaOk n l r v ws : layer_read w l = Ok v -> failing w r ws -> failing w ((n, l) :: r) ws
| FaErr n l r e ws : layer_read w l = Err e -> failing w r ws -> failing w ((n, l) :: r) (MsgSkipped n e :: ws).

(** ** A start *)
(** The folders that cannot be resolved, in order. *)
Inductive unresolved (pf : platform) : list os_dir -> list message -> Prop :=
| UnNil : unresolved pf [] []
| UnKeep d p ds ms : resolvable pf d p -> unresolved pf ds ms -> unresolved pf (d :: ds) ms
| UnSay d ds ms : (forall p, ~ resolvable pf d p) -> unresolved pf ds ms -> unresolved pf (d :: ds) (MsgUnresolved d :: ms).
(** "Already there", if the name was registered before. *)
Inductive taken_says (h : list (str * layer)) (n : str) : list message -> Prop :=
| TkNew : ~ In n (map fst h) -> taken_says h n []
| TkOld : In n (map fst h) -> taken_says h n [MsgLayerExists n].
Definition write_says (n : str) (l : layer) (r : result unit bak_error) (ms : list message) : Prop :=
  exists a b, ms = a ++ b
    /\ match l with LFile _ p => a = [MsgWriting p] | _ => a = [] end
    /\ match r with Ok _ => b = [] | Err e => b = [MsgNotWritten n e] end.
(** The clauses cs after the registrations h in the world w; compare
    [macro_run]. *)
Inductive start_says (tc : codec) (fname : str) (dv : value)
  : list (str * layer) -> world -> list layer_spec -> list message -> list (str * layer) -> world -> Prop :=
| SsEnd h w : start_says tc fname dv h w [] [] h w
(** no folder resolved *)
| SsNowhere h w ls cs us ms h' w' : resolved (w_platform w) (ls_dirs ls) [] -> unresolved (w_platform w) (ls_dirs ls) us ->
    start_says tc fname dv h w cs ms h' w' -> start_says tc fname dv h w (ls :: cs) (us ++ MsgNoFile NoFoldersDefined :: ms) h' w'
(** a path that is refused: nothing but the folders is said *)
| SsRefused h w ls cs ps p us ms h' w' : clause_candidates w fname ls ps -> chosen w ps p -> ~ has_extension p (lit "toml") ->
    unresolved (w_platform w) (ls_dirs ls) us ->
    start_says tc fname dv h w cs ms h' w' -> start_says tc fname dv h w (ls :: cs) (us ++ ms) h' w'
| SsAdd h w ls p cs us ts ms h' w' : uses w fname ls p -> ~ (ls_init ls = Some true /\ missing w p) ->
    unresolved (w_platform w) (ls_dirs ls) us -> taken_says h (ls_name ls) ts ->
    start_says tc fname dv (h ++ [(ls_name ls, LFile (toml_handler tc) p)]) w cs ms h' w' ->
    start_says tc fname dv h w (ls :: cs) (us ++ ts ++ ms) h' w'
| SsInit h w ls p l w1 r cs us ts xs ms h' w' : uses w fname ls p -> ls_init ls = Some true -> missing w p ->
    first_named (h ++ [(ls_name ls, LFile (toml_handler tc) p)]) (ls_name ls) l -> layer_write w l dv = (w1, r) ->
    unresolved (w_platform w) (ls_dirs ls) us -> taken_says h (ls_name ls) ts -> write_says (ls_name ls) l r xs ->
    start_says tc fname dv (h ++ [(ls_name ls, LFile (toml_handler tc) p)]) w1 cs ms h' w' ->
    start_says tc fname dv h w (ls :: cs) (us ++ ts ++ xs ++ ms) h' w'.
(** The whole macro: the clauses, then the environment. *)
Definition macro_says (tc : codec) (ms : macro_spec) (dv : value) (w : world) (log : list message) (h : list (str * layer)) (w' : world) : Prop :=
  exists a b, log = a ++ b
    /\ start_says tc (ms_file_name ms) dv [(lit "default", LMemory dv)] w (ms_layers ms) a h w'
    /\ match ms_env ms with Some _ => taken_says h (lit "environment") b | None => b = [] end.

(** The file layers are the library's (the records of other handlers are not
    the library's). *)
Definition toml_files (tc : codec) (r : list (str * layer)) : Prop :=
  forall n h p, In (n, LFile h p) r -> h = toml_handler tc.

(** ** Differing in values only *)
(** The same variables, in the same order, those of the prefix p with text
    values on both sides. *)
Definition same_variables (p : str) : list (list byte * list byte) -> list (list byte * list byte) -> Prop :=
  Forall2 (fun kv kv' => fst kv = fst kv' /\
    forall name t, utf8 (fst kv) name -> trimmed name t -> begins_with p t ->
      (exists s, utf8 (snd kv) s) /\ exists s', utf8 (snd kv') s').
(** Two layers of one kind, reading the same place. *)
Inductive same_source (tc : codec) (w w' : world) : layer -> layer -> Prop :=
| SrMemory v v' : same_source tc w w' (LMemory v) (LMemory v')
| SrEnv p : same_variables p (w_env w) (w_env w') -> same_source tc w w' (LEnv p) (LEnv p)
| SrFile p : (missing w p <-> missing w' p) -> same_source tc w w' (LFile (toml_handler tc) p) (LFile (toml_handler tc) p).
(** Two worlds with the same folders, links and files, whatever the files hold. *)
Definition alike_worlds (w w' : world) : Prop :=
  w_platform w = w_platform w' /\ w_target w = w_target w' /\ forall p, missing w p <-> missing w' p.
