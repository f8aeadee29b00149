(** Vocabulary for the file finder (C39-C48). *)
From Coq Require Import ZArith List Bool String.
Import ListNotations.
From Verif.Model Require Import Text Value Paths Finder.
From Verif.Spec Require Import PathSpec.

(** A candidate: its path and the extension it was made from. *)
Definition cand := (path * str)%type.

(** The candidates of a finder: every folder in the order added, and within a
    folder every extension in the order added; the path is
    [folder.join(name).with_extension(ext)]. *)
Definition candidates (f : finder) (cs : list cand) : Prop :=
  Forall2 (fun de c => with_extension (path_join (fst de) (ff_name f)) (snd de) = Some (fst c) /\ snd c = snd de)
          (list_prod (ff_folders f) (ff_exts f)) cs.

(** Both lists are filled in, so the search starts at all. *)
Definition complete (f : finder) : Prop := ff_folders f <> [] /\ ff_exts f <> [].

(** The result describing candidate c, with index i and existence flag b. *)
Definition result_of (c : cand) (i : Z) (b : bool) : find_result :=
  {| fr_path := fst c; fr_extension := ext_from (snd c); fr_index := i; fr_exists := b |}.

(** A file system that does not change during a search. *)
Definition still (ex : path -> bool) : fs_oracle := fun _ => ex.

(** [increasing t ts]: the times ts are strictly increasing and not before t. *)
Fixpoint increasing (t : nat) (ts : list nat) : Prop :=
  match ts with
  | [] => True
  | x :: r => (t <= x)%nat /\ increasing (S x) r
  end.

(** [observed ex cs ts found]: checking the candidates cs one by one at the
    times ts finds exactly the candidates [found]. *)
Inductive observed (ex : fs_oracle) : list cand -> list nat -> list cand -> Prop :=
| ObsNil : observed ex [] [] []
| ObsHit c t cs ts found : ex t (fst c) = true -> observed ex cs ts found ->
    observed ex (c :: cs) (t :: ts) (c :: found)
| ObsMiss c t cs ts found : ex t (fst c) = false -> observed ex cs ts found ->
    observed ex (c :: cs) (t :: ts) found.

(** l describes the candidates sel in order: the i-th result has the path and
    extension of the i-th candidate, index i (modulo 2^16) and an existence flag
    that was the answer of some existence check of that path. *)
Definition numbered (ex : fs_oracle) (sel : list cand) (l : list find_result) : Prop :=
  List.length l = List.length sel /\
  forall i c, nth_error sel i = Some c ->
    exists te, nth_error l i = Some (result_of c (Z.of_nat i mod 65536) (ex te (fst c))).

(** What the text in front of a file name becomes when joining it to folder d. *)
Definition folder_prefix (d : path) (pre : str) : Prop :=
  (d = [] /\ pre = []) \/ (exists d', d = d' ++ [SEP] /\ pre = d)
  \/ (d <> [] /\ (forall d', d <> d' ++ [SEP]) /\ pre = d ++ [SEP]).

(** [stem_of n s]: n without its extension: all of n if n has no dot after its
    first character, else the text before its last dot. *)
Inductive stem_of : str -> str -> Prop :=
| StemWhole c s : no_dot s -> stem_of (c :: s) (c :: s)
| StemCut s x : s <> [] -> no_dot x -> stem_of (s ++ DOT :: x) s.

(** What each OS directory means on a platform. *)
Inductive os_path (pf : platform) (b : base_dirs) : os_dir -> path -> Prop :=
| OsCwd p : pf_cwd pf = Some p -> os_path pf b WorkingDirectory p
| OsHome : os_path pf b UserHome (bd_home b)
| OsConfig : os_path pf b UserConfig (bd_config b)
| OsPref : os_path pf b UserPreferences (bd_pref b)
| OsAppConfig a : os_path pf b (AppConfig a) (path_join (bd_config b) a)
| OsAppHome a : os_path pf b (AppHome a) (path_join (bd_home b) a)
| OsPath p : os_path pf b (DirPath p) p.
Definition resolvable (pf : platform) (d : os_dir) (p : path) : Prop :=
  exists b, pf_base pf = Some b /\ os_path pf b d p.

(** [resolved pf ds ps]: ps are the paths of the resolvable ones of ds, in order. *)
Inductive resolved (pf : platform) : list os_dir -> list path -> Prop :=
| ResolvedNil : resolved pf [] []
| ResolvedKeep d p ds ps : resolvable pf d p -> resolved pf ds ps -> resolved pf (d :: ds) (p :: ps)
| ResolvedSkip d ds ps : (forall p, ~ resolvable pf d p) -> resolved pf ds ps -> resolved pf (d :: ds) ps.

(** Two results describe the same file (their indices may differ). *)
Definition same_file (r r' : find_result) : Prop :=
  fr_path r = fr_path r' /\ fr_extension r = fr_extension r' /\ fr_exists r = fr_exists r'.

(** What one builder call adds: the folders and the extensions it puts behind
    the ones already there. *)
Definition call_adds (c : finder_call) (ds : list path) (es : list str) : Prop :=
  match c with
  | CallExtension e => ds = [] /\ es = [e]
  | CallToml | CallSupported => ds = [] /\ es = [lit "toml"]
  | CallFolder d => ds = [d] /\ es = []
  | CallOsDirectory pf d => resolved pf [d] ds /\ es = []
  | CallWorkingDirectory pf => resolved pf [WorkingDirectory] ds /\ es = []
  | CallUserHome pf => resolved pf [UserHome] ds /\ es = []
  | CallUserConfig pf => resolved pf [UserConfig] ds /\ es = []
  | CallUserPreferences pf => resolved pf [UserPreferences] ds /\ es = []
  | CallAppConfig pf a => resolved pf [AppConfig a] ds /\ es = []
  | CallAppHome pf a => resolved pf [AppHome a] ds /\ es = []
  | CallPath pf p => resolved pf [DirPath p] ds /\ es = []
  end.
(** What a chain of builder calls adds, in call order. *)
Inductive calls_add : list finder_call -> list path -> list str -> Prop :=
| CallsNone : calls_add [] [] []
| CallsMore c cs d1 e1 d2 e2 : call_adds c d1 e1 -> calls_add cs d2 e2 ->
    calls_add (c :: cs) (d1 ++ d2) (e1 ++ e2).

(** The finder f with the folders ds added behind its own. *)
Definition more_folders (f : finder) (ds : list path) : finder :=
  {| ff_folders := ff_folders f ++ ds; ff_name := ff_name f; ff_exts := ff_exts f |}.
(** The finder f with the extensions es added behind its own. *)
Definition more_extensions (f : finder) (es : list str) : finder :=
  {| ff_folders := ff_folders f; ff_name := ff_name f; ff_exts := ff_exts f ++ es |}.
