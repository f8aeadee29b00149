(** The file finder: src/file_finder/*.rs. *)
From Coq Require Import ZArith List Bool String.
Import ListNotations.
From Verif.Model Require Import Text Value Paths.
Open Scope Z_scope.

(** [FileFinderError], src/file_finder/error.rs:5-21 (ReadDirectoryError is
    never constructed by the code). *)
Inductive finder_error := NoFoldersDefined | NoFilesFound | NoExtensionsDefined.

(** [FileExtension] with the default features (toml), src/file_finder/file_extension.rs:4-10. *)
Inductive file_extension := ExtCustom (s : str) | ExtToml.

(** [FileExtension::from], src/file_finder/file_extension.rs:12-22. *)
Definition ext_from (ext : str) : file_extension :=
  if str_eqb ext (lit ".toml") then ExtToml else ExtCustom ext.

(** [FileExtension::as_str] / [Into<&str>], src/file_finder/file_extension.rs:24-39. *)
Definition ext_as_str (e : file_extension) : str :=
  match e with ExtCustom s => s | ExtToml => lit "toml" end.

(** [FileExtension::match_path], src/file_finder/file_extension.rs:41-50.
    ([to_str] never fails: paths here are valid text.) *)
Definition ext_match_path (e : file_extension) (p : path) : bool :=
  match e with
  | ExtToml => match extension p with Some x => str_eqb x (lit "toml") | None => false end
  | ExtCustom _ => false
  end.

(** [FindResult], src/file_finder/find_result.rs:6-15. *)
Record find_result := {
  fr_path : path;
  fr_extension : file_extension;
  fr_index : Z;
  fr_exists : bool
}.

(** [FileFinder], src/file_finder/finder.rs:6-10. *)
Record finder := {
  ff_folders : list path;
  ff_name : str;
  ff_exts : list str
}.

(** [FileFinder::new], src/file_finder/finder.rs:16-22. *)
Definition finder_new (name : str) : finder :=
  {| ff_folders := []; ff_name := name; ff_exts := [] |}.
(** [with_extension], src/file_finder/finder.rs:30-33. *)
Definition finder_with_extension (f : finder) (ext : str) : finder :=
  {| ff_folders := ff_folders f; ff_name := ff_name f; ff_exts := ff_exts f ++ [ext] |}.
(** [with_folder], src/file_finder/finder.rs:36-39. *)
Definition finder_with_folder (f : finder) (d : path) : finder :=
  {| ff_folders := ff_folders f ++ [d]; ff_name := ff_name f; ff_exts := ff_exts f |}.
(** [with_toml], [with_supported_extensions] (feature toml only),
    src/file_finder/file_extension.rs:56-78. *)
Definition finder_with_toml (f : finder) : finder :=
  finder_with_extension f (ext_as_str ExtToml).
Definition finder_with_supported (f : finder) : finder := finder_with_toml f.

(** [validate], src/file_finder/finder.rs:41-49. *)
Definition finder_validate (f : finder) : result unit finder_error :=
  match ff_folders f with
  | [] => Err NoFoldersDefined
  | _ => match ff_exts f with
         | [] => Err NoExtensionsDefined
         | _ => Ok tt
         end
  end.

(** ** OS directories, src/file_finder/os_directory.rs *)

(** [OSDirectory], os_directory.rs:7-43. *)
Inductive os_dir :=
| WorkingDirectory | UserHome | UserConfig | UserPreferences
| AppConfig (app : str) | AppHome (app : str) | DirPath (p : str).

(** What the platform answers: [directories::BaseDirs::new()] and
    [std::env::current_dir()] (external). *)
Record base_dirs := { bd_home : path; bd_config : path; bd_pref : path }.
Record platform := { pf_base : option base_dirs; pf_cwd : option path }.

(** [OSDirectory::to_path_buf], os_directory.rs:47-63. *)
Definition to_path_buf (pf : platform) (d : os_dir) : option path :=
  match pf_base pf with
  | None => None
  | Some b =>
    match d with
    | UserHome => Some (bd_home b)
    | UserConfig => Some (bd_config b)
    | UserPreferences => Some (bd_pref b)
    | WorkingDirectory => pf_cwd pf
    | AppHome app => Some (path_join (bd_home b) app)
    | AppConfig app => Some (path_join (bd_config b) app)
    | DirPath p => Some p
    end
  end.

(** [with_os_directory], os_directory.rs:68-75 (and its wrappers :78-110). *)
Definition finder_with_os_dir (pf : platform) (f : finder) (d : os_dir) : finder :=
  match to_path_buf pf d with
  | Some p => finder_with_folder f p
  | None => f
  end.

(** The shorthands [with_working_directory], [with_user_home], [with_user_config],
    [with_user_preferences], [with_app_config], [with_app_home], [with_path],
    os_directory.rs:78-110. *)
Definition finder_with_working_directory pf f := finder_with_os_dir pf f WorkingDirectory.
Definition finder_with_user_home pf f := finder_with_os_dir pf f UserHome.
Definition finder_with_user_config pf f := finder_with_os_dir pf f UserConfig.
Definition finder_with_user_preferences pf f := finder_with_os_dir pf f UserPreferences.
Definition finder_with_app_config pf f app := finder_with_os_dir pf f (AppConfig app).
Definition finder_with_app_home pf f app := finder_with_os_dir pf f (AppHome app).
Definition finder_with_path pf f p := finder_with_os_dir pf f (DirPath p).

(** [FileFinder::get_file_name], src/file_finder/finder.rs:24-26. *)
Definition finder_get_file_name (f : finder) : str := ff_name f.

(** A chain of builder calls on [FileFinder::new(name)].  Every call carries the
    platform's answers at its own time: they may change between two calls. *)
Inductive finder_call :=
| CallExtension (e : str) | CallFolder (d : path) | CallToml | CallSupported
| CallOsDirectory (pf : platform) (d : os_dir)
| CallWorkingDirectory (pf : platform) | CallUserHome (pf : platform)
| CallUserConfig (pf : platform) | CallUserPreferences (pf : platform)
| CallAppConfig (pf : platform) (app : str) | CallAppHome (pf : platform) (app : str)
| CallPath (pf : platform) (p : str).
Definition finder_apply (f : finder) (c : finder_call) : finder :=
  match c with
  | CallExtension e => finder_with_extension f e
  | CallFolder d => finder_with_folder f d
  | CallToml => finder_with_toml f
  | CallSupported => finder_with_supported f
  | CallOsDirectory pf d => finder_with_os_dir pf f d
  | CallWorkingDirectory pf => finder_with_working_directory pf f
  | CallUserHome pf => finder_with_user_home pf f
  | CallUserConfig pf => finder_with_user_config pf f
  | CallUserPreferences pf => finder_with_user_preferences pf f
  | CallAppConfig pf a => finder_with_app_config pf f a
  | CallAppHome pf a => finder_with_app_home pf f a
  | CallPath pf p => finder_with_path pf f p
  end.
Definition finder_built (name : str) (calls : list finder_call) : finder :=
  fold_left finder_apply calls (finder_new name).

(** ** Searches.  The file system may change while a search runs, so existence
    is asked of an oracle indexed by the number of [exists()] calls made so
    far; a file system that stands still is a constant oracle. *)
Definition fs_oracle := nat -> path -> bool.

(** Either leave the enclosing function with a result, or go on. *)
Inductive flow (A S : Type) := Return (a : A) | Next (s : S).
Arguments Return {A S} a.
Arguments Next {A S} s.

Section Search.
Variable ex : fs_oracle.
(** [oc] = overflow checks enabled (debug build): [index += 1] on u16 panics;
    without them (release build) it wraps. *)
Variable oc : bool.

(** [FindResult::new], src/file_finder/find_result.rs:24-32: asks [exists()] again. *)
Definition fr_new (t : nat) (p : path) (ext : str) : find_result * nat :=
  ({| fr_path := p; fr_extension := ext_from ext; fr_index := 0; fr_exists := ex t p |}, S t).

(** [with_index], find_result.rs:34-37. *)
Definition fr_with_index (r : find_result) (i : Z) : find_result :=
  {| fr_path := fr_path r; fr_extension := fr_extension r; fr_index := i;
     fr_exists := fr_exists r |}.

(** [index += 1] on a u16 (alg_find_all.rs:26, alg_find_all_or_first.rs:25);
    [None] is the overflow panic. *)
Definition u16_incr (i : Z) : option Z :=
  if i <? 65535 then Some (i + 1) else if oc then None else Some 0.

(** *** find_first, src/file_finder/alg_find_first.rs:14-41 *)
Fixpoint find_first_exts (allow : bool) (base : path) (exts : list str)
    (first : option find_result) (t : nat)
  : outcome (flow find_result (option find_result) * nat) finder_error :=
  match exts with
  | [] => Done (Next first, t)
  | ext :: rest =>
    match with_extension base ext with
    | None => Panic
    | Some file =>
      if ex t file then
        let '(r, t') := fr_new (S t) file ext in Done (Return r, t')
      else if allow && match first with None => true | Some _ => false end then
        let '(r, t') := fr_new (S t) file ext in
        find_first_exts allow base rest (Some r) t'
      else find_first_exts allow base rest first (S t)
    end
  end.

Fixpoint find_first_folders (allow : bool) (name : str) (exts : list str)
    (folders : list path) (first : option find_result) (t : nat)
  : outcome (flow find_result (option find_result) * nat) finder_error :=
  match folders with
  | [] => Done (Next first, t)
  | d :: rest =>
    obind (find_first_exts allow (path_join d name) exts first t) (fun x =>
      match x with
      | (Return r, t') => Done (Return r, t')
      | (Next first', t') => find_first_folders allow name exts rest first' t'
      end)
  end.

Definition find_first (f : finder) (allow : bool) : outcome find_result finder_error :=
  obind (of_result (finder_validate f)) (fun _ =>
  obind (find_first_folders allow (ff_name f) (ff_exts f) (ff_folders f) None 0) (fun x =>
    match fst x with
    | Return r => Done r
    | Next first =>
      if allow then
        match first with Some r => Done r | None => Fail NoFilesFound end
      else Fail NoFilesFound
    end)).

(** *** find_last, src/file_finder/alg_find_last.rs:14-43.
    State: (last_found, last_result). *)
Fixpoint find_last_exts (allow : bool) (base : path) (exts : list str)
    (st : option find_result * option find_result) (t : nat)
  : outcome ((option find_result * option find_result) * nat) finder_error :=
  match exts with
  | [] => Done (st, t)
  | ext :: rest =>
    match with_extension base ext with
    | None => Panic
    | Some file =>
      if ex t file then
        let '(r, t') := fr_new (S t) file ext in
        find_last_exts allow base rest (Some r, snd st) t'
      else if allow && match fst st with None => true | Some _ => false end then
        let '(r, t') := fr_new (S t) file ext in
        find_last_exts allow base rest (fst st, Some r) t'
      else find_last_exts allow base rest st (S t)
    end
  end.

Fixpoint find_last_folders (allow : bool) (name : str) (exts : list str)
    (folders : list path) (st : option find_result * option find_result) (t : nat)
  : outcome ((option find_result * option find_result) * nat) finder_error :=
  match folders with
  | [] => Done (st, t)
  | d :: rest =>
    obind (find_last_exts allow (path_join d name) exts st t) (fun x =>
      find_last_folders allow name exts rest (fst x) (snd x))
  end.

Definition find_last (f : finder) (allow : bool) : outcome find_result finder_error :=
  obind (of_result (finder_validate f)) (fun _ =>
  obind (find_last_folders allow (ff_name f) (ff_exts f) (ff_folders f) (None, None) 0) (fun x =>
    match fst x with
    | (Some r, _) => Done r
    | (None, last) =>
      if allow then match last with Some r => Done r | None => Fail NoFilesFound end
      else Fail NoFilesFound
    end)).

(** *** find_all, src/file_finder/alg_find_all.rs:14-36.
    State: (files, index).  [allow_missing || file.exists()] short-circuits. *)
Fixpoint find_all_exts (allow : bool) (base : path) (exts : list str)
    (st : list find_result * Z) (t : nat)
  : outcome ((list find_result * Z) * nat) finder_error :=
  match exts with
  | [] => Done (st, t)
  | ext :: rest =>
    match with_extension base ext with
    | None => Panic
    | Some file =>
      let t1 := if allow then t else S t in
      if allow || ex t file then
        let '(r, t') := fr_new t1 file ext in
        match u16_incr (snd st) with
        | None => Panic
        | Some i => find_all_exts allow base rest (fst st ++ [fr_with_index r (snd st)], i) t'
        end
      else find_all_exts allow base rest st t1
    end
  end.

Fixpoint find_all_folders (allow : bool) (name : str) (exts : list str)
    (folders : list path) (st : list find_result * Z) (t : nat)
  : outcome ((list find_result * Z) * nat) finder_error :=
  match folders with
  | [] => Done (st, t)
  | d :: rest =>
    obind (find_all_exts allow (path_join d name) exts st t) (fun x =>
      find_all_folders allow name exts rest (fst x) (snd x))
  end.

Definition find_all (f : finder) (allow : bool) : outcome (list find_result) finder_error :=
  obind (of_result (finder_validate f)) (fun _ =>
  obind (find_all_folders allow (ff_name f) (ff_exts f) (ff_folders f) ([], 0) 0) (fun x =>
    match fst (fst x) with
    | [] => Fail NoFilesFound
    | files => Done files
    end)).

(** *** find_all_or_first, src/file_finder/alg_find_all_or_first.rs:12-43.
    State: (files, first_file, index). *)
Fixpoint find_aof_exts (base : path) (exts : list str)
    (files : list find_result) (first : option find_result) (index : Z) (t : nat)
  : outcome (list find_result * option find_result * Z * nat) finder_error :=
  match exts with
  | [] => Done (files, first, index, t)
  | ext :: rest =>
    match with_extension base ext with
    | None => Panic
    | Some file =>
      if ex t file then
        let '(r, t') := fr_new (S t) file ext in
        match u16_incr index with
        | None => Panic
        | Some i => find_aof_exts base rest (files ++ [fr_with_index r index]) first i t'
        end
      else match first with
           | None => let '(r, t') := fr_new (S t) file ext in
                     find_aof_exts base rest files (Some r) index t'
           | Some _ => find_aof_exts base rest files first index (S t)
           end
    end
  end.

Fixpoint find_aof_folders (name : str) (exts : list str) (folders : list path)
    (files : list find_result) (first : option find_result) (index : Z) (t : nat)
  : outcome (list find_result * option find_result * Z * nat) finder_error :=
  match folders with
  | [] => Done (files, first, index, t)
  | d :: rest =>
    obind (find_aof_exts (path_join d name) exts files first index t) (fun x =>
      match x with
      | (files', first', index', t') => find_aof_folders name exts rest files' first' index' t'
      end)
  end.

Definition find_all_or_first (f : finder) : outcome (list find_result) finder_error :=
  obind (of_result (finder_validate f)) (fun _ =>
  obind (find_aof_folders (ff_name f) (ff_exts f) (ff_folders f) [] None 0 0) (fun x =>
    match x with
    | (files, first, _, _) =>
      match files with
      | [] => match first with
              | Some r => Done [fr_with_index r 0]
              | None => Fail NoFilesFound
              end
      | _ => Done files
      end
    end)).
End Search.
