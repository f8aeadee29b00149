(** How many [Path::exists] calls a search makes: the searches of Model/Finder.v
    number their checks; this is the number reached when the loops end.  A search
    that panics has no such number (0 stands in for it; no theorem uses it). *)
From Coq Require Import ZArith List Bool String.
Import ListNotations.
From Verif.Model Require Import Text Value Paths Finder.

(** src/file_finder/alg_find_first.rs:14-41 ([file.exists()], and the one in
    [FindResult::new], find_result.rs:25). *)
Definition find_first_checks (ex : fs_oracle) (f : finder) (allow : bool) : nat :=
  match finder_validate f with
  | Ok _ => match find_first_folders ex allow (ff_name f) (ff_exts f) (ff_folders f) None 0 with Done x => snd x | _ => 0 end
  | Err _ => 0
  end.
(** src/file_finder/alg_find_last.rs:14-43. *)
Definition find_last_checks (ex : fs_oracle) (f : finder) (allow : bool) : nat :=
  match finder_validate f with
  | Ok _ => match find_last_folders ex allow (ff_name f) (ff_exts f) (ff_folders f) (None, None) 0 with Done x => snd x | _ => 0 end
  | Err _ => 0
  end.
(** src/file_finder/alg_find_all.rs:14-36. *)
Definition find_all_checks (ex : fs_oracle) (oc : bool) (f : finder) (allow : bool) : nat :=
  match finder_validate f with
  | Ok _ => match find_all_folders ex oc allow (ff_name f) (ff_exts f) (ff_folders f) ([], 0%Z) 0 with Done x => snd x | _ => 0 end
  | Err _ => 0
  end.
(** src/file_finder/alg_find_all_or_first.rs:12-43. *)
Definition find_all_or_first_checks (ex : fs_oracle) (oc : bool) (f : finder) : nat :=
  match finder_validate f with
  | Ok _ => match find_aof_folders ex oc (ff_name f) (ff_exts f) (ff_folders f) [] None 0%Z 0 with Done (_, _, _, t) => t | _ => 0 end
  | Err _ => 0
  end.
