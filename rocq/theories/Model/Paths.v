(** [std::path::Path] on Unix, as used by the file finder and by
    [FileExtension::match_path].  A path is its text; only '/' (47) separates
    and '.' (46) is special.  Models the Rust standard library. *)
From Coq Require Import ZArith List Bool String.
Import ListNotations.
From Verif.Model Require Import Text.
Open Scope Z_scope.

Definition path := str.
Definition SEP : char := 47.
Definition DOT : char := 46.

(** [Path::is_absolute]. *)
Definition is_absolute (p : path) : bool :=
  match p with c :: _ => c =? SEP | [] => false end.

Definition ends_with_sep (p : path) : bool :=
  match rev p with c :: _ => c =? SEP | [] => false end.

(** [Path::join] ([PathBuf::push]): used in alg_find_*.rs ("folder.join(self.file_name)")
    and os_directory.rs:54-57. *)
Definition path_join (base p : path) : path :=
  if is_absolute p then p
  else match base with
       | [] => p
       | _ => if ends_with_sep base then base ++ p else base ++ SEP :: p
       end.

(** Reversed text without trailing separators and trailing "." components. *)
Fixpoint strip_tail (r : str) : str :=
  match r with
  | [] => []
  | c :: t =>
    if c =? SEP then strip_tail t
    else if c =? DOT then
      match t with
      | [] => []
      | c' :: t' => if c' =? SEP then strip_tail t' else r
      end
    else r
  end.

Fixpoint span_not (x : char) (s : str) : str * str :=
  match s with
  | c :: t => if c =? x then ([], s)
              else let '(a, b) := span_not x t in (c :: a, b)
  | [] => ([], [])
  end.

(** The text before the last component, and the last component. *)
Definition split_last (p : path) : path * str :=
  let '(a, b) := span_not SEP (strip_tail (rev p)) in (rev b, rev a).

(** [Path::file_name]: the last component if it is a normal one. *)
Definition file_name (p : path) : option str :=
  let n := snd (split_last p) in
  match n with
  | [] => None
  | _ => if str_eqb n (lit "..") then None else Some n
  end.

(** Split at the last dot: text before it and after it. *)
Definition rsplit_dot (n : str) : option (str * str) :=
  let '(a, b) := span_not DOT (rev n) in
  match b with
  | [] => None
  | _ :: b' => Some (rev b', rev a)
  end.

(** [rsplit_file_at_dot] of std: (file_stem, extension). *)
Definition stem_ext (n : str) : str * option str :=
  match rsplit_dot n with
  | None => (n, None)
  | Some ([], _) => (n, None)
  | Some (before, after) => (before, Some after)
  end.

(** [Path::file_stem], [Path::extension]. *)
Definition file_stem (p : path) : option str :=
  match file_name p with Some n => Some (fst (stem_ext n)) | None => None end.
Definition extension (p : path) : option str :=
  match file_name p with Some n => snd (stem_ext n) | None => None end.

(** [Path::with_extension] (alg_find_first.rs:22 etc.): [None] is the panic
    "extension cannot contain path separators"; a path without a file name is
    returned unchanged. *)
Definition with_extension (p : path) (ext : str) : option path :=
  if existsb (fun c => c =? SEP) ext then None
  else match file_name p with
       | None => Some p
       | Some n =>
         Some (fst (split_last p) ++ fst (stem_ext n) ++
               match ext with [] => [] | _ => DOT :: ext end)
       end.
