(** Paths as Unix has them: any bytes.  [std::path] works on bytes there, and a
    text used as a (part of a) path is its UTF-8 bytes; so the functions of
    Model/Paths.v, which look only at '/' and '.', apply to bytes as they stand.
    Elsewhere in the model paths are texts; Properties/P42_BytePaths.v shows
    that nothing is lost by that. *)
From Coq Require Import ZArith List Bool String.
Import ListNotations.
From Verif.Model Require Import Text Value Paths Finder World Layers Config.

Definition bpath := list byte.

(** [path.extension().and_then(|s| s.to_str())], src/file_finder/file_extension.rs:42,
    src/config.rs:77. *)
Definition b_extension (p : bpath) : option str :=
  match extension p with Some e => utf8_decode e | None => None end.
(** [FileExtension::match_path], src/file_finder/file_extension.rs:41-50. *)
Definition b_match_path (e : file_extension) (p : bpath) : bool :=
  match e with
  | ExtToml => match b_extension p with Some x => str_eqb x (lit "toml") | None => false end
  | ExtCustom _ => false
  end.
(** [add_file_layer], src/config.rs:54-79: whether the file becomes a layer, or the error. *)
Definition b_add_file_layer (p : bpath) : result unit bak_error :=
  if b_match_path ExtToml p then Ok tt
  else Err (BLayer (LUnsupportedExtension (match b_extension p with Some e => e | None => [] end))).

(** [FileFinder], src/file_finder/finder.rs:6-10: folders are [PathBuf], the
    name and the extensions are texts. *)
Record bfinder := { bf_folders : list bpath; bf_name : str; bf_exts : list str }.
(** [folder.join(self.file_name)] and [with_extension(ext)] take the texts as
    their bytes (alg_find_first.rs:20-22 and the same lines of the others). *)
Definition as_bytes (f : bfinder) : finder :=
  {| ff_folders := bf_folders f; ff_name := utf8_encode (bf_name f); ff_exts := map utf8_encode (bf_exts f) |}.
(** [FindResult::new(file, ext)] gets the text of the extension (find_result.rs:24-32). *)
Definition with_text_extension (r : find_result) : find_result :=
  {| fr_path := fr_path r;
     fr_extension := match fr_extension r with
                     | ExtCustom bs => match utf8_decode bs with Some s => ExtCustom s | None => ExtCustom bs end
                     | ExtToml => ExtToml
                     end;
     fr_index := fr_index r; fr_exists := fr_exists r |}.
Definition map_done {A B E} (f : A -> B) (x : outcome A E) : outcome B E :=
  match x with Done a => Done (f a) | Fail e => Fail e | Panic => Panic end.

(** The searches, src/file_finder/alg_find_*.rs, on byte paths. *)
Definition b_find_first (ex : nat -> bpath -> bool) (f : bfinder) (allow : bool) : outcome find_result finder_error :=
  map_done with_text_extension (find_first ex (as_bytes f) allow).
Definition b_find_last (ex : nat -> bpath -> bool) (f : bfinder) (allow : bool) : outcome find_result finder_error :=
  map_done with_text_extension (find_last ex (as_bytes f) allow).
Definition b_find_all (ex : nat -> bpath -> bool) (oc : bool) (f : bfinder) (allow : bool) : outcome (list find_result) finder_error :=
  map_done (map with_text_extension) (find_all ex oc (as_bytes f) allow).
Definition b_find_all_or_first (ex : nat -> bpath -> bool) (oc : bool) (f : bfinder) : outcome (list find_result) finder_error :=
  map_done (map with_text_extension) (find_all_or_first ex oc (as_bytes f)).

(** [OSDirectory::to_path_buf], os_directory.rs:47-63, the platform's folders
    being bytes. *)
Definition b_to_path_buf (pf : platform) (d : os_dir) : option bpath :=
  to_path_buf pf match d with
                 | AppHome a => AppHome (utf8_encode a)
                 | AppConfig a => AppConfig (utf8_encode a)
                 | DirPath p => DirPath (utf8_encode p)
                 | d => d
                 end.
