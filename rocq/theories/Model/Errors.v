(** Texts and equality of errors: src/model/errors.rs, src/config_layer/error.rs,
    src/file_finder/error.rs, src/bak_error.rs.  The texts are the [#[error(..)]]
    attributes that thiserror turns into [Display]. *)
From Coq Require Import ZArith List Bool String.
Import ListNotations.
From Verif.Model Require Import Text Value Paths Finder World.

(** [Display for ModelError], src/model/errors.rs:3-19. *)
Definition model_error_display (e : model_error) : str :=
  match e with
  | EMapOnly => lit "Operation only supported for map Value"
  | EArrayOnly => lit "Operation only supported for array Value"
  | ESerialization msg => lit "Error serializing from value: " ++ msg
  | EDeserialization msg => lit "Error deserializing to value: " ++ msg
  | EConversion from to why =>
    lit "Error converting from " ++ from ++ lit " to " ++ to ++ lit ": " ++ why
  end.

(** [PartialEq for ModelError], src/model/errors.rs:43-71. *)
Definition model_error_eqb (a b : model_error) : bool :=
  match a, b with
  | EMapOnly, EMapOnly => true
  | EArrayOnly, EArrayOnly => true
  | ESerialization m1, ESerialization m2 => str_eqb m1 m2
  | EDeserialization m1, EDeserialization m2 => str_eqb m1 m2
  | EConversion f1 t1 w1, EConversion f2 t2 w2 => str_eqb f1 f2 && str_eqb t1 t2 && str_eqb w1 w2
  | _, _ => false
  end.

Section Display.
(** [Display for std::io::Error] (external). *)
Variable io_display : io_error -> str.

(** [Display for ConfigLayerError], src/config_layer/error.rs:3-25. *)
Definition layer_error_display (e : layer_error) : str :=
  match e with
  | LWriteNotSupported => lit "Writing to this layer is not supported"
  | LErrorReadingValue m => lit "Failed to read value: " ++ m
  | LErrorWritingValue m => lit "Failed to write value: " ++ m
  | LParseError m => lit "Failed to parse value: " ++ m
  | LSerializeError m => lit "Failed to serialize value: " ++ m
  | LIOError e => lit "IO Error: " ++ io_display e
  | LUnsupportedExtension ext => lit "Unsupported extension: " ++ ext
  end.

(** [Display for FileFinderError], src/file_finder/error.rs:4-21
    (ReadDirectoryError is never constructed). *)
Definition finder_error_display (e : finder_error) : str :=
  match e with
  | NoFoldersDefined => lit "No folders were defined"
  | NoFilesFound => lit "No files were found"
  | NoExtensionsDefined => lit "No extensions were defined"
  end.

(** [Display for BakuninError], src/bak_error.rs:3-13. *)
Definition bak_error_display (e : bak_error) : str :=
  match e with
  | BIo e => lit "IO Error: " ++ io_display e
  | BModel e => lit "Model Error: " ++ model_error_display e
  | BLayer e => lit "Config Layer Error: " ++ layer_error_display e
  | BFinder e => lit "File Finder Error: " ++ finder_error_display e
  end.
End Display.
