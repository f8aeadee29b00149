(** Vocabulary for errors (C81, C82). *)
From Coq Require Import ZArith List Bool String.
Import ListNotations.
From Verif.Model Require Import Text Num Flt Value Paths Finder World.

(** How a conversion to the type called [to] describes the Value it could not
    convert: [source to v from why], its kind and the reason. *)
Inductive source (to : str) : value -> str -> str -> Prop :=
| SrcNone : source to VNone (lit "None") (lit "conversion not supported")
| SrcArr l : source to (VArr l) (lit "Array") (lit "conversion not supported")
| SrcMap m : source to (VMap m) (lit "Map") (lit "conversion not supported")
| SrcInt z : source to (VInt z) (lit "i64") (lit "Number value is out of target bounds")
| SrcLong z : source to (VLong z) (lit "i128") (lit "Number value is out of target bounds")
| SrcUInt z : source to (VUInt z) (lit "u64") (lit "Number value is out of target bounds")
| SrcULong z : source to (VULong z) (lit "u128") (lit "Number value is out of target bounds")
| SrcFloat f : source to (VFloat f) (lit "f64") (lit "Number value is out of target bounds")
| SrcText s : to <> lit "bool" -> source to (VStr s) (lit "String") (lit "can't parse string")
| SrcTextBool s : to = lit "bool" -> source to (VStr s) (lit "String") (lit "can't parse string as boolean").

(** The labels of a conversion error contain neither a space nor a colon. *)
Definition plain_labels (e : model_error) : Prop :=
  forall from to why, e = EConversion from to why -> ~ In 32%Z from /\ ~ In 58%Z to.

(** The documented texts: [model_says e s], [layer_error_says], [finder_says],
    [bak_says]: the text of the error e is s.  [io] is the text the operating
    system gives to an IO error. *)
Inductive model_says : model_error -> str -> Prop :=
| MsMapOnly : model_says EMapOnly (lit "Operation only supported for map Value")
| MsArrayOnly : model_says EArrayOnly (lit "Operation only supported for array Value")
| MsSer m : model_says (ESerialization m) (lit "Error serializing from value: " ++ m)
| MsDe m : model_says (EDeserialization m) (lit "Error deserializing to value: " ++ m)
| MsConv from to why : model_says (EConversion from to why)
    (lit "Error converting from " ++ from ++ lit " to " ++ to ++ lit ": " ++ why).
Inductive layer_error_says (io : io_error -> str) : layer_error -> str -> Prop :=
| LsWrite : layer_error_says io LWriteNotSupported (lit "Writing to this layer is not supported")
| LsReading m : layer_error_says io (LErrorReadingValue m) (lit "Failed to read value: " ++ m)
| LsWriting m : layer_error_says io (LErrorWritingValue m) (lit "Failed to write value: " ++ m)
| LsParse m : layer_error_says io (LParseError m) (lit "Failed to parse value: " ++ m)
| LsSerialize m : layer_error_says io (LSerializeError m) (lit "Failed to serialize value: " ++ m)
| LsIo e : layer_error_says io (LIOError e) (lit "IO Error: " ++ io e)
| LsExtension x : layer_error_says io (LUnsupportedExtension x) (lit "Unsupported extension: " ++ x).
Inductive finder_says : finder_error -> str -> Prop :=
| FsFolders : finder_says NoFoldersDefined (lit "No folders were defined")
| FsFiles : finder_says NoFilesFound (lit "No files were found")
| FsExtensions : finder_says NoExtensionsDefined (lit "No extensions were defined").
Inductive bak_says (io : io_error -> str) : bak_error -> str -> Prop :=
| BsIo e : bak_says io (BIo e) (lit "IO Error: " ++ io e)
| BsModel e s : model_says e s -> bak_says io (BModel e) (lit "Model Error: " ++ s)
| BsLayer e s : layer_error_says io e s -> bak_says io (BLayer e) (lit "Config Layer Error: " ++ s)
| BsFinder e s : finder_says e s -> bak_says io (BFinder e) (lit "File Finder Error: " ++ s).
