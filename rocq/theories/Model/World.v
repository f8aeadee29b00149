(** The outside world the configuration reads and writes: files, environment
    variables, platform directories; and the error types. *)
From Coq Require Import ZArith List Bool String.
Import ListNotations.
From Verif.Model Require Import Text Value Paths Finder.
Open Scope Z_scope.

(** What a path refers to. *)
Inductive node := NFile (bytes : list byte) | NDir.

(** [std::io::Error], by cause. *)
Inductive io_error := IoNotFound | IoIsDirectory | IoInvalidUtf8 | IoDenied | IoWriteFault.

(** The state of the outside world.  [w_target p] is the file that the text p
    leads to: two texts naming one file ("a//b" and "a/b", a symlink and its
    target, hard links, a relative and an absolute path) have the same target.
    [w_can_read]/[w_can_open] answer whether the OS lets us read
    / open-for-writing a path (permissions, missing parent folder);
    [w_room f] is the number of bytes that can be written to the file f before
    the OS reports an error ([None]: no limit). *)
Record world := {
  w_files : path -> option node;
  w_target : path -> path;
  w_can_read : path -> bool;
  w_can_open : path -> bool;
  w_room : path -> option nat;
  w_env : list (list byte * list byte);
  w_platform : platform
}.

(** What the path p leads to, and how much can be written there. *)
Definition w_fs (w : world) (p : path) : option node := w_files w (w_target w p).
Definition w_space (w : world) (p : path) : option nat := w_room w (w_target w p).

Definition set_node (w : world) (p : path) (n : node) : world :=
  {| w_files := fun t => if str_eqb t (w_target w p) then Some n else w_files w t;
     w_target := w_target w; w_can_read := w_can_read w; w_can_open := w_can_open w; w_room := w_room w;
     w_env := w_env w; w_platform := w_platform w |}.

(** [Path::exists] (layer_file.rs:45,57; find_result.rs:25; config_macro.rs:32). *)
Definition fs_exists (w : world) (p : path) : bool :=
  match w_fs w p with Some _ => true | None => false end.

(** [std::fs::read_to_string] (handlers/toml.rs:9). *)
Definition fs_read_to_string (w : world) (p : path) : result str io_error :=
  match w_fs w p with
  | None => Err IoNotFound
  | Some NDir => Err IoIsDirectory
  | Some (NFile bs) =>
    if w_can_read w p then
      match utf8_decode bs with Some s => Ok s | None => Err IoInvalidUtf8 end
    else Err IoDenied
  end.

(** [std::fs::write] (handlers/toml.rs:18): open with create+truncate, then
    write all bytes.  If the OS fails after some bytes, the file keeps the
    prefix written so far. *)
Definition fs_write (w : world) (p : path) (bs : list byte) : world * result unit io_error :=
  match w_fs w p with
  | Some NDir => (w, Err IoIsDirectory)
  | _ =>
    if w_can_open w p then
      match w_space w p with
      | None => (set_node w p (NFile bs), Ok tt)
      | Some n =>
        if Nat.leb (List.length bs) n then (set_node w p (NFile bs), Ok tt)
        else (set_node w p (NFile (firstn n bs)), Err IoWriteFault)
      end
    else (w, Err IoDenied)
  end.

(** The states a crash during [fs_write] can leave behind: nothing happened
    yet, or the file was truncated/created and holds the first n bytes. *)
Inductive write_crash (w : world) (p : path) (bs : list byte) : world -> Prop :=
| CrashBefore : write_crash w p bs w
| CrashDuring n : w_fs w p <> Some NDir -> w_can_open w p = true ->
                  write_crash w p bs (set_node w p (NFile (firstn n bs))).

(** [ConfigLayerError], src/config_layer/error.rs:4-25. *)
Inductive layer_error :=
| LWriteNotSupported
| LErrorReadingValue (msg : str)
| LErrorWritingValue (msg : str)
| LParseError (msg : str)
| LSerializeError (msg : str)
| LIOError (e : io_error)
| LUnsupportedExtension (ext : str).

(** [BakuninError], src/bak_error.rs:4-13. *)
Inductive bak_error :=
| BIo (e : io_error)
| BModel (e : model_error)
| BLayer (e : layer_error)
| BFinder (e : finder_error).
