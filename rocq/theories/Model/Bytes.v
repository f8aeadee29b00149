(** One file, byte by byte: what [std::fs::read_to_string] and [std::fs::write]
    (src/config_layer/handlers/toml.rs:9, 18) do to it in single system calls,
    when several processes do so at once.

    Simplifications: the file exists from the start and is never removed or
    renamed; one system call is atomic; calls do not fail (C35 has failing
    writes); a process may die at any point. *)
From Coq Require Import ZArith List.
Import ListNotations.
From Verif.Model Require Import Text.
Local Open Scope nat_scope.

(** [write(fd, chunk)] at offset [off] of a file with content [c] (POSIX: a gap
    behind the end of the file is filled with zero bytes). *)
Definition write_at (c : list byte) (off : nat) (chunk : list byte) : list byte :=
  firstn off c ++ repeat 0%Z (off - List.length c) ++ chunk ++ skipn (off + List.length chunk) c.

(** A process and how far it is. *)
Inductive proc :=
| WriteStart (text : list byte)               (* about to open(O_CREAT|O_TRUNC) *)
| Writing (text : list byte) (off : nat)      (* text[0..off) handed over *)
| Written (text : list byte)                  (* write() has returned Ok *)
| ReadStart                                   (* about to open(O_RDONLY) *)
| Reading (got : list byte)
| HasRead (got : list byte)                   (* read_to_string has its bytes *)
| Dead.

(** One system call of one process, on the content of the file. *)
Inductive call : list byte -> proc -> list byte -> proc -> Prop :=
| CallTruncate c text : call c (WriteStart text) [] (Writing text 0)
| CallWrite c text off n : 0 < n -> off + n <= List.length text ->
    call c (Writing text off) (write_at c off (firstn n (skipn off text))) (Writing text (off + n))
| CallClose c text off : off = List.length text -> call c (Writing text off) c (Written text)
| CallOpen c : call c ReadStart c (Reading [])
| CallRead c got n : firstn n (skipn (List.length got) c) <> [] ->
    call c (Reading got) c (Reading (got ++ firstn n (skipn (List.length got) c)))
| CallEof c got : List.length c <= List.length got -> call c (Reading got) c (HasRead got)
| CallDie c p : call c p c Dead.

(** Any number of processes, scheduled arbitrarily. *)
Inductive schedule : list byte -> list proc -> list byte -> list proc -> Prop :=
| SchedEnd c ps : schedule c ps c ps
| SchedCall c before p after c1 p1 c2 ps2 : call c p c1 p1 ->
    schedule c1 (before ++ p1 :: after) c2 ps2 -> schedule c (before ++ p :: after) c2 ps2.
