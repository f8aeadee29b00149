(** Vocabulary for processes sharing one file (C83, C84). *)
From Coq Require Import ZArith List.
Import ListNotations.
From Verif.Model Require Import Text Bytes.
Local Open Scope nat_scope.

(** The first k bytes of the old content followed by the bytes k, k+1, ... of the
    first m bytes of the new one. *)
Definition splice (old new : list byte) (k m : nat) : list byte := firstn k old ++ skipn k (firstn m new).

(** A process that writes text (and is not dead). *)
Definition writes_text (text : list byte) (p : proc) : Prop :=
  p = WriteStart text \/ (exists off, p = Writing text off) \/ p = Written text.
Definition reads (p : proc) : Prop := p = ReadStart \/ (exists got, p = Reading got) \/ exists got, p = HasRead got.
(** The process has returned. *)
Definition finished (p : proc) : Prop := (exists text, p = Written text) \/ exists got, p = HasRead got.

(** Schedules in which every writer hands over its text in one system call. *)
Inductive whole_schedule : list byte -> list proc -> list byte -> list proc -> Prop :=
| WholeEnd c ps : whole_schedule c ps c ps
| WholeCall c before p after c1 p1 c2 ps2 : call c p c1 p1 ->
    (forall text off off', p = Writing text off -> p1 = Writing text off' -> off' = List.length text) ->
    whole_schedule c1 (before ++ p1 :: after) c2 ps2 -> whole_schedule c (before ++ p :: after) c2 ps2.
