(** Vocabulary for paths and files (C35-C38, C45). *)
From Coq Require Import ZArith List Bool.
Import ListNotations.
From Verif.Model Require Import Text Value Paths Finder World Layers.

Definition no_sep (s : str) : Prop := ~ In SEP s.
Definition no_dot (s : str) : Prop := ~ In DOT s.

(** Trailing text that names the same file: any mix of "/" and "/.". *)
Inductive trailing : str -> Prop :=
| TrNil : trailing []
| TrSep t : trailing t -> trailing (t ++ [SEP])
| TrDot t : trailing t -> trailing (t ++ [SEP; DOT]).

(** d is empty or ends with "/". *)
Definition dir_part (d : str) : Prop := d = [] \/ exists d', d = d' ++ [SEP].

(** The last component of p is n (an ordinary name, not "." or ".."); d is the
    text in front of it. *)
Definition names_file (p : path) (d n : str) : Prop :=
  exists t, p = d ++ n ++ t /\ dir_part d /\ trailing t /\ no_sep n /\
    n <> [] /\ n <> [DOT] /\ n <> [DOT; DOT].

(** The extension of p is e: its last component is "stem.e", stem not empty. *)
Definition has_extension (p : path) (e : str) : Prop :=
  exists d stem, names_file p d (stem ++ DOT :: e) /\ stem <> [] /\ no_dot e.

(** One [write_value] on one of the layers that come with the library. *)
Inductive built_in (tc : codec) : layer -> Prop :=
| BuiltMemory v : built_in tc (LMemory v)
| BuiltEnv prefix : built_in tc (env_layer_new prefix)
| BuiltFile p : built_in tc (LFile (toml_handler tc) p).

(** [writes tc w h w']: performing the writes h (layer, value) in order leads from w to w'. *)
Inductive writes : world -> list (layer * value) -> world -> Prop :=
| WritesNil w : writes w [] w
| WritesCons w l v r w1 h w2 : layer_write w l v = (w1, r) -> writes w1 h w2 ->
    writes w ((l, v) :: h) w2.

(** Two path texts that lead to one file. *)
Definition same_file (w : world) (p q : path) : Prop := w_target w p = w_target w q.

Definition same_but (p : path) (w w' : world) : Prop :=
  (forall q, ~ same_file w p q -> w_fs w' q = w_fs w q)
  /\ w_target w' = w_target w /\ w_env w' = w_env w /\ w_platform w' = w_platform w
  /\ w_can_read w' = w_can_read w /\ w_can_open w' = w_can_open w /\ w_space w' = w_space w.
