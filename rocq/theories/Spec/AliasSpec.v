(** Vocabulary for several paths that lead to one file (C103). *)
From Coq Require Import List.
From Verif.Model Require Import Text Value Paths Finder World Layers Config.
From Verif.Spec Require Import Spec ConfigSpec PathSpec.

(** The registration y is x with every layer on the file at p replaced by a
    layer holding v'. *)
Inductive with_new_value (tc : codec) (w : world) (p : path) (v' : value) : str * layer -> str * layer -> Prop :=
| NewValue n q : same_file w p q -> w_can_read w q = true ->
    with_new_value tc w p v' (n, LFile (toml_handler tc) q) (n, LMemory v')
| OtherLayer n l : built_in tc l -> (forall q, l = LFile (toml_handler tc) q -> ~ same_file w p q) ->
    with_new_value tc w p v' (n, l) (n, l).
