(** Vocabulary for C109: layers that change things when they are read. *)
From Coq Require Import ZArith List Bool Permutation String.
Import ListNotations.
From Verif.Model Require Import Text Value Finder World Layers Config Stateful.
From Verif.Spec Require Import Spec ConfigSpec.

(** r lists the layers of c, in order of registration. *)
Definition sregistered {S} (c : sconfig S) (r : list (str * slayer S)) : Prop :=
  s_names c = map fst r /\ NoDup (map fst r) /\ Permutation (s_layers c) r.

(** Reading the layers one after the other, each once, starting in the state s,
    gives the answers xs and leaves the state s'. *)
Inductive asked_in_turn {S} : S -> list (str * slayer S) -> list (outcome value bak_error) -> S -> Prop :=
| AsNone s : asked_in_turn s [] [] s
| AsMore s n l ls x xs s1 s' : sl_read l s = (s1, x) -> asked_in_turn s1 ls xs s' -> asked_in_turn s ((n, l) :: ls) (x :: xs) s'.

(** An answer that ends a build. *)
Definition ends (skip : bool) (x : outcome value bak_error) : Prop :=
  x = Panic \/ skip = false /\ exists e, x = Fail e.

(** The same answer from a layer that does not panic. *)
Inductive same_answer : outcome value bak_error -> result value bak_error -> Prop :=
| SaOk v : same_answer (Done v) (Ok v)
| SaErr e : same_answer (Fail e) (Err e).
