(** Vocabulary for layers that agree (C88). *)
From Coq Require Import List Permutation.
Import ListNotations.
From Verif.Model Require Import Text Value World Layers Config.
From Verif.Spec Require Import Spec.

(** a and b never say different things: at a path where both have something,
    both have a map or both have the same Value. *)
Definition agree (a b : value) : Prop :=
  forall p x y, at_path a p x -> at_path b p y -> (mapv x /\ mapv y) \/ vequiv x y.

(** Two layers do not contradict each other in the world w: maps they read
    agree, and they do not fail with different errors. *)
Definition compatible (w : world) (l l' : layer) : Prop :=
  (forall v v', layer_read w l = Ok v -> layer_read w l' = Ok v' -> mapv v -> mapv v' -> agree v v')
  /\ (forall e e', layer_read w l = Err e -> layer_read w l' = Err e' -> e = e').
