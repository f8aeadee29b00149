(** Vocabulary for the merge properties (no function of the model is used). *)
From Coq Require Import List Permutation.
Import ListNotations.
From Verif.Model Require Import Text Value.
From Verif.Spec Require Import Spec.

(** b says nothing about path p: following p in b one reaches a map that lacks
    the next key. *)
Definition silent (b : value) (p : list str) : Prop :=
  exists p1 k p2 m, p = p1 ++ k :: p2 /\ at_path b p1 m /\ mapv m /\ lacks m k.

(** a has an entry (below maps shared with c) that c does not have. *)
Definition adds (a c : value) : Prop :=
  exists q k ma mc y, at_path a q ma /\ at_path c q mc /\ mapv mc /\ holds ma k y /\ lacks mc k.

(** The configurations on which merging a, b, c in the two possible groupings
    differs: at some path a and c have maps, b has a non-map, and a has
    something there that c does not have. *)
Definition shadow_conflict (a b c : value) : Prop :=
  exists p va vb vc, at_path a p va /\ at_path b p vb /\ at_path c p vc
    /\ mapv va /\ ~ mapv vb /\ mapv vc /\ adds va vc.

(** The merge loop with the freedom a HashMap has: the right operand is visited
    in any order, and after each update the left table may list its entries in
    any order. *)
Inductive any_merge : value -> value -> value -> Prop :=
| AnyNoop a b : ~ (mapv a /\ mapv b) -> any_merge a b a
| AnyMaps m n visit r : Permutation n visit -> any_loop m visit r -> any_merge (VMap m) (VMap n) (VMap r)
with any_loop : vmap -> vmap -> vmap -> Prop :=
| LoopEnd m m' : Permutation m m' -> any_loop m [] m'
| LoopDeep m k v x rest w others m' r :
    Permutation m ((k, v) :: others) -> mapv v -> mapv x -> any_merge v x w ->
    Permutation m' ((k, w) :: others) -> any_loop m' rest r -> any_loop m ((k, x) :: rest) r
| LoopReplace m k v x rest others m' r :
    Permutation m ((k, v) :: others) -> ~ (mapv v /\ mapv x) ->
    Permutation m' ((k, x) :: others) -> any_loop m' rest r -> any_loop m ((k, x) :: rest) r
| LoopAdd m k x rest m' r :
    ~ In k (map fst m) -> Permutation m' ((k, x) :: m) ->
    any_loop m' rest r -> any_loop m ((k, x) :: rest) r.

Scheme any_merge_mind := Induction for any_merge Sort Prop
  with any_loop_mind := Induction for any_loop Sort Prop.
Combined Scheme any_merge_loop_ind from any_merge_mind, any_loop_mind.
