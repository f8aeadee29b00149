(** Independent vocabulary for stating the properties.  Nothing here refers to
    a function of the model except the data types themselves. *)
From Coq Require Import ZArith List Bool Lia.
Import ListNotations.
From Verif.Model Require Import Text Value.

(** ** Shapes *)
Definition mapv (v : value) : Prop := exists m, v = VMap m.
Definition arrayv (v : value) : Prop := exists l, v = VArr l.

(** A Value that is neither an array nor a map. *)
Definition scalarv (v : value) : Prop :=
  match v with VArr _ | VMap _ => False | _ => True end.

(** ** Where things are: [holds v k x] = "v is a map and holds x under key k",
    [at_path v p x] = "following the keys p from v through maps ends at x". *)
Definition holds (v : value) (k : str) (x : value) : Prop :=
  exists m, v = VMap m /\ In (k, x) m.
Definition lacks (v : value) (k : str) : Prop := forall x, ~ holds v k x.

Inductive at_path : value -> list str -> value -> Prop :=
| AtHere v : at_path v [] v
| AtKey v k y p x : holds v k y -> at_path y p x -> at_path v (k :: p) x.

(** ** Sameness of Values: equal scalars, arrays element by element, maps with
    the same keys holding the same Values; the order in which a map lists its
    entries is irrelevant. *)
Inductive vequiv : value -> value -> Prop :=
| EqvScalar v : scalarv v -> vequiv v v
| EqvArr l r : Forall2 vequiv l r -> vequiv (VArr l) (VArr r)
| EqvMap m n :
    (forall k x, In (k, x) m -> exists y, In (k, y) n /\ vequiv x y) ->
    (forall k y, In (k, y) n -> exists x, In (k, x) m /\ vequiv x y) ->
    vequiv (VMap m) (VMap n).

(** Sameness of two results / outcomes that carry Values. *)
Definition requiv {E} (a b : result value E) : Prop :=
  match a, b with
  | Ok x, Ok y => vequiv x y
  | Err e, Err e' => e = e'
  | _, _ => False
  end.

(** ** Unique keys at every depth (what a Rust HashMap guarantees).  [wf] of
    the model adds the ranges of numbers and the validity of text. *)
Inductive uniq : value -> Prop :=
| UScalar v : scalarv v -> uniq v
| UArr l : (forall x, In x l -> uniq x) -> uniq (VArr l)
| UMap m : NoDup (map fst m) -> (forall k x, In (k, x) m -> uniq x) -> uniq (VMap m).

(** ** The binding in force after a history of bindings: the last one. *)
Definition last_binding {A} (h : list (str * A)) (k : str) (x : A) : Prop :=
  exists before after, h = before ++ (k, x) :: after /\ ~ In k (map fst after).

(** ** Layer resolution.  Given the maps contributing at some point (in layer
    order), what is found by following a key path: nothing, a non-map Value, or
    a map (whose content is what the longer paths find). *)
Inductive found := Nothing | Leaf (v : value) | Node.

(** Only the definitions after the last non-map one still count. *)
Inductive trailing_maps : list value -> list value -> Prop :=
| TrailAll ms : (forall v, In v ms -> mapv v) -> trailing_maps ms ms
| TrailCut before v ms : ~ mapv v -> (forall x, In x ms -> mapv x) ->
    trailing_maps (before ++ v :: ms) ms.

(** [defs k ms cs]: cs are the Values that the maps ms hold under k, in order. *)
Inductive defs (k : str) : list value -> list value -> Prop :=
| DefsNil : defs k [] []
| DefsHave m x ms cs : holds m k x -> defs k ms cs -> defs k (m :: ms) (x :: cs)
| DefsLack m ms cs : lacks m k -> defs k ms cs -> defs k (m :: ms) cs.

Inductive resolves : list value -> list str -> found -> Prop :=
| ResHere ms : resolves ms [] Node
| ResNone ms k p : defs k ms [] -> resolves ms (k :: p) Nothing
| ResLeaf ms k cs x : defs k ms (cs ++ [x]) -> ~ mapv x -> resolves ms [k] (Leaf x)
| ResBelowLeaf ms k k' p cs x :
    defs k ms (cs ++ [x]) -> ~ mapv x -> resolves ms (k :: k' :: p) Nothing
| ResDown ms k p cs x tm r :
    defs k ms (cs ++ [x]) -> mapv x -> trailing_maps (cs ++ [x]) tm ->
    resolves tm p r -> resolves ms (k :: p) r.

(** What is seen in a Value when following a path. *)
Inductive sees : value -> list str -> found -> Prop :=
| SeesLeaf v p x : at_path v p x -> ~ mapv x -> sees v p (Leaf x)
| SeesNode v p x : at_path v p x -> mapv x -> sees v p Node
| SeesNothing v p : (forall x, ~ at_path v p x) -> sees v p Nothing.
