(** Vocabulary for the container API: histories of calls, the iterator run,
    and the meaning of [==]. *)
From Coq Require Import ZArith List Bool.
From Coq Require Import Floats.SpecFloat.
Import ListNotations.
From Verif.Model Require Import Text Num Flt Value.
From Verif.Spec Require Import Spec.

(** A history of [v.set(k, x)] calls: the final receiver and what each call returned. *)
Fixpoint set_calls (v : value) (h : list (str * value)) : value * list (result unit model_error) :=
  match h with
  | [] => (v, [])
  | (k, x) :: t =>
    let '(v', r) := v_set v k x in
    let '(v'', rs) := set_calls v' t in (v'', r :: rs)
  end.

(** A history of [v.push(x)] calls. *)
Fixpoint push_calls (v : value) (h : list value) : value * list (result unit model_error) :=
  match h with
  | [] => (v, [])
  | x :: t =>
    let '(v', r) := v_push v x in
    let '(v'', rs) := push_calls v' t in (v'', r :: rs)
  end.

(** The answers of n successive [next()] calls on an iterator. *)
Fixpoint next_calls (it : value_iter) (n : nat) : list (option value) :=
  match n with
  | O => []
  | S n' => let '(r, it') := iter_next it in r :: next_calls it' n'
  end.

(** [v.get(k1).get(k2)...get(kn)]. *)
Fixpoint get_path (v : value) (p : list str) : value :=
  match p with [] => v | k :: p' => get_path (v_get v k) p' end.

(** What [a == b] means: same variant; equal payloads, floats by IEEE
    comparison; arrays element by element; maps with the same keys and equal
    Values under each key. *)
Inductive rust_eq : value -> value -> Prop :=
| ReNone : rust_eq VNone VNone
| ReBool b : rust_eq (VBool b) (VBool b)
| ReInt z : rust_eq (VInt z) (VInt z)
| ReLong z : rust_eq (VLong z) (VLong z)
| ReUInt z : rust_eq (VUInt z) (VUInt z)
| ReULong z : rust_eq (VULong z) (VULong z)
| ReFloat f g : SFcompare f g = Some Eq -> rust_eq (VFloat f) (VFloat g)
| ReStr s : rust_eq (VStr s) (VStr s)
| ReArr l r : Forall2 rust_eq l r -> rust_eq (VArr l) (VArr r)
| ReMap m n :
    (forall k x, In (k, x) m -> exists y, In (k, y) n /\ rust_eq x y) ->
    (forall k y, In (k, y) n -> exists x, In (k, x) m /\ rust_eq x y) ->
    rust_eq (VMap m) (VMap n).

(** A NaN occurs somewhere in the Value. *)
Inductive has_nan : value -> Prop :=
| HnFloat : has_nan (VFloat S754_nan)
| HnArr l x : In x l -> has_nan x -> has_nan (VArr l)
| HnMap m k x : In (k, x) m -> has_nan x -> has_nan (VMap m).

(** The text of a Value: scalars by their own text, arrays and maps
    bracketed, with ", " between entries, recursively, entries in the map's
    iteration order. *)
Inductive separated (sep : str) : list str -> str -> Prop :=
| Sep0 : separated sep [] []
| Sep1 s : separated sep [s] s
| SepN s t rest out : separated sep (t :: rest) out -> separated sep (s :: t :: rest) (s ++ sep ++ out).
