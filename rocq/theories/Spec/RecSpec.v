(** Recursive Rust types (C92), e.g.
    [struct Person { name: String, friends: Vec<Person> }].  The grammar [ty] of
    the model is finite; a recursive type is a type expression with a name for
    itself, and its finite unfoldings are types of the grammar. *)
From Coq Require Import ZArith List Bool String.
Import ListNotations.
From Verif.Model Require Import Text Value Serde.
From Verif.Spec Require Import Spec SerdeSpec.

Inductive rty :=
| RSelf                                        (* Box<Self>, Self *)
| RBase (t : ty)                               (* a type in which Self does not occur *)
| ROption (r : rty)
| RSeq (r : rty)
| RTuple (rs : list rty)
| RMap (k : ty) (r : rty)
| RStruct (fields : list (str * rty))
| RNewtype (r : rty)
| RTupleStruct (name : str) (rs : list rty).

(** The type expression with [t] for Self. *)
Fixpoint fill (t : ty) (r : rty) : ty :=
  match r with
  | RSelf => t
  | RBase b => b
  | ROption r => TOption (fill t r)
  | RSeq r => TSeq (fill t r)
  | RTuple rs => TTuple (map (fill t) rs)
  | RMap k r => TMap k (fill t r)
  | RStruct fs => TStruct (map (fun f => (fst f, fill t (snd f))) fs)
  | RNewtype r => TNewtype (fill t r)
  | RTupleStruct n rs => TTupleStruct n (map (fill t) rs)
  end.

(** The type unfolded n times, with [end_] in the places that are not unfolded
    any more. *)
Fixpoint unfold_ty (r : rty) (n : nat) (end_ : ty) : ty :=
  match n with O => end_ | S n => fill (unfold_ty r n end_) r end.

(** Rust declares recursive types as structs. *)
Definition declared (r : rty) : Prop :=
  match r with RStruct _ | RNewtype _ | RTupleStruct _ _ => True | _ => False end.

(** Self occurs only inside lists, tuples, maps and struct fields. *)
Inductive guarded : rty -> Prop :=
| GuBase t : guarded (RBase t)
| GuOption r : guarded r -> guarded (ROption r)
| GuSeq r : guarded (RSeq r)
| GuTuple rs : guarded (RTuple rs)
| GuMap k r : guarded (RMap k r)
| GuStruct fs : guarded (RStruct fs)
| GuNewtype r : guarded r -> guarded (RNewtype r)
| GuTupleStruct n rs : guarded (RTupleStruct n rs).

(** How deep a Value is nested. *)
Fixpoint depth (v : value) : nat :=
  match v with
  | VArr l => S (list_max (map depth l))
  | VMap m => S (list_max (map (fun e => depth (snd e)) m))
  | _ => O
  end.

(** Self wrapped in newtypes and Options only. *)
Inductive bare : rty -> Prop :=
| BaSelf : bare RSelf
| BaOption r : bare r -> bare (ROption r)
| BaNewtype r : bare r -> bare (RNewtype r).

(** d is a value of the recursive type: some unfolding is deep enough for it,
    whatever stands at its end. *)
Definition recursive_datum (r : rty) (d : data) : Prop :=
  exists n, forall end_, has_type (unfold_ty r n end_) d.
