(** [Value::merge] and [Value::clone_merge], src/model/merge.rs:3-31. *)
From Coq Require Import ZArith List Bool.
Import ListNotations.
From Verif.Model Require Import Text Value.

(** src/model/merge.rs:4-24.  The loop over [rhs] (:7) runs in the iteration
    order of [rhs]; [lhs.get_mut(key)] + in-place merge (:8-11) is a replace of
    that key's value. *)
Fixpoint v_merge (self other : value) {struct other} : value :=
  match self, other with
  | VMap lhs, VMap rhs =>
    VMap ((fix go (lhs rhs : vmap) {struct rhs} : vmap :=
             match rhs with
             | [] => lhs
             | (key, x) :: rest =>
               go (match mget key lhs with
                   | Some lhs_value =>
                     if is_map lhs_value && is_map x
                     then minsert key (v_merge lhs_value x) lhs
                     else minsert key x lhs
                   | None => minsert key x lhs
                   end) rest
             end) lhs rhs)
  | _, _ => self
  end.

(** src/model/merge.rs:26-30: the merged copy, and the receiver left behind. *)
Definition v_clone_merge (self other : value) : value * value :=
  let copy := self in (v_merge copy other, self).
