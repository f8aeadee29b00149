(** Adjacently tagged enums, [#[serde(tag = "...", content = "...")]], written
    to and read from a Value.  The derived code is serde's (external, written
    down here; since serde 1.0.181 it reads the tag with [deserialize_enum]); the
    code modelled is what it calls: [serialize_struct] and [serialize_field]
    (src/model/ser.rs:211-217, 394-413), [serialize_unit_variant] (:146-153),
    [deserialize_struct] (src/model/de.rs:225-235), [ValueMap] (:292-331),
    [deserialize_identifier] (:249-254), [deserialize_ignored_any] (:256-261),
    [deserialize_any] (:12-28), [deserialize_enum] (:237-247). *)
From Coq Require Import ZArith List Bool String.
Import ListNotations.
From Verif.Model Require Import Text Num Flt Value Convert Serde Buffered.
Local Open Scope Z_scope.

(** A struct with the tag (the variant's name, through [serialize_unit_variant])
    and, unless the variant is a unit, the content. *)
Definition adjacent_fields (tag content n : str) (x : option (mres value)) : mres value :=
  ser_fields (fun y => y) new_map
    ((tag, ser (DUnitVariant n)) :: match x with Some y => [(content, y)] | None => [] end).
Definition ser_adjacent (tag content : str) (d : data) : mres value :=
  match d with
  | DUnitVariant n => adjacent_fields tag content n None
  | DNewtypeVariant n x => adjacent_fields tag content n (Some (ser x))
  | DTupleVariant n l => adjacent_fields tag content n (Some (ser (DTuple l)))
  | DStructVariant n fs => adjacent_fields tag content n (Some (ser (DStruct fs)))
  | _ => Panic                                  (* no enum value: no such code *)
  end.

(** The next entry that is tag or content; others are dropped. *)
Fixpoint next_relevant (tag content : str) (m : vmap) : mres (option (bool * value * vmap)) :=
  match m with
  | [] => Done None
  | (k, x) :: t =>
    if str_eqb k tag then Done (Some (true, x, t))
    else if str_eqb k content then Done (Some (false, x, t))
    else obind (ignored_any x) (fun _ => next_relevant tag content t)
  end.
(** [deserialize_enum] is [unimplemented!()], src/model/de.rs:246. *)
Definition de_enum (x : value) : mres data := Panic.

(** The derived [visit_map].  What would follow the tag is never reached. *)
Definition de_adjacent (tag content : str) (v : value) : mres data :=
  match v with
  | VMap m =>
    obind (next_relevant tag content m) (fun r =>
    match r with
    | None => de_fail (lit "missing field `" ++ tag ++ lit "`")
    | Some (true, x, _) => de_enum x
    | Some (false, x, t) =>
      obind (buffer x) (fun _ =>
      obind (next_relevant tag content t) (fun r =>
      match r with
      | None => de_fail (lit "missing field `" ++ tag ++ lit "`")
      | Some (true, y, _) => de_enum y
      | Some (false, _, _) => de_fail (lit "duplicate field `" ++ content ++ lit "`")
      end))
    end)
  | _ => de_kind_fail v (lit "Map")
  end.
