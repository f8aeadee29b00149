(** Writing the types of Model/Buffered.v: what serde's derived code makes of
    untagged and internally tagged enums and of structs with flattened parts,
    as calls on [ValueSerializer] and [ValueSerMap] (src/model/ser.rs:46-228,
    310-354, 394-413).  The derived code and serde's [TaggedSerializer] and
    [FlatMapSerializer] ([serde::__private::ser]) are external, written down
    here. *)
From Coq Require Import ZArith List Bool String.
Import ListNotations.
From Verif.Model Require Import Text Num Flt Value Convert Serde Buffered.
Local Open Scope Z_scope.

(** [#[serde(untagged)]]: the content alone: [serialize_unit] (src/model/ser.rs:138-140),
    the content's own [Serialize], [serialize_tuple] (:185-187),
    [serialize_struct] (:211-217).  Simplification: data that is no enum value
    has no such code ([Panic] stands for that). *)
Definition ser_untagged (d : data) : mres value :=
  match d with
  | DUnitVariant _ => ser_unit
  | DNewtypeVariant _ x => ser x
  | DTupleVariant _ l => ser_seq ser new_array l
  | DStructVariant _ fs => ser_fields ser new_map fs
  | _ => Panic
  end.

(** [serialize_entry] (serde default: key then value, src/model/ser.rs:329-349),
    over all entries, on a map that is already open. *)
Definition sm_entries {A} (serk serv : A -> mres value) (sm : ser_map) (l : list A) : mres ser_map :=
  (fix go (sm : ser_map) (l : list A) : mres ser_map :=
     match l with
     | [] => Done sm
     | e :: t =>
       obind (sm_serialize_key sm (serk e)) (fun sm1 =>
       obind (sm_serialize_value sm1 (serv e)) (fun sm2 => go sm2 t))
     end) sm l.
(** [end], src/model/ser.rs:351-353. *)
Definition sm_end (sm : mres ser_map) : mres value := obind sm (fun sm => Done (sm_map sm)).

(** The map opened by [TaggedSerializer::serialize_map] and by the derived code:
    [serialize_map] (src/model/ser.rs:207-209) with the tag in it;
    [serialize_struct] (:211-217, :394-413) with the tag in it. *)
Definition tagged_map (tag n : str) : mres ser_map :=
  sm_entries (fun e => ser_str (fst e)) (fun e => ser_str (snd e)) ser_map_new [(tag, n)].
Definition tagged_struct (tag n : str) : mres value := ser_fields ser_str new_map [(tag, n)].

(** [TaggedSerializer].  Simplification: the wording of its error ("cannot
    serialize tagged newtype variant ... containing ...") is not modelled. *)
Definition no_tag {A} : mres A := Fail (ESerialization (lit "cannot serialize tagged newtype variant")).
Definition tagged_variant_entry (tag n inner : str) (x : mres value) : mres value :=
  sm_end (obind (tagged_map tag n) (fun sm => sm_entries (fun _ => ser_str inner) (fun _ => x) sm [tt])).
Fixpoint ser_tagged_content (tag n : str) (d : data) : mres value :=
  match d with
  | DUnit | DUnitStruct => sm_end (tagged_map tag n)
  | DNewtype x => ser_tagged_content tag n x
  | DMap m => sm_end (obind (tagged_map tag n) (fun sm => sm_entries (fun e => ser (fst e)) (fun e => ser (snd e)) sm m))
  | DStruct fs => obind (tagged_struct tag n) (fun m => ser_fields ser m fs)
  | DValue (VMap m) =>                                     (* src/model/ser.rs:26-32 *)
    sm_end (obind (tagged_map tag n) (fun sm => sm_entries (fun e => ser_str (fst e)) (fun e => ser_value (snd e)) sm m))
  | DUnitVariant k => tagged_variant_entry tag n k ser_unit
  | DNewtypeVariant k x => tagged_variant_entry tag n k (ser x)
  | DTupleVariant k l => tagged_variant_entry tag n k (ser_seq ser new_array l)
  | DStructVariant k fs => tagged_variant_entry tag n k (ser_fields ser new_map fs)
  | _ => no_tag
  end.

(** [#[serde(tag = "...")]]: unit and struct variants as structs with the tag
    first, newtype variants through [TaggedSerializer]. *)
Definition ser_tagged (tag : str) (d : data) : mres value :=
  match d with
  | DUnitVariant n => tagged_struct tag n
  | DStructVariant n fs => obind (tagged_struct tag n) (fun m => ser_fields ser m fs)
  | DNewtypeVariant n x => ser_tagged_content tag n x
  | _ => Panic
  end.

(** Structs with [#[serde(flatten)]] parts: [serialize_map(None)], the own fields
    as entries, each part into the same map ([FlatMapSerializer]: a struct's
    fields and a map's entries become entries), [end].  Simplification: own
    fields are listed before the parts; parts are structs or maps. *)
Fixpoint ser_flat_parts (sm : ser_map) (parts : list (str * data)) : mres ser_map :=
  match parts with
  | [] => Done sm
  | (_, DStruct fs) :: t => obind (sm_entries (fun e => ser_str (fst e)) (fun e => ser (snd e)) sm fs) (fun sm => ser_flat_parts sm t)
  | (_, DMap m) :: t => obind (sm_entries (fun e => ser (fst e)) (fun e => ser (snd e)) sm m) (fun sm => ser_flat_parts sm t)
  | _ :: _ => Panic
  end.
Definition ser_flat (own parts : list (str * data)) : mres value :=
  sm_end (obind (sm_entries (fun e => ser_str (fst e)) (fun e => ser (snd e)) ser_map_new own) (fun sm => ser_flat_parts sm parts)).
