(** Types made of parts with their own [Deserialize] and [Serialize] impls:
    a struct, list, tuple, map, option or newtype whose elements are attribute
    structs (Model/Attributes.v), untagged or tagged enums (Model/Buffered.v),
    standard types (Model/StdTypes.v) or anything hand-written.

    The containers call src/model/de.rs and src/model/ser.rs as in
    Model/Serde.v; a part [ROwn r w] is any pair of functions r (deserialise)
    and w (serialise).  Simplifications: maps are keyed by [String]; a part that
    answers [deserialize_option] when its field is missing (a hand-written
    option-like type) is not covered, such a field counts as missing. *)
From Coq Require Import ZArith List Bool String.
Import ListNotations.
From Verif.Model Require Import Text Num Flt Value Convert Serde.

Inductive rty :=
| ROwn (r : value -> mres data) (w : data -> mres value)
| ROption (t : rty)
| RNewtype (t : rty)
| RSeq (t : rty)
| RTuple (ts : list rty)
| RMap (t : rty)
| RStruct (fs : list (str * rty)).

Definition r_is_option (t : rty) : bool := match t with ROption _ => true | _ => false end.

(** [Value::deserialize::<T>], src/model/de.rs:333-340. *)
Fixpoint de_r (t : rty) (v : value) {struct t} : mres data :=
  match t with
  | ROwn r _ => r v
  | ROption t1 =>
    match v with
    | VNone => Done DNone
    | _ => obind (de_r t1 v) (fun d => Done (DSome d))
    end                                                                    (* de.rs:144-152 *)
  | RNewtype t1 => obind (de_r t1 v) (fun d => Done (DNewtype d))           (* de.rs:175-184 *)
  | RSeq t1 =>
    match v with
    | VArr l => obind (de_seq (de_r t1) l) (fun ds => Done (DSeq ds))
    | _ => de_kind_fail v (lit "Array")
    end                                                                    (* de.rs:186-194 *)
  | RTuple ts =>
    match v with
    | VArr l =>
      obind (de_tuple (expecting_tuple (List.length ts)) 0 (map (fun t => de_r t) ts) l)
        (fun ds => Done (DTuple ds))
    | _ => de_kind_fail v (lit "Array")
    end                                                                    (* de.rs:196-201 *)
  | RMap t1 =>
    match v with
    | VMap m => obind (de_map (de TString) (de_r t1) dinsert m) (fun ds => Done (DMap ds))
    | _ => de_kind_fail v (lit "Map")
    end                                                                    (* de.rs:215-223 *)
  | RStruct fs =>
    match v with
    | VMap m =>
      de_struct (map (fun p => {| fs_name := fst p; fs_optional := r_is_option (snd p);
                                  fs_de := de_r (snd p) |}) fs) m
    | _ => de_kind_fail v (lit "Map")
    end                                                                    (* de.rs:225-235 *)
  end.

(** [Value::serialize], src/model/ser.rs:37-44.  A datum that is not of the type
    does not exist in Rust; the model gives [Panic] there and no property speaks
    of it. *)
Fixpoint ser_r (t : rty) (d : data) {struct t} : mres value :=
  match t, d with
  | ROwn _ w, _ => w d
  | ROption _, DNone => ser_none                            (* ser.rs:127-129 *)
  | ROption t1, DSome x => ser_r t1 x                       (* ser.rs:131-136 *)
  | RNewtype t1, DNewtype x => ser_r t1 x                   (* ser.rs:155-164 *)
  | RSeq t1, DSeq l => ser_seq (ser_r t1) new_array l       (* ser.rs:181-183 *)
  | RTuple ts, DTuple l =>
    if Nat.eqb (List.length ts) (List.length l) then
      ser_seq (fun f => f) new_array (map (fun p => fst p (snd p)) (List.combine (map (fun t => ser_r t) ts) l))
    else Panic                                             (* ser.rs:185-187 *)
  | RMap t1, DMap m => ser_map_entries (fun e => ser (fst e)) (fun e => ser_r t1 (snd e)) m (* ser.rs:207-209 *)
  | RStruct fs, DStruct l =>
    if Nat.eqb (List.length fs) (List.length l) then
      ser_fields (fun f => f) new_map
        (map (fun p => (fst (fst p), snd (fst p) (snd (snd p)))) (List.combine (map (fun f => (fst f, ser_r (snd f))) fs) l))
    else Panic                                             (* ser.rs:211-217 *)
  | _, _ => Panic
  end.
