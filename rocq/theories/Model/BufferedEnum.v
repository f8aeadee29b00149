(** Ordinary (externally tagged) enums read out of serde's buffer: inside
    untagged enums and flattened structs (C112).  Read directly they end in
    [unimplemented!()] (src/model/de.rs:237-247, C58); the buffer's deserialisers
    ([ContentDeserializer::deserialize_enum],
    [ContentRefDeserializer::deserialize_enum], serde, external) never call
    that function. *)
From Coq Require Import ZArith List Bool String.
Import ListNotations.
From Verif.Model Require Import Text Num Flt Value Convert Serde Attributes Buffered.

(** The derived [visit_enum]: a name this enum does not have is an error. *)
Definition c_variant (vs : list (str * shape)) (n : str) : mres (str * shape) :=
  match find (fun p => str_eqb n (fst p)) vs with
  | Some p => Done p
  | None => de_fail (lit "unknown variant `" ++ n ++
              match vs with [] => lit "`, there are no variants" | _ => lit "`, expected " ++ one_of (map fst vs) end)
  end.
(** [VariantDeserializer]: the content beside the name; [ShUnit] reads a unit,
    the derived struct visitor takes maps and sequences. *)
Definition c_variant_content (owned : bool) (p : str * shape) (c : content) : mres data :=
  match snd p with
  | ShUnit => obind (de_content owned TUnit c) (fun _ => Done (DUnitVariant (fst p)))
  | ShNewtype t => obind (de_content owned t c) (fun d => Done (DNewtypeVariant (fst p) d))
  | ShTuple ts => match de_content owned (TTuple ts) c with
                  | Done (DTuple ds) => Done (DTupleVariant (fst p) ds) | Done _ => invalid | Fail e => Fail e | Panic => Panic end
  | ShStruct fs => match de_content owned (TStruct fs) c with
                   | Done (DStruct ds) => Done (DStructVariant (fst p) ds) | Done _ => invalid | Fail e => Fail e | Panic => Panic end
  end.
(** [deserialize_enum]: a name alone (unit variants) or a map with one entry. *)
Definition de_content_enum (owned : bool) (vs : list (str * shape)) (c : content) : mres data :=
  match c with
  | CtStr n => obind (c_variant vs n) (fun p => match snd p with ShUnit => Done (DUnitVariant (fst p)) | _ => invalid end)
  | CtMap [(n, x)] => obind (c_variant vs n) (fun p => c_variant_content owned p x)
  | _ => invalid
  end.
Definition de_buffered_enum (owned : bool) (vs : list (str * shape)) (v : value) : mres data :=
  obind (buffer v) (de_content_enum owned vs).

(** [#[serde(untagged)] enum name { n(E) }], E an ordinary enum. *)
Definition de_wrapped_enum (name n : str) (vs : list (str * shape)) (v : value) : mres data :=
  obind (buffer v) (fun c =>
  match de_content_enum false vs c with
  | Done d => Done (DNewtypeVariant n d)
  | Fail _ => de_fail (lit "data did not match any variant of untagged enum " ++ name)
  | Panic => Panic
  end).

(** [struct { #[serde(flatten)] n: struct { f1: E1, f2: E2, ... } }], the Ei
    ordinary enums ([FlatMapDeserializer::deserialize_struct]). *)
Definition de_flat_enums (n : str) (fs : list (str * list (str * shape))) (v : value) : mres data :=
  match v with
  | VMap m =>
    obind (buffer_entries buffer m) (fun cs =>
    obind (c_struct (map (fun p => {| cs_name := fst p; cs_optional := false; cs_de := de_content_enum true (snd p) |}) fs)
             (filter (fun e => existsb (str_eqb (fst e)) (map fst fs)) cs))
      (fun ds => Done (DStruct [(n, DStruct ds)])))
  | _ => de_kind_fail v (lit "Map")
  end.
