(** Vocabulary for C104-C106: data of untagged, tagged and flattened types, and
    the entries they write.  Independent of the serialisers of those types. *)
From Coq Require Import ZArith List Bool String.
Import ListNotations.
From Verif.Model Require Import Text Num Flt Value Convert Serde Buffered.
From Verif.Spec Require Import Spec Numerals SerdeSpec ReadSpec BufferedSpec.
Local Open Scope Z_scope.

(** Keys that are text: strings and characters. *)
Inductive text_like : ty -> Prop :=
| TlkString : text_like TString
| TlkChar : text_like TChar
| TlkNewtype t : text_like t -> text_like (TNewtype t).

(** The types of C57 whose maps are keyed by text. *)
Inductive kept : ty -> Prop :=
| KeFlat t : match t with
             | TBool | TF32 | TF64 | TChar | TString | TUnit | TUnitStruct | TValue => True
             | TInt i => ~ wide i
             | _ => False
             end -> kept t
| KeOption t : kept t -> never_none t -> kept (TOption t)
| KeSeq t : kept t -> kept (TSeq t)
| KeTuple ts : (forall t, In t ts -> kept t) -> kept (TTuple ts)
| KeMap tk tv : text_like tk -> kept tv -> kept (TMap tk tv)
| KeStruct fs : NoDup (map fst fs) -> (forall n t, In (n, t) fs -> kept t) -> kept (TStruct fs)
| KeNewtype t : kept t -> kept (TNewtype t)
| KeTupleStruct n ts : (forall t, In t ts -> kept t) -> kept (TTupleStruct n ts).

(** Values of one variant. *)
Inductive has_variant (n : str) : shape -> data -> Prop :=
| HvUnit : has_variant n ShUnit (DUnitVariant n)
| HvNewtype t d : has_type t d -> has_variant n (ShNewtype t) (DNewtypeVariant n d)
| HvTuple ts l : has_type (TTuple ts) (DTuple l) -> has_variant n (ShTuple ts) (DTupleVariant n l)
| HvStruct fs l : has_type (TStruct fs) (DStruct l) -> has_variant n (ShStruct fs) (DStructVariant n l).
Definition shape_kept (sh : shape) : Prop :=
  match sh with ShUnit => True | ShNewtype t => kept t | ShTuple ts => kept (TTuple ts) | ShStruct fs => kept (TStruct fs) end.
Inductive has_tvariant (n : str) : tshape -> data -> Prop :=
| HtvUnit : has_tvariant n TsUnit (DUnitVariant n)
| HtvNewtype t d : has_type t d -> has_tvariant n (TsNewtype t) (DNewtypeVariant n d)
| HtvStruct fs l : has_type (TStruct fs) (DStruct l) -> has_tvariant n (TsStruct fs) (DStructVariant n l).
Definition tshape_kept (sh : tshape) : Prop :=
  match sh with TsUnit => True | TsNewtype t => kept t | TsStruct fs => kept (TStruct fs) end.

(** The same variant holding the same data. *)
Inductive same_variant : data -> data -> Prop :=
| SvUnit n : same_variant (DUnitVariant n) (DUnitVariant n)
| SvNewtype n d e : data_equiv d e -> same_variant (DNewtypeVariant n d) (DNewtypeVariant n e)
| SvTuple n l r : Forall2 data_equiv l r -> same_variant (DTupleVariant n l) (DTupleVariant n r)
| SvStruct n l r : data_equiv (DStruct l) (DStruct r) -> same_variant (DStructVariant n l) (DStructVariant n r).

(** The entries a datum contributes to a map that is shared with others, in the
    order they are written. *)
Definition field_entries (fs : list (str * data)) (l : vmap) : Prop :=
  Forall2 (fun f e => fst e = fst f /\ ser (snd f) = Done (snd e)) fs l.
Definition map_entries (m : list (data * data)) (l : vmap) : Prop :=
  Forall2 (fun p e => (exists kv, ser (fst p) = Done kv /\ into_string kv = Ok (fst e)) /\ ser (snd p) = Done (snd e)) m l.
Inductive entries_of : data -> vmap -> Prop :=
| EoUnit : entries_of DUnit []
| EoUnitStruct : entries_of DUnitStruct []
| EoNewtype d l : entries_of d l -> entries_of (DNewtype d) l
| EoStruct fs l : field_entries fs l -> entries_of (DStruct fs) l
| EoMap m l : map_entries m l -> entries_of (DMap m) l
| EoValue m l : Forall2 (fun p e => fst e = fst p /\ ser (DValue (snd p)) = Done (snd e)) m l -> entries_of (DValue (VMap m)) l
| EoVariant d l n x : (d = DUnitVariant n /\ x = VNone
    \/ (exists y, d = DNewtypeVariant n y /\ ser y = Done x)
    \/ (exists ys, d = DTupleVariant n ys /\ ser (DTuple ys) = Done x)
    \/ (exists ys, d = DStructVariant n ys /\ ser (DStruct ys) = Done x)) -> l = [(n, x)] -> entries_of d l.

(** A map made of the entries [l], written in this order: the last under each
    key remains. *)
Definition made_of (l : vmap) (v : value) : Prop :=
  exists m, v = VMap m /\ NoDup (map fst m) /\ forall k x, In (k, x) m <-> last_binding l k x.

(** The names under which a datum of a tagged newtype variant writes. *)
Inductive writes_under : data -> str -> Prop :=
| WuNewtype d k : writes_under d k -> writes_under (DNewtype d) k
| WuStruct fs k : In k (map fst fs) -> writes_under (DStruct fs) k
| WuMap m a b k : In (a, b) m -> key_text a k -> writes_under (DMap m) k
| WuValue m k : In k (map fst m) -> writes_under (DValue (VMap m)) k.

Inductive variant_writes : data -> str -> Prop :=
| VwNewtype n d k : writes_under d k -> variant_writes (DNewtypeVariant n d) k
| VwStruct n fs k : In k (map fst fs) -> variant_writes (DStructVariant n fs) k.

(** Data that can stand next to a tag. *)
Inductive taggable : data -> Prop :=
| TaUnit : taggable DUnit
| TaUnitStruct : taggable DUnitStruct
| TaNewtype d : taggable d -> taggable (DNewtype d)
| TaStruct fs : taggable (DStruct fs)
| TaMap m : taggable (DMap m)
| TaValue m : taggable (DValue (VMap m))
| TaVariant d : enum_datum d -> taggable d.

(** The name of an enum value's variant. *)
Definition is_variant (n : str) (d : data) : Prop :=
  match d with DUnitVariant k | DNewtypeVariant k _ | DTupleVariant k _ | DStructVariant k _ => k = n | _ => False end.

(** What a tagged variant writes besides the tag. *)
Inductive variant_entries : data -> vmap -> Prop :=
| VeUnit n : variant_entries (DUnitVariant n) []
| VeNewtype n d l : entries_of d l -> variant_entries (DNewtypeVariant n d) l
| VeStruct n fs l : field_entries fs l -> variant_entries (DStructVariant n fs) l.

(** Data of a flattened part. *)
Inductive has_part : flat_part -> data -> Prop :=
| HpStruct fs l : has_type (TStruct fs) (DStruct l) -> has_part (FpStruct fs) (DStruct l)
| HpMap t m : has_type (TMap TString t) (DMap m) -> has_part (FpMap t) (DMap m).
Definition part_kept (p : flat_part) : Prop := match p with FpStruct fs => kept (TStruct fs) | FpMap t => kept t end.

(** The field names of the flattened structs. *)
Definition part_names (p : str * flat_part) : list str := match snd p with FpStruct fs => map fst fs | FpMap _ => [] end.
Definition is_struct_part (p : str * flat_part) : Prop := exists fs, snd p = FpStruct fs.
(** What a flattened part writes. *)
Inductive part_entries : data -> vmap -> Prop :=
| PeStruct fs l : field_entries fs l -> part_entries (DStruct fs) l
| PeMap m l : map_entries m l -> part_entries (DMap m) l.
