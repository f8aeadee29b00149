(** What serde reads out of its buffer: [strict], and what types with untagged,
    tagged and flattened parts read (C100-C102).  Independent of the buffer. *)
From Coq Require Import ZArith List Bool String.
Import ListNotations.
From Verif.Model Require Import Text Num Flt Value Convert Serde Buffered.
From Verif.Spec Require Import Spec Numerals SerdeSpec ReadSpec AttrSpec.
Local Open Scope Z_scope.

(** A whole number of 64 bits. *)
Definition whole (v : value) (z : Z) : Prop := v = VInt z \/ v = VUInt z.

(** Reading without conversions: numbers from numbers, text from text.
    [lax]: empty containers are taken for units; [positional]: arrays are taken
    for structs.  Only serde's conversions of numbers: whole numbers to any
    integer type they fit in and to floats, f64 to f32. *)
Inductive strict (lax positional : bool) : ty -> value -> data -> Prop :=
| StBool b : strict lax positional TBool (VBool b) (DBool b)
| StInt t v z : whole v z -> ~ wide t -> fits t z -> strict lax positional (TInt t) v (DInt t z)
| StF64 f : strict lax positional TF64 (VFloat f) (DF64 f)
| StF64Whole v z : whole v z -> strict lax positional TF64 v (DF64 (f64_of_Z z))
| StF32 f : strict lax positional TF32 (VFloat f) (DF32 (f64_to_f32 f))
| StF32Whole v z : whole v z -> strict lax positional TF32 v (DF32 (f32_of_Z z))
| StChar c : strict lax positional TChar (VStr [c]) (DChar c)
| StString s : strict lax positional TString (VStr s) (DStr s)
| StUnit : strict lax positional TUnit VNone DUnit
| StUnitMap : lax = true -> strict lax positional TUnit (VMap []) DUnit
| StUnitStruct : strict lax positional TUnitStruct VNone DUnitStruct
| StUnitStructMap : lax = true -> strict lax positional TUnitStruct (VMap []) DUnitStruct
| StUnitStructArr : lax = true -> strict lax positional TUnitStruct (VArr []) DUnitStruct
| StNone t : strict lax positional (TOption t) VNone DNone
| StSome t v d : v <> VNone -> strict lax positional t v d -> strict lax positional (TOption t) v (DSome d)
| StNewtype t v d : strict lax positional t v d -> strict lax positional (TNewtype t) v (DNewtype d)
| StSeq t l r : Forall2 (strict lax positional t) l r -> strict lax positional (TSeq t) (VArr l) (DSeq r)
| StTuple ts l r : strict_each lax positional ts l r -> strict lax positional (TTuple ts) (VArr l) (DTuple r)
| StTupleStruct n ts l r : strict_each lax positional ts l r -> strict lax positional (TTupleStruct n ts) (VArr l) (DTupleStruct r)
| StMap tk tv m r :
    Forall2 (fun e p => strict lax positional tk (VStr (fst e)) (fst p) /\ strict lax positional tv (snd e) (snd p)) m r ->
    strict lax positional (TMap tk tv) (VMap m) (DMap r)
| StStruct fs v l : mapv v ->
    Forall2 (fun f d => fst d = fst f /\
      ((exists x, holds v (fst f) x /\ strict lax positional (snd f) x (snd d))
       \/ (lacks v (fst f) /\ (exists t, snd f = TOption t) /\ snd d = DNone))) fs l ->
    strict lax positional (TStruct fs) v (DStruct l)
| StPositional fs l r : positional = true -> strict_each lax positional (map snd fs) l (map snd r) -> map fst r = map fst fs ->
    strict lax positional (TStruct fs) (VArr l) (DStruct r)
| StValue v : strict lax positional TValue v (DValue v)
(** Exactly one Value per component. *)
with strict_each (lax positional : bool) : list ty -> list value -> list data -> Prop :=
| SeDone : strict_each lax positional [] [] []
| SeMore t ts x xs d ds : strict lax positional t x d -> strict_each lax positional ts xs ds ->
    strict_each lax positional (t :: ts) (x :: xs) (d :: ds).

(** serde's message for a 128-bit number, and the first one in reading order
    (the order in which the maps of the Value list their entries). *)
Inductive first_wide : value -> model_error -> Prop :=
| FwLong z s : canonical s z ->
    first_wide (VLong z) (EDeserialization (lit "invalid type: integer `" ++ s ++ lit "` as i128, expected any value"))
| FwULong z s : canonical s z ->
    first_wide (VULong z) (EDeserialization (lit "invalid type: integer `" ++ s ++ lit "` as u128, expected any value"))
| FwArr l1 x l2 e : (forall y, In y l1 -> ~ has_wide y) -> first_wide x e -> first_wide (VArr (l1 ++ x :: l2)) e
| FwMap m1 k x m2 e : (forall k' y, In (k', y) m1 -> ~ has_wide y) -> first_wide x e -> first_wide (VMap (m1 ++ (k, x) :: m2)) e.

(** ** Untagged enums: what one variant reads *)
Inductive variant_reads : str -> shape -> value -> data -> Prop :=
| VrUnit n : variant_reads n ShUnit VNone (DUnitVariant n)
| VrNewtype n t v d : strict false true t v d -> variant_reads n (ShNewtype t) v (DNewtypeVariant n d)
| VrTuple n ts v ds : strict false true (TTuple ts) v (DTuple ds) -> variant_reads n (ShTuple ts) v (DTupleVariant n ds)
| VrStruct n fs v ds : mapv v -> strict false true (TStruct fs) v (DStruct ds) -> variant_reads n (ShStruct fs) v (DStructVariant n ds).

(** ** Internally tagged enums: what a variant reads from what is left when the
    tag is taken away *)
Inductive content_reads : str -> tshape -> value -> data -> Prop :=
| CrUnit n v : mapv v \/ v = VArr [] -> content_reads n TsUnit v (DUnitVariant n)
| CrNewtype n t v d : strict true true t v d -> content_reads n (TsNewtype t) v (DNewtypeVariant n d)
| CrStruct n fs v ds : strict true true (TStruct fs) v (DStruct ds) -> content_reads n (TsStruct fs) v (DStructVariant n ds).
Inductive tagged_reads (tag : str) (vs : list (str * tshape)) : value -> data -> Prop :=
| TgMap m1 x m2 n sh d : ~ In tag (map fst (m1 ++ m2)) -> into_string x = Ok n -> In (n, sh) vs -> ~ has_wide (VMap (m1 ++ m2)) ->
    content_reads n sh (VMap (m1 ++ m2)) d -> tagged_reads tag vs (VMap (m1 ++ (tag, x) :: m2)) d
| TgArr x l n sh d : into_string x = Ok n -> In (n, sh) vs -> ~ has_wide (VArr l) ->
    content_reads n sh (VArr l) d -> tagged_reads tag vs (VArr (x :: l)) d.

(** ** Flattened structs *)
(** The entries under other keys. *)
Definition outside (taken : list str) (m : vmap) : vmap :=
  filter (fun e => if in_dec (list_eq_dec Z.eq_dec) (fst e) taken then false else true) m.
(** Each part reads what its predecessors (whose names are [taken]) left. *)
Inductive parts_read (m : vmap) : list str -> list (str * flat_part) -> list (str * data) -> Prop :=
| PaNil taken : parts_read m taken [] []
| PaStruct taken n fs t l r :
    Forall2 (fun f d => fst d = fst f /\
      ((~ In (fst f) taken /\ exists x, holds (VMap m) (fst f) x /\ strict true true (snd f) x (snd d))
       \/ ((In (fst f) taken \/ lacks (VMap m) (fst f)) /\ (exists t, snd f = TOption t) /\ snd d = DNone))) fs l ->
    parts_read m (taken ++ map fst fs) t r -> parts_read m taken ((n, FpStruct fs) :: t) ((n, DStruct l) :: r)
| PaMap taken n ty1 t l r :
    Forall2 (fun e d => fst d = DStr (fst e) /\ strict false true ty1 (snd e) (snd d)) (outside taken m) l ->
    parts_read m taken t r -> parts_read m taken ((n, FpMap ty1) :: t) ((n, DMap l) :: r).
Inductive flat_reads (own : list (str * ty)) (parts : list (str * flat_part)) : value -> data -> Prop :=
| FlReads m l r :
    (* own fields: as always (C92) *)
    Forall2 (fun f d => fst d = fst f /\
      ((exists x, holds (VMap m) (fst f) x /\ de (snd f) x = Done (snd d))
       \/ (lacks (VMap m) (fst f) /\ (exists t, snd f = TOption t) /\ snd d = DNone))) own l ->
    (* everything else is buffered *)
    (forall k x, In (k, x) m -> ~ In k (map fst own) -> ~ has_wide x) ->
    parts_read m (map fst own) parts r -> flat_reads own parts (VMap m) (DStruct (l ++ r)).

(** Types without [f32]. *)
Inductive no_f32 : ty -> Prop :=
| NfFlat t : match t with
             | TBool | TInt _ | TF64 | TChar | TString | TBytes | TUnit | TUnitStruct | TEnum | TValue => True
             | _ => False
             end -> no_f32 t
| NfOption t : no_f32 t -> no_f32 (TOption t)
| NfSeq t : no_f32 t -> no_f32 (TSeq t)
| NfTuple ts : (forall t, In t ts -> no_f32 t) -> no_f32 (TTuple ts)
| NfMap k v : no_f32 k -> no_f32 v -> no_f32 (TMap k v)
| NfStruct fs : (forall n t, In (n, t) fs -> no_f32 t) -> no_f32 (TStruct fs)
| NfNewtype t : no_f32 t -> no_f32 (TNewtype t)
| NfTupleStruct n ts : (forall t, In t ts -> no_f32 t) -> no_f32 (TTupleStruct n ts).

(** Rust types (C92) without enums and byte strings, in each place. *)
Definition usable (t : ty) : Prop := proper t /\ no_enum t.
Definition shape_usable (sh : shape) : Prop :=
  match sh with ShUnit => True | ShNewtype t => usable t | ShTuple ts => usable (TTuple ts) | ShStruct fs => usable (TStruct fs) end.
Definition tshape_usable (sh : tshape) : Prop :=
  match sh with TsUnit => True | TsNewtype t => usable t | TsStruct fs => usable (TStruct fs) end.
Definition part_usable (p : flat_part) : Prop := match p with FpStruct fs => usable (TStruct fs) | FpMap t => usable t end.

(** Types of numbers and truth values. *)
Definition numeric (t : ty) : Prop := match t with TBool | TInt _ | TF32 | TF64 => True | _ => False end.
