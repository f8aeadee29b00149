(** Types that serde reads through its private buffer ([Content]): untagged and
    internally tagged enums, structs with [#[serde(flatten)]] parts, on top of
    [Deserializer for Value] (src/model/de.rs:9-340).  The buffer and its two
    deserialisers are serde's ([serde::__private::de], external, written down
    here); the code modelled is what they call: [deserialize_any]
    (src/model/de.rs:12-28), [deserialize_map] (:215-223),
    [deserialize_identifier] (:249-254), [ValueSeq]/[ValueMap] (:264-331). *)
From Coq Require Import ZArith List Bool String.
From Coq Require Import Floats.SpecFloat.
Import ListNotations.
From Verif.Model Require Import Text Num Flt Value Convert Serde Attributes.
Local Open Scope Z_scope.

(** The forms of [Content] that a Value's [deserialize_any] leads to; the keys
    of a map come as strings (src/model/de.rs:312-322). *)
Inductive content :=
| CtUnit | CtBool (b : bool) | CtI64 (z : Z) | CtU64 (z : Z) | CtF64 (f : f64) | CtStr (s : str)
| CtSeq (l : list content) | CtMap (m : list (str * content)).

(** [Content::deserialize]: [deserialize_any] with serde's [ContentVisitor],
    which has no [visit_i128] and no [visit_u128]. *)
Definition buffer_list {A} (one : A -> mres content) (l : list A) : mres (list content) :=
  (fix go (l : list A) : mres (list content) :=
     match l with
     | [] => Done []
     | x :: t => obind (one x) (fun c => obind (go t) (fun cs => Done (c :: cs)))
     end) l.
Definition buffer_entries (one : value -> mres content) (m : vmap) : mres (list (str * content)) :=
  (fix go (m : vmap) : mres (list (str * content)) :=
     match m with
     | [] => Done []
     | (k, x) :: t => obind (one x) (fun c => obind (go t) (fun cs => Done ((k, c) :: cs)))
     end) m.
Definition no_wide_content {A} (z : Z) (t : string) : mres A :=
  de_fail (lit "invalid type: integer `" ++ print_int z ++ lit "` as " ++ lit t ++ lit ", expected any value").
Fixpoint buffer (v : value) : mres content :=
  match v with
  | VNone => Done CtUnit
  | VBool b => Done (CtBool b)
  | VInt z => Done (CtI64 z)
  | VLong z => no_wide_content z "i128"
  | VUInt z => Done (CtU64 z)
  | VULong z => no_wide_content z "u128"
  | VFloat f => Done (CtF64 f)
  | VStr s => Done (CtStr s)
  | VArr l => obind (buffer_list buffer l) (fun cs => Done (CtSeq cs))
  | VMap m => obind (buffer_entries buffer m) (fun cs => Done (CtMap cs))
  end.

(** serde's "invalid type/value/length ..." errors out of the buffer.
    Simplification: their wording is not modelled. *)
Definition invalid {A} : mres A := de_fail (lit "invalid").

(** ** Out of the buffer: [ContentDeserializer] ([owned]; used by flatten and
    tag) and [ContentRefDeserializer] (used by untagged and flattened maps),
    with serde's visitors for the types of [ty].  Enums and byte buffers inside
    a buffered type are not modelled ([Panic] stands for that; the theorems
    leave such types out). *)
(** Integers as [f32]: [v as f32]. *)
Definition f32_of_Z (z : Z) : f32 := binary_normalize 24 128 z 0 false.

Definition c_seq {A} (de1 : content -> mres A) (l : list content) : mres (list A) :=
  (fix go (l : list content) : mres (list A) :=
     match l with
     | [] => Done []
     | x :: t => obind (de1 x) (fun d => obind (go t) (fun ds => Done (d :: ds)))
     end) l.
(** One component after the other, then nothing may be left ([SeqDeserializer::end]). *)
Fixpoint c_tuple (fs : list (content -> mres data)) (l : list content) : mres (list data) :=
  match fs, l with
  | [], [] => Done []
  | f :: fs', x :: l' => obind (f x) (fun d => obind (c_tuple fs' l') (fun ds => Done (d :: ds)))
  | _, _ => invalid
  end.
Definition c_map {A B} (dek : content -> mres A) (dev : content -> mres B)
  (ins : A -> B -> list (A * B) -> list (A * B)) (m : list (str * content)) : mres (list (A * B)) :=
  (fix go (m : list (str * content)) (acc : list (A * B)) : mres (list (A * B)) :=
     match m with
     | [] => Done acc
     | (k, x) :: t => obind (dek (CtStr k)) (fun kd => obind (dev x) (fun d => go t (ins kd d acc)))
     end) m [].

(** A derived struct's [visit_map], unknown entries dropped unread. *)
Record c_slot := { cs_name : str; cs_optional : bool; cs_de : content -> mres data }.
Fixpoint c_struct_loop (fs : list c_slot) (m : list (str * content)) (slots : list (str * data)) : mres (list (str * data)) :=
  match m with
  | [] => Done slots
  | (k, x) :: t =>
    match find (fun f => str_eqb k (cs_name f)) fs with
    | Some f =>
      match mget k slots with
      | Some _ => de_fail (lit "duplicate field `" ++ k ++ lit "`")
      | None => obind (cs_de f x) (fun d => c_struct_loop fs t (minsert k d slots))
      end
    | None => c_struct_loop fs t slots
    end
  end.
Fixpoint c_collect (fs : list c_slot) (slots : list (str * data)) : mres (list (str * data)) :=
  match fs with
  | [] => Done []
  | f :: t =>
    obind (match mget (cs_name f) slots with
           | Some d => Done d
           | None => if cs_optional f then Done DNone else de_fail (lit "missing field `" ++ cs_name f ++ lit "`")
           end) (fun d => obind (c_collect t slots) (fun ds => Done ((cs_name f, d) :: ds)))
  end.
Definition c_struct (fs : list c_slot) (m : list (str * content)) : mres (list (str * data)) :=
  obind (c_struct_loop fs m []) (c_collect fs).

(** [ValueVisitor] (src/model/visitor.rs:9-154) on a buffered value. *)
Fixpoint value_of_content (c : content) : mres value :=
  match c with
  | CtUnit => Done VNone
  | CtBool b => Done (VBool b)
  | CtI64 z => Done (VInt z)
  | CtU64 z => Done (VUInt z)
  | CtF64 f => Done (VFloat f)
  | CtStr s => Done (VStr s)
  | CtSeq l => obind (c_seq value_of_content l) (fun l' => Done (VArr l'))
  | CtMap m => obind (c_map (fun k => match k with CtStr s => Done s | _ => invalid end) value_of_content minsert m)
                 (fun m' => Done (VMap m'))
  end.

Definition c_int (t : ity) (z : Z) : mres data :=
  match t with
  | I128 => de_fail (lit "i128 is not supported")
  | U128 => de_fail (lit "u128 is not supported")
  | _ => if in_range t z then Done (DInt t z) else invalid
  end.
Fixpoint de_content (owned : bool) (t : ty) (c : content) {struct t} : mres data :=
  match t with
  | TBool => match c with CtBool b => Done (DBool b) | _ => invalid end
  | TInt i =>
    match i, c with
    | (I128 | U128), _ => c_int i 0
    | _, (CtI64 z | CtU64 z) => c_int i z
    | _, _ => invalid
    end
  | TF32 => match c with CtI64 z | CtU64 z => Done (DF32 (f32_of_Z z)) | CtF64 f => Done (DF32 (f64_to_f32 f)) | _ => invalid end
  | TF64 => match c with CtI64 z | CtU64 z => Done (DF64 (f64_of_Z z)) | CtF64 f => Done (DF64 f) | _ => invalid end
  | TChar => match c with CtStr [x] => Done (DChar x) | _ => invalid end
  | TString => match c with CtStr s => Done (DStr s) | _ => invalid end
  | TBytes | TEnum => Panic
  | TUnit =>
    match c with CtUnit => Done DUnit | CtMap [] => if owned then Done DUnit else invalid | _ => invalid end
  | TUnitStruct =>
    match c with
    | CtUnit => Done DUnitStruct
    | CtMap [] | CtSeq [] => if owned then Done DUnitStruct else invalid
    | _ => invalid
    end
  | TOption t1 => match c with CtUnit => Done DNone | _ => obind (de_content owned t1 c) (fun d => Done (DSome d)) end
  | TNewtype t1 => obind (de_content owned t1 c) (fun d => Done (DNewtype d))
  | TSeq t1 => match c with CtSeq l => obind (c_seq (de_content owned t1) l) (fun ds => Done (DSeq ds)) | _ => invalid end
  | TTuple ts =>
    match c with CtSeq l => obind (c_tuple (map (fun t => de_content owned t) ts) l) (fun ds => Done (DTuple ds)) | _ => invalid end
  | TTupleStruct _ ts =>
    match c with CtSeq l => obind (c_tuple (map (fun t => de_content owned t) ts) l) (fun ds => Done (DTupleStruct ds)) | _ => invalid end
  | TMap tk tv =>
    match c with
    | CtMap m => obind (c_map (de_content owned tk) (de_content owned tv) dinsert m) (fun ds => Done (DMap ds))
    | _ => invalid
    end
  | TStruct fs =>
    match c with
    | CtMap m =>
      obind (c_struct (map (fun p => {| cs_name := fst p; cs_optional := is_option (snd p); cs_de := de_content owned (snd p) |}) fs) m)
        (fun ds => Done (DStruct ds))
    | CtSeq l =>                                   (* the derived visit_seq *)
      obind (c_tuple (map (fun p => de_content owned (snd p)) fs) l) (fun ds => Done (DStruct (List.combine (map fst fs) ds)))
    | _ => invalid
    end
  | TValue => obind (value_of_content c) (fun x => Done (DValue x))
  end.

(** A Value read as a [t] by way of the buffer. *)
Definition de_buffered (owned : bool) (t : ty) (v : value) : mres data := obind (buffer v) (de_content owned t).

(** ** [#[serde(untagged)]] enums *)
Inductive shape := ShUnit | ShNewtype (t : ty) | ShTuple (ts : list ty) | ShStruct (fs : list (str * ty)).
Definition try_variant (n : str) (sh : shape) (c : content) : mres data :=
  match sh with
  | ShUnit => match c with CtUnit => Done (DUnitVariant n) | _ => invalid end
  | ShNewtype t => obind (de_content false t c) (fun d => Done (DNewtypeVariant n d))
  | ShTuple ts => match de_content false (TTuple ts) c with
                  | Done (DTuple ds) => Done (DTupleVariant n ds) | Done _ => invalid | Fail e => Fail e | Panic => Panic end
  | ShStruct fs =>                                (* untagged struct variants have no visit_seq *)
    match c with
    | CtMap _ => match de_content false (TStruct fs) c with
                 | Done (DStruct ds) => Done (DStructVariant n ds) | Done _ => invalid | Fail e => Fail e | Panic => Panic end
    | _ => invalid
    end
  end.
Fixpoint first_variant (name : str) (vs : list (str * shape)) (c : content) : mres data :=
  match vs with
  | [] => de_fail (lit "data did not match any variant of untagged enum " ++ name)
  | (n, sh) :: t => match try_variant n sh c with Fail _ => first_variant name t c | r => r end
  end.
Definition de_untagged (name : str) (vs : list (str * shape)) (v : value) : mres data :=
  obind (buffer v) (first_variant name vs).

(** ** [#[serde(tag = "...")]] enums (internally tagged) *)
Inductive tshape := TsUnit | TsNewtype (t : ty) | TsStruct (fs : list (str * ty)).
(** The tag's value: [deserialize_identifier], src/model/de.rs:249-254. *)
Definition read_tag (vs : list (str * tshape)) (x : value) : mres (str * tshape) :=
  obind (of_result (into_string x)) (fun n =>
  match find (fun p => str_eqb n (fst p)) vs with
  | Some p => Done p
  | None => de_fail (lit "unknown variant `" ++ n ++
              match vs with [] => lit "`, there are no variants" | _ => lit "`, expected " ++ one_of (map fst vs) end)
  end).
(** [TaggedContentVisitor::visit_map]. *)
Fixpoint tag_loop (tag : str) (vs : list (str * tshape)) (m : vmap) (found : option (str * tshape)) (rest : list (str * content))
  : mres ((str * tshape) * list (str * content)) :=
  match m with
  | [] => match found with Some p => Done (p, rest) | None => de_fail (lit "missing field `" ++ tag ++ lit "`") end
  | (k, x) :: t =>
    if str_eqb k tag then
      match found with
      | Some _ => de_fail (lit "duplicate field `" ++ tag ++ lit "`")
      | None => obind (read_tag vs x) (fun p => tag_loop tag vs t (Some p) rest)
      end
    else obind (buffer x) (fun c => tag_loop tag vs t found (rest ++ [(k, c)]))
  end.
Definition tagged_variant (n : str) (sh : tshape) (c : content) : mres data :=
  match sh with
  | TsUnit => match c with CtMap _ | CtSeq [] => Done (DUnitVariant n) | _ => invalid end
  | TsNewtype t => obind (de_content true t c) (fun d => Done (DNewtypeVariant n d))
  | TsStruct fs => match de_content true (TStruct fs) c with
                   | Done (DStruct ds) => Done (DStructVariant n ds) | Done _ => invalid | Fail e => Fail e | Panic => Panic end
  end.
Definition de_tagged (tag : str) (vs : list (str * tshape)) (v : value) : mres data :=
  match v with
  | VMap m => obind (tag_loop tag vs m None []) (fun r => tagged_variant (fst (fst r)) (snd (fst r)) (CtMap (snd r)))
  | VArr [] => de_fail (lit "missing field `" ++ tag ++ lit "`")
  | VArr (x :: l) =>
    obind (read_tag vs x) (fun p => obind (buffer_list buffer l) (fun cs => tagged_variant (fst p) (snd p) (CtSeq cs)))
  | _ => invalid
  end.

(** ** Structs with [#[serde(flatten)]] parts

    Own fields as usual; everything else is buffered and handed to the parts in
    turn: a struct part takes the entries it names, a map part (keyed by
    [String]) gets all entries not taken and leaves them there.  Simplification:
    own fields are listed before the parts; parts are plain structs or maps. *)
Inductive flat_part := FpStruct (fs : list (str * ty)) | FpMap (t : ty).
Fixpoint flat_loop (own : list field_slot) (m : vmap) (slots : list (str * data)) (others : list (str * content))
  : mres (list (str * data) * list (str * content)) :=
  match m with
  | [] => Done (slots, others)
  | (k, x) :: t =>
    match find_field k own with
    | Some f =>
      match mget k slots with
      | Some _ => de_fail (lit "duplicate field `" ++ k ++ lit "`")
      | None => obind (fs_de f x) (fun d => flat_loop own t (minsert k d slots) others)
      end
    | None => obind (buffer x) (fun c => flat_loop own t slots (others ++ [(k, c)]))
    end
  end.
Definition names_it (fs : list (str * ty)) (k : str) : bool := existsb (str_eqb k) (map fst fs).
Fixpoint flat_parts (parts : list (str * flat_part)) (others : list (str * content)) : mres (list (str * data)) :=
  match parts with
  | [] => Done []
  | (n, FpStruct fs) :: t =>
    obind (c_struct (map (fun p => {| cs_name := fst p; cs_optional := is_option (snd p); cs_de := de_content true (snd p) |}) fs)
             (filter (fun e => names_it fs (fst e)) others)) (fun ds =>
    obind (flat_parts t (filter (fun e => negb (names_it fs (fst e))) others)) (fun r => Done ((n, DStruct ds) :: r)))
  | (n, FpMap ty1) :: t =>
    obind (c_map (de_content false TString) (de_content false ty1) dinsert others) (fun ds =>
    obind (flat_parts t others) (fun r => Done ((n, DMap ds) :: r)))
  end.
Definition de_flat (own : list (str * ty)) (parts : list (str * flat_part)) (v : value) : mres data :=
  match v with
  | VMap m =>
    let slots := map (fun p => {| fs_name := fst p; fs_optional := is_option (snd p); fs_de := de (snd p) |}) own in
    obind (flat_loop slots m [] []) (fun r =>
    obind (collect_fields slots (fst r)) (fun ds =>
    obind (flat_parts parts (snd r)) (fun ps => Done (DStruct (ds ++ ps)))))
  | _ => de_kind_fail v (lit "Map")
  end.
