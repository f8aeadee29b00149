(** Serde integration: [Serialize for Value] and [ValueSerializer]
    (src/model/ser.rs), [Deserializer for Value] (src/model/de.rs) and
    [Deserialize for Value] (src/model/visitor.rs).

    serde itself (its impls for std types and the code its derive macros
    generate) is an external library: [data] is the serde data model seen by a
    [Serializer], [ty] a grammar of Rust types with standard or derived impls.
    What those impls call is written down here and is part of the trusted
    base (DESIGN.md). *)
From Coq Require Import ZArith List Bool String.
Import ListNotations.
From Verif.Model Require Import Text Num Flt Value Convert.
Open Scope Z_scope.

(** A Rust datum, by the [Serializer] method that its [Serialize] impl calls.
    [DValue v] is a datum of type [Value] itself. *)
Inductive data :=
| DBool (b : bool)
| DInt (t : ity) (z : Z)
| DF32 (f : f32)
| DF64 (f : f64)
| DChar (c : char)
| DStr (s : str)
| DBytes (l : list Z)
| DUnit
| DNone
| DSome (d : data)
| DSeq (l : list data)
| DTuple (l : list data)
| DMap (m : list (data * data))
| DStruct (fields : list (str * data))
| DNewtype (d : data)
| DTupleStruct (l : list data)
| DUnitStruct
| DUnitVariant (name : str)
| DNewtypeVariant (name : str) (d : data)
| DTupleVariant (name : str) (l : list data)
| DStructVariant (name : str) (fields : list (str * data))
| DValue (v : value).

Definition mres (A : Type) := outcome A model_error.

(** * Serialisation *)

(** ** [ValueSerializer] scalar methods, src/model/ser.rs:67-153. *)

(** [serialize_i8 .. serialize_u64], src/model/ser.rs:71-101.  [serialize_i128]
    and [serialize_u128] are not overridden: serde's default methods return
    [Error::custom("i128 is not supported")]. *)
Definition ser_int (t : ity) (z : Z) : mres value :=
  match t with
  | I128 => Fail (ESerialization (lit "i128 is not supported"))
  | U128 => Fail (ESerialization (lit "u128 is not supported"))
  | _ => Done (from_int t z)
  end.
(** src/model/ser.rs:67-69, 103-117. *)
Definition ser_bool (b : bool) : mres value := Done (from_bool b).
Definition ser_f32 (f : f32) : mres value := Done (from_f32 f).
Definition ser_f64 (f : f64) : mres value := Done (from_f64 f).
Definition ser_char (c : char) : mres value := Done (from_str [c]).
Definition ser_str (s : str) : mres value := Done (from_str s).
(** [serialize_none], [serialize_unit], [serialize_unit_struct],
    src/model/ser.rs:127-129, 138-144. *)
Definition ser_none : mres value := Done VNone.
Definition ser_unit : mres value := ser_none.

(** [serialize_bytes], src/model/ser.rs:119-125: a loop of [push(..).unwrap()]. *)
Fixpoint ser_bytes_loop (self : value) (l : list Z) : mres value :=
  match l with
  | [] => Done self
  | b :: t =>
    match v_push self (VUInt b) with
    | (self', r) => obind (unwrap r) (fun _ => ser_bytes_loop self' t)
    end
  end.
Definition ser_bytes (l : list Z) : mres value := ser_bytes_loop new_array l.

(** ** Compound serialisers *)

(** [ValueSerSeq::serialize_element] / [serialize_field] and
    [ValueSerTupleVariant::serialize_field] after the element has been
    serialised, src/model/ser.rs:248-255, 294-301. *)
Definition seq_push (self : value) (elem : value) : mres value :=
  match v_push self elem with
  | (self', r) => obind (of_result r) (fun _ => Done self')
  end.

(** Driving [serialize_element]/[serialize_field] over the elements, stopping
    at the first error; [ser1] is the element's own [Serialize] impl. *)
Definition ser_seq {A} (ser1 : A -> mres value) (self : value) (l : list A) : mres value :=
  (fix go (self : value) (l : list A) : mres value :=
     match l with
     | [] => Done self
     | x :: t => obind (ser1 x) (fun e => obind (seq_push self e) (fun self' => go self' t))
     end) self l.

(** [self.map.set(&key, value)?], src/model/ser.rs:347, 384, 409. *)
Definition map_set (self : value) (key : str) (x : value) : mres value :=
  match v_set self key x with
  | (self', r) => obind (of_result r) (fun _ => Done self')
  end.

(** State of a [ValueSerMap], src/model/ser.rs:310-322. *)
Record ser_map := { sm_map : value; sm_key : option str }.
Definition ser_map_new : ser_map := {| sm_map := new_map; sm_key := None |}.

(** [SerializeMap::serialize_key], src/model/ser.rs:329-336. *)
Definition sm_serialize_key (sm : ser_map) (key : mres value) : mres ser_map :=
  obind key (fun kv =>
  obind (of_result (into_string kv)) (fun k =>
  Done {| sm_map := sm_map sm; sm_key := Some k |})).

(** [SerializeMap::serialize_value], src/model/ser.rs:338-349.  The key is
    taken before the value is serialised; a missing key is a panic
    ([expect], :345). *)
Definition sm_serialize_value (sm : ser_map) (x : mres value) : mres ser_map :=
  match sm_key sm with
  | None => Panic
  | Some k =>
    obind x (fun xv =>
    obind (map_set (sm_map sm) k xv) (fun m' =>
    Done {| sm_map := m'; sm_key := None |}))
  end.

(** [serialize_entry] (serde default: key then value) over all entries, then
    [end], src/model/ser.rs:351-353. *)
Definition ser_map_entries {A} (serk serv : A -> mres value) (l : list A) : mres value :=
  (fix go (sm : ser_map) (l : list A) : mres value :=
     match l with
     | [] => Done (sm_map sm)
     | e :: t =>
       obind (sm_serialize_key sm (serk e)) (fun sm1 =>
       obind (sm_serialize_value sm1 (serv e)) (fun sm2 => go sm2 t))
     end) ser_map_new l.

(** [SerializeStruct::serialize_field] and
    [SerializeStructVariant::serialize_field] over all fields,
    src/model/ser.rs:375-386, 400-411. *)
Definition ser_fields {A} (ser1 : A -> mres value) (self : value) (l : list (str * A)) : mres value :=
  (fix go (self : value) (l : list (str * A)) : mres value :=
     match l with
     | [] => Done self
     | (k, x) :: t => obind (ser1 x) (fun e => obind (map_set self k e) (fun self' => go self' t))
     end) self l.

(** A one-entry map [{variant: content}], src/model/ser.rs:176-178, 303-307,
    388-392. *)
Definition variant_map (name : str) (content : value) : mres value :=
  map_set new_map name content.

(** ** [Serialize for Value] run on [ValueSerializer], src/model/ser.rs:5-35:
    [Value::serialize(v)] for a [Value] argument. *)
Fixpoint ser_value (v : value) : mres value :=
  match v with
  | VNone => ser_none
  | VBool b => ser_bool b
  | VInt z => ser_int I64 z
  | VLong z => ser_int I128 z
  | VUInt z => ser_int U64 z
  | VULong z => ser_int U128 z
  | VFloat f => ser_f64 f
  | VStr s => ser_str s
  | VArr l => ser_seq ser_value new_array l
  | VMap m => ser_map_entries (fun e => ser_str (fst e)) (fun e => ser_value (snd e)) m
  end.

(** ** [Value::serialize], src/model/ser.rs:37-44, on any datum. *)
Fixpoint ser (d : data) : mres value :=
  match d with
  | DBool b => ser_bool b
  | DInt t z => ser_int t z
  | DF32 f => ser_f32 f
  | DF64 f => ser_f64 f
  | DChar c => ser_char c
  | DStr s => ser_str s
  | DBytes l => ser_bytes l
  | DUnit => ser_unit
  | DNone => ser_none
  | DSome x => ser x                                       (* ser.rs:131-136 *)
  | DSeq l => ser_seq ser new_array l                      (* ser.rs:181-183 *)
  | DTuple l => ser_seq ser new_array l                    (* ser.rs:185-187 *)
  | DMap m => ser_map_entries (fun e => ser (fst e)) (fun e => ser (snd e)) m (* ser.rs:207-209 *)
  | DStruct fs => ser_fields ser new_map fs                (* ser.rs:211-217 *)
  | DNewtype x => ser x                                    (* ser.rs:155-164 *)
  | DTupleStruct l => ser_seq ser new_array l              (* ser.rs:189-195 *)
  | DUnitStruct => ser_none                                (* ser.rs:142-144 *)
  | DUnitVariant n => ser_str n                            (* ser.rs:146-153 *)
  | DNewtypeVariant n x => obind (ser x) (variant_map n)   (* ser.rs:166-179 *)
  | DTupleVariant n l => obind (ser_seq ser new_array l) (variant_map n) (* ser.rs:197-205 *)
  | DStructVariant n fs => obind (ser_fields ser new_map fs) (variant_map n) (* ser.rs:219-227 *)
  | DValue v => ser_value v
  end.

(** * Deserialisation *)

(** Rust types, by their [Deserialize] impl. *)
Inductive ty :=
| TBool
| TInt (t : ity)
| TF32
| TF64
| TChar
| TString
| TBytes                                       (* e.g. serde_bytes::ByteBuf *)
| TUnit
| TOption (t : ty)
| TSeq (t : ty)                                (* Vec, VecDeque, ... *)
| TTuple (ts : list ty)
| TMap (k v : ty)                              (* HashMap, BTreeMap *)
| TStruct (fields : list (str * ty))           (* derived, no attributes *)
| TNewtype (t : ty)
| TTupleStruct (name : str) (ts : list ty)
| TUnitStruct
| TEnum                                        (* any derived enum *)
| TValue.

(** [Error::custom] for deserialisation, src/model/errors.rs:21-25. *)
Definition de_fail {A} (msg : str) : mres A := Fail (EDeserialization msg).

(** [ModelError::deserialization], src/model/errors.rs:38-40. *)
Definition de_kind_fail {A} (v : value) (to : str) : mres A :=
  de_fail (lit "Can't deserialize " ++ v_display v ++ lit " to " ++ to).

(** [deserialize_i8 .. deserialize_u64], src/model/de.rs:37-91;
    [deserialize_i128/u128] are serde's defaults (always an error). *)
Definition de_int (t : ity) (v : value) : mres data :=
  match t with
  | I128 => de_fail (lit "i128 is not supported")
  | U128 => de_fail (lit "u128 is not supported")
  | _ => obind (of_result (into_int t v)) (fun z => Done (DInt t z))
  end.

(** [next_element] until [None], src/model/de.rs:279-287, as driven by
    [Vec]'s visitor. *)
Definition de_seq {A} (de1 : value -> mres A) (l : list value) : mres (list A) :=
  (fix go (l : list value) : mres (list A) :=
     match l with
     | [] => Done []
     | x :: t => obind (de1 x) (fun d => obind (go t) (fun ds => Done (d :: ds)))
     end) l.

(** [next_element] exactly once per component, as driven by the visitor of a
    tuple or derived tuple struct: too few elements is serde's
    [invalid_length(i, ..)], surplus elements are never looked at. *)
Fixpoint de_tuple (expecting : str) (i : nat) (fs : list (value -> mres data)) (l : list value)
  : mres (list data) :=
  match fs, l with
  | [], _ => Done []
  | f :: fs', [] =>
    de_fail (lit "invalid length " ++ print_int (Z.of_nat i) ++ lit ", expected " ++ expecting)
  | f :: fs', x :: l' =>
    obind (f x) (fun d => obind (de_tuple expecting (S i) fs' l') (fun ds => Done (d :: ds)))
  end.

(** serde's text for a tuple / a derived tuple struct. *)
Definition expecting_tuple (n : nat) : str :=
  lit "a tuple of size " ++ print_int (Z.of_nat n).
Definition expecting_tuple_struct (name : str) (n : nat) : str :=
  lit "tuple struct " ++ name ++ lit " with " ++ print_int (Z.of_nat n) ++
  lit (if Nat.eqb n 1 then " element" else " elements")%string.

(** [Eq] on map keys (the only data that ever come out of a string). *)
Fixpoint key_eqb (a b : data) : bool :=
  match a, b with
  | DBool x, DBool y => Bool.eqb x y
  | DInt _ x, DInt _ y => x =? y
  | DChar x, DChar y => x =? y
  | DStr x, DStr y => str_eqb x y
  | DSome x, DSome y => key_eqb x y
  | DNewtype x, DNewtype y => key_eqb x y
  | _, _ => false
  end.

(** [HashMap::insert] keyed by [key_eqb]. *)
Fixpoint dinsert (k v : data) (m : list (data * data)) : list (data * data) :=
  match m with
  | [] => [(k, v)]
  | (k', v') :: t => if key_eqb k k' then (k', v) :: t else (k', v') :: dinsert k v t
  end.

(** The key handed to a visitor: [next_key_seed] peeks at the front entry and
    gives [Value::String(key)], src/model/de.rs:312-322; [next_value_seed]
    pops that entry, src/model/de.rs:324-330.  All visitors modelled here call
    them in this order, so the entries are visited front to back. *)
Definition de_map {A B} (dek : value -> mres A) (dev : value -> mres B)
  (ins : A -> B -> list (A * B) -> list (A * B)) (m : vmap) : mres (list (A * B)) :=
  (fix go (m : vmap) (acc : list (A * B)) : mres (list (A * B)) :=
     match m with
     | [] => Done acc
     | (k, x) :: t =>
       obind (dek (VStr k)) (fun kd =>
       obind (dev x) (fun d => go t (ins kd d acc)))
     end) m [].

(** [IgnoredAny::deserialize]: [deserialize_ignored_any] is
    [deserialize_any], src/model/de.rs:256-261, 12-28; serde's visitor accepts
    everything and walks sequences and maps. *)
Fixpoint ignored_any (v : value) : mres unit :=
  match v with
  | VArr l => obind (de_seq ignored_any l) (fun _ => Done tt)
  | VMap m => obind (de_map (fun _ => Done tt) ignored_any (fun _ _ _ => []) m) (fun _ => Done tt)
  | _ => Done tt
  end.

(** The loop of a derived struct's [visit_map] over the entries, with one slot
    per field.  [field_de] is the field type's [deserialize]. *)
Record field_slot := { fs_name : str; fs_optional : bool; fs_de : value -> mres data }.

Fixpoint find_field (k : str) (fs : list field_slot) : option field_slot :=
  match fs with
  | [] => None
  | f :: t => if str_eqb k (fs_name f) then Some f else find_field k t
  end.

Definition de_struct_loop (fs : list field_slot) (m : vmap) : mres (list (str * data)) :=
  (fix go (m : vmap) (slots : list (str * data)) : mres (list (str * data)) :=
     match m with
     | [] => Done slots
     | (k, x) :: t =>
       (* the field identifier: deserialize_identifier = deserialize_str,
          de.rs:249-254, 115-121 *)
       obind (of_result (into_string (VStr k))) (fun k =>
       match find_field k fs with
       | Some f =>
         match mget k slots with
         | Some _ => de_fail (lit "duplicate field `" ++ k ++ lit "`")
         | None => obind (fs_de f x) (fun d => go t (minsert k d slots))
         end
       | None => obind (ignored_any x) (fun _ => go t slots)
       end)
     end) m [].

(** After the loop: a missing field is [None] for an [Option] type (serde's
    [missing_field]) and an error otherwise. *)
Fixpoint collect_fields (fs : list field_slot) (slots : list (str * data)) : mres (list (str * data)) :=
  match fs with
  | [] => Done []
  | f :: t =>
    obind (match mget (fs_name f) slots with
           | Some d => Done d
           | None => if fs_optional f then Done DNone
                     else de_fail (lit "missing field `" ++ fs_name f ++ lit "`")
           end) (fun d =>
    obind (collect_fields t slots) (fun ds => Done ((fs_name f, d) :: ds)))
  end.

Definition de_struct (fs : list field_slot) (m : vmap) : mres data :=
  obind (de_struct_loop fs m) (fun slots =>
  obind (collect_fields fs slots) (fun ds => Done (DStruct ds))).

Definition is_option (t : ty) : bool := match t with TOption _ => true | _ => false end.

(** [Value::deserialize::<Value>]: [deserialize_any] with [ValueVisitor],
    src/model/de.rs:12-28, src/model/visitor.rs:7-161; map keys are
    deserialised as [String] (visitor.rs:147). *)
Fixpoint de_value (v : value) : mres value :=
  match v with
  | VNone => Done VNone                      (* visit_unit, visitor.rs:118-122 *)
  | VBool b => Done (VBool b)
  | VInt z => Done (VInt z)
  | VLong z => Done (VLong z)
  | VUInt z => Done (VUInt z)
  | VULong z => Done (VULong z)
  | VFloat f => Done (VFloat f)
  | VStr s => Done (VStr s)
  | VArr l => obind (de_seq de_value l) (fun l' => Done (VArr l'))
  | VMap m =>
    obind (de_map (fun k => of_result (into_string k)) de_value minsert m)
      (fun m' => Done (VMap m'))
  end.

(** [Value::deserialize::<T>], src/model/de.rs:333-340 with :9-262. *)
Fixpoint de (t : ty) (v : value) {struct t} : mres data :=
  match t with
  | TBool => obind (of_result (into_bool v)) (fun b => Done (DBool b))      (* de.rs:30-35 *)
  | TInt i => de_int i v
  | TF32 => obind (of_result (into_f64 v)) (fun f => Done (DF32 (f64_to_f32 f))) (* de.rs:93-99 *)
  | TF64 => obind (of_result (into_f64 v)) (fun f => Done (DF64 f))         (* de.rs:101-106 *)
  | TChar => obind (of_result (into_char v)) (fun c => Done (DChar c))      (* de.rs:108-113 *)
  | TString => obind (of_result (into_string v)) (fun s => Done (DStr s))   (* de.rs:123-128 *)
  | TBytes => Panic                                                        (* de.rs:130-142 *)
  | TUnit =>
    match v with VNone => Done DUnit | _ => de_kind_fail v (lit "None") end (* de.rs:154-162 *)
  | TOption t1 =>
    match v with
    | VNone => Done DNone
    | _ => obind (de t1 v) (fun d => Done (DSome d))
    end                                                                    (* de.rs:144-152 *)
  | TSeq t1 =>
    match v with
    | VArr l => obind (de_seq (de t1) l) (fun ds => Done (DSeq ds))
    | _ => de_kind_fail v (lit "Array")
    end                                                                    (* de.rs:186-194 *)
  | TTuple ts =>
    match v with
    | VArr l =>
      obind (de_tuple (expecting_tuple (List.length ts)) 0 (map (fun t => de t) ts) l)
        (fun ds => Done (DTuple ds))
    | _ => de_kind_fail v (lit "Array")
    end                                                                    (* de.rs:196-201 *)
  | TMap tk tv =>
    match v with
    | VMap m => obind (de_map (de tk) (de tv) dinsert m) (fun ds => Done (DMap ds))
    | _ => de_kind_fail v (lit "Map")
    end                                                                    (* de.rs:215-223 *)
  | TStruct fs =>
    match v with
    | VMap m =>
      de_struct (map (fun p => {| fs_name := fst p; fs_optional := is_option (snd p);
                                  fs_de := de (snd p) |}) fs) m
    | _ => de_kind_fail v (lit "Map")
    end                                                                    (* de.rs:225-235 *)
  | TNewtype t1 => obind (de t1 v) (fun d => Done (DNewtype d))             (* de.rs:175-184 *)
  | TTupleStruct name ts =>
    match v with
    | VArr l =>
      obind (de_tuple (expecting_tuple_struct name (List.length ts)) 0 (map (fun t => de t) ts) l)
        (fun ds => Done (DTupleStruct ds))
    | _ => de_kind_fail v (lit "Array")
    end                                                                    (* de.rs:203-213 *)
  | TUnitStruct =>
    match v with VNone => Done DUnitStruct | _ => de_kind_fail v (lit "None") end (* de.rs:164-173 *)
  | TEnum => Panic                                                         (* de.rs:237-247 *)
  | TValue => obind (de_value v) (fun x => Done (DValue x))
  end.

(** * The raw access protocol, for hand-written visitors *)

(** [ValueMap] as [MapAccess], src/model/de.rs:297-331: the calls a visitor can
    make and what each returns.  [next_value] on an exhausted map is
    [pop_front().unwrap()], a panic. *)
Inductive map_call := NextKey | NextValue.
Inductive map_reply := RKey (k : option value) | RValue (v : value).

Definition map_access_step (m : vmap) (c : map_call) : mres (map_reply * vmap) :=
  match c with
  | NextKey => Done (RKey (match m with [] => None | (k, _) :: _ => Some (VStr k) end), m)
  | NextValue => match m with [] => Panic | (_, v) :: t => Done (RValue v, t) end
  end.

Fixpoint map_access_run (m : vmap) (cs : list map_call) : mres (list map_reply * vmap) :=
  match cs with
  | [] => Done ([], m)
  | c :: t =>
    obind (map_access_step m c) (fun rm =>
    obind (map_access_run (snd rm) t) (fun rsm =>
    Done (fst rm :: fst rsm, snd rsm)))
  end.
