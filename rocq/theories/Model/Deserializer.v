(** [Deserializer for Value], function by function: what each [deserialize_*]
    method hands to the visitor it is given, src/model/de.rs:9-262, and the
    sequences and maps a visitor may draw from, src/model/de.rs:264-331.
    [de] (Model/Serde.v) is what serde's own visitors make of these calls. *)
From Coq Require Import ZArith List Bool String.
Import ListNotations.
From Verif.Model Require Import Text Num Flt Value Convert Serde.
Local Open Scope Z_scope.

(** The methods of [Deserializer].  The names, lengths and field lists some of
    them take are ignored by the code (de.rs:164, 175, 196, 203, 225, 237). *)
Inductive hint :=
| HAny | HBool | HInt (t : ity) | HF32 | HF64 | HChar | HStr | HString | HBytes | HByteBuf
| HOption | HUnit | HUnitStruct | HNewtypeStruct | HSeq | HTuple | HTupleStruct | HMap | HStruct
| HEnum | HIdentifier | HIgnoredAny.

(** The visitor method called, with its argument: [visit_some] and
    [visit_newtype_struct] get the Value itself as a deserializer, [visit_seq]
    the elements to come, [visit_map] the entries to come. *)
Inductive visit_call :=
| CBool (b : bool) | CInt (t : ity) (z : Z) | CF32 (f : f32) | CF64 (f : f64) | CChar (c : char)
| CStr (s : str) | CString (s : str) | CUnit | CNone | CSome (v : value) | CNewtype (v : value)
| CSeq (l : list value) | CMap (m : vmap).

(** [self.try_into()?] then a visitor method. *)
Definition converted {A} (r : result A model_error) (call : A -> visit_call) : mres visit_call :=
  match r with Ok a => Done (call a) | Err e => Fail e end.

(** src/model/de.rs:12-28. *)
Definition deserialize_any (v : value) : visit_call :=
  match v with
  | VNone => CUnit
  | VBool b => CBool b
  | VInt z => CInt I64 z
  | VLong z => CInt I128 z
  | VUInt z => CInt U64 z
  | VULong z => CInt U128 z
  | VFloat f => CF64 f
  | VStr s => CStr s
  | VArr l => CSeq l
  | VMap m => CMap m
  end.
(** src/model/de.rs:154-162. *)
Definition deserialize_unit (v : value) : mres visit_call :=
  match v with VNone => Done CUnit | _ => de_kind_fail v (lit "None") end.
(** src/model/de.rs:186-194. *)
Definition deserialize_seq (v : value) : mres visit_call :=
  match v with VArr l => Done (CSeq l) | _ => de_kind_fail v (lit "Array") end.
(** src/model/de.rs:215-223. *)
Definition deserialize_map (v : value) : mres visit_call :=
  match v with VMap m => Done (CMap m) | _ => de_kind_fail v (lit "Map") end.
(** src/model/de.rs:115-121. *)
Definition deserialize_str (v : value) : mres visit_call := converted (into_string v) CStr.

(** All methods; [deserialize_i128] and [deserialize_u128] are serde's defaults. *)
Definition deserialize (h : hint) (v : value) : mres visit_call :=
  match h with
  | HAny => Done (deserialize_any v)
  | HBool => converted (into_bool v) CBool                                   (* de.rs:30-35 *)
  | HInt I128 => de_fail (lit "i128 is not supported")
  | HInt U128 => de_fail (lit "u128 is not supported")
  | HInt t => converted (into_int t v) (CInt t)                              (* de.rs:37-91 *)
  | HF32 => converted (into_f64 v) (fun f => CF32 (f64_to_f32 f))            (* de.rs:93-99 *)
  | HF64 => converted (into_f64 v) CF64                                      (* de.rs:101-106 *)
  | HChar => converted (into_char v) CChar                                   (* de.rs:108-113 *)
  | HStr => deserialize_str v
  | HString => converted (into_string v) CString                             (* de.rs:123-128 *)
  | HBytes | HByteBuf => Panic                                               (* de.rs:130-142 *)
  | HOption => Done (match v with VNone => CNone | _ => CSome v end)         (* de.rs:144-152 *)
  | HUnit => deserialize_unit v
  | HUnitStruct => deserialize_unit v                                        (* de.rs:164-173 *)
  | HNewtypeStruct => Done (CNewtype v)                                      (* de.rs:175-184 *)
  | HSeq => deserialize_seq v
  | HTuple => deserialize_seq v                                              (* de.rs:196-201 *)
  | HTupleStruct => deserialize_seq v                                        (* de.rs:203-213 *)
  | HMap => deserialize_map v
  | HStruct => deserialize_map v                                             (* de.rs:225-235 *)
  | HEnum => Panic                                                           (* de.rs:237-247 *)
  | HIdentifier => deserialize_str v                                         (* de.rs:249-254 *)
  | HIgnoredAny => Done (deserialize_any v)                                  (* de.rs:256-261 *)
  end.

(** ** [ValueSeq] as [SeqAccess], src/model/de.rs:264-295 *)
Inductive seq_call := NextElement | SizeHint.
Inductive seq_reply := RElement (v : option value) | RSize (n : option nat).
Definition seq_access_step (l : list value) (c : seq_call) : seq_reply * list value :=
  match c with
  | NextElement => match l with [] => (RElement None, []) | x :: t => (RElement (Some x), t) end   (* :279-287 *)
  | SizeHint => (RSize (Some (List.length l)), l)                                                (* :289-294: the iterator is exact *)
  end.
Fixpoint seq_access_run (l : list value) (cs : list seq_call) : list seq_reply * list value :=
  match cs with
  | [] => ([], l)
  | c :: t =>
    let '(r, l') := seq_access_step l c in
    let '(rs, l'') := seq_access_run l' t in (r :: rs, l'')
  end.

(** ** serde's visitors for the types of [ty]

    What they do with a call they expect; [unexpected] stands for serde's
    "invalid type" errors, whose wording does not matter: no call of
    [deserialize] leads there (theorem C95_serde_visitors_get_what_they_expect). *)
Definition unexpected {A} : mres A := de_fail (lit "invalid type").
Definition hint_of (t : ty) : hint :=
  match t with
  | TBool => HBool | TInt i => HInt i | TF32 => HF32 | TF64 => HF64 | TChar => HChar | TString => HString
  | TBytes => HByteBuf | TUnit => HUnit | TOption _ => HOption | TSeq _ => HSeq | TTuple _ => HTuple
  | TMap _ _ => HMap | TStruct _ => HStruct | TNewtype _ => HNewtypeStruct | TTupleStruct _ _ => HTupleStruct
  | TUnitStruct => HUnitStruct | TEnum => HEnum | TValue => HAny
  end.

(** [Vec]'s visitor: [while let Some(x) = seq.next_element()?]; the fuel is
    the number of elements plus one. *)
Fixpoint drain_seq {A} (fuel : nat) (de1 : value -> mres A) (l : list value) : mres (list A) :=
  match fuel with
  | O => Panic
  | S fuel =>
    match seq_access_step l NextElement with
    | (RElement (Some x), l') => obind (de1 x) (fun d => obind (drain_seq fuel de1 l') (fun ds => Done (d :: ds)))
    | _ => Done []
    end
  end.
(** A tuple's visitor: one [next_element] per component. *)
Fixpoint take_seq (expecting : str) (i : nat) (fs : list (value -> mres data)) (l : list value) : mres (list data) :=
  match fs with
  | [] => Done []
  | f :: fs' =>
    match seq_access_step l NextElement with
    | (RElement (Some x), l') => obind (f x) (fun d => obind (take_seq expecting (S i) fs' l') (fun ds => Done (d :: ds)))
    | _ => de_fail (lit "invalid length " ++ print_int (Z.of_nat i) ++ lit ", expected " ++ expecting)
    end
  end.
(** A map's visitor: [while let Some((k, v)) = map.next_entry()?], which is
    [next_key] followed by [next_value]. *)
Fixpoint drain_map {A B S} (fuel : nat) (dek : value -> mres A) (dev : A -> S -> value -> mres B) (ins : A -> B -> S -> S)
    (m : vmap) (acc : S) : mres S :=
  match fuel with
  | O => Panic
  | Datatypes.S fuel =>
    obind (map_access_step m NextKey) (fun r =>
    match fst r with
    | RKey (Some k) =>
      obind (dek k) (fun kd =>
      obind (map_access_step (snd r) NextValue) (fun r' =>
      match fst r' with
      | RValue x => obind (dev kd acc x) (fun d => drain_map fuel dek dev ins (snd r') (ins kd d acc))
      | _ => Panic
      end))
    | _ => Done acc
    end)
  end.

(** serde's integer visitors take their own type as it is and others if they
    are in range. *)
Definition ity_eq_dec (a b : ity) : {a = b} + {a <> b}.
Proof. decide equality. Defined.

(** A [String] from a call ([StringVisitor]), a field name from a call. *)
Definition string_of_call (c : visit_call) : mres str :=
  match c with CStr s | CString s => Done s | _ => unexpected end.

(** [IgnoredAny]'s visitor draws everything; the fuel is the depth. *)
Fixpoint ignore_call (fuel : nat) (c : visit_call) : mres unit :=
  match fuel with
  | O => Panic
  | S fuel =>
    match c with
    | CSeq l => obind (drain_seq (S (List.length l)) (fun x => obind (deserialize HIgnoredAny x) (ignore_call fuel)) l) (fun _ => Done tt)
    | CMap m => drain_map (S (List.length m)) (fun k => obind (deserialize HIgnoredAny k) (ignore_call fuel))
                  (fun _ _ x => obind (deserialize HIgnoredAny x) (ignore_call fuel)) (fun _ _ u => u) m tt
    | CSome x | CNewtype x => obind (deserialize HIgnoredAny x) (ignore_call fuel)
    | _ => Done tt
    end
  end.
(** Nesting depth of a Value. *)
Fixpoint depth (v : value) : nat :=
  match v with
  | VArr l => S (fold_right (fun x n => Nat.max (depth x) n) O l)
  | VMap m => S (fold_right (fun e n => Nat.max (depth (snd e)) n) O m)
  | _ => 1%nat
  end.

(** [ValueVisitor] on a call, src/model/visitor.rs:9-154. *)
Fixpoint value_of_call (fuel : nat) (c : visit_call) : mres value :=
  match fuel with
  | O => Panic
  | S fuel =>
    match c with
    | CBool b => Done (VBool b)
    | CInt (I8 | I16 | I32 | I64) z => Done (VInt z)
    | CInt I128 z => Done (VLong z)
    | CInt (U8 | U16 | U32 | U64) z => Done (VUInt z)
    | CInt U128 z => Done (VULong z)
    | CF32 f => Done (VFloat (f32_to_f64 f))
    | CF64 f => Done (VFloat f)
    | CChar c => Done (VStr [c])
    | CStr s | CString s => Done (VStr s)
    | CUnit | CNone => Done VNone
    | CSome x => obind (deserialize HAny x) (value_of_call fuel)
    | CNewtype _ => unexpected
    | CSeq l => obind (drain_seq (S (List.length l)) (fun x => obind (deserialize HAny x) (value_of_call fuel)) l) (fun l' => Done (VArr l'))
    | CMap m => obind (drain_map (S (List.length m)) (fun k => obind (deserialize HString k) string_of_call)
                  (fun _ _ x => obind (deserialize HAny x) (value_of_call fuel)) minsert m []) (fun m' => Done (VMap m'))
    end
  end.

(** A derived struct's [visit_map]: a slot per field, filled as the entries
    come ([acc]: the filled slots). *)
Definition struct_entry (fs : list field_slot) (k : str) (slots : list (str * data)) (x : value) : mres (option data) :=
  match find_field k fs with
  | Some f =>
    match mget k slots with
    | Some _ => de_fail (lit "duplicate field `" ++ k ++ lit "`")
    | None => obind (fs_de f x) (fun d => Done (Some d))
    end
  | None => obind (obind (deserialize HIgnoredAny x) (ignore_call (S (depth x)))) (fun _ => Done None)
  end.
Definition fill_slot (k : str) (d : option data) (slots : list (str * data)) : list (str * data) :=
  match d with Some d => minsert k d slots | None => slots end.

(** [T::deserialize]: call the hint of the type, let its visitor answer. *)
Fixpoint de_calls (t : ty) (v : value) {struct t} : mres data :=
  obind (deserialize (hint_of t) v) (fun c =>
  match t with
  | TBool => match c with CBool b => Done (DBool b) | _ => unexpected end
  | TInt i => match c with CInt j z => if ity_eq_dec i j then Done (DInt i z) else if in_range i z then Done (DInt i z) else unexpected | _ => unexpected end
  | TF32 => match c with CF32 f => Done (DF32 f) | _ => unexpected end
  | TF64 => match c with CF64 f => Done (DF64 f) | _ => unexpected end
  | TChar => match c with CChar x => Done (DChar x) | _ => unexpected end
  | TString => obind (string_of_call c) (fun s => Done (DStr s))
  | TBytes | TEnum => unexpected
  | TUnit => match c with CUnit => Done DUnit | _ => unexpected end
  | TUnitStruct => match c with CUnit => Done DUnitStruct | _ => unexpected end
  | TOption t1 =>
    match c with CNone | CUnit => Done DNone | CSome x => obind (de_calls t1 x) (fun d => Done (DSome d)) | _ => unexpected end
  | TNewtype t1 => match c with CNewtype x => obind (de_calls t1 x) (fun d => Done (DNewtype d)) | _ => unexpected end
  | TSeq t1 => match c with CSeq l => obind (drain_seq (S (List.length l)) (de_calls t1) l) (fun ds => Done (DSeq ds)) | _ => unexpected end
  | TTuple ts =>
    match c with
    | CSeq l => obind (take_seq (expecting_tuple (List.length ts)) 0 (map (fun t => de_calls t) ts) l) (fun ds => Done (DTuple ds))
    | _ => unexpected
    end
  | TTupleStruct name ts =>
    match c with
    | CSeq l => obind (take_seq (expecting_tuple_struct name (List.length ts)) 0 (map (fun t => de_calls t) ts) l)
                  (fun ds => Done (DTupleStruct ds))
    | _ => unexpected
    end
  | TMap tk tv =>
    match c with
    | CMap m => obind (drain_map (S (List.length m)) (de_calls tk) (fun _ _ x => de_calls tv x) dinsert m []) (fun ds => Done (DMap ds))
    | _ => unexpected
    end
  | TStruct fs =>
    match c with
    | CMap m =>
      let slots := map (fun p => {| fs_name := fst p; fs_optional := is_option (snd p); fs_de := de_calls (snd p) |}) fs in
      obind (drain_map (S (List.length m)) (fun k => obind (deserialize HIdentifier k) string_of_call)
               (struct_entry slots) fill_slot m []) (fun filled =>
      obind (collect_fields slots filled) (fun ds => Done (DStruct ds)))
    | _ => unexpected
    end
  | TValue => obind (value_of_call (S (depth v)) c) (fun x => Done (DValue x))
  end).
