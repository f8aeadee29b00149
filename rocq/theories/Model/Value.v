(** The [Value] type and its container API:
    src/model/value.rs, src/model/errors.rs, src/model/new.rs, src/model/iter.rs. *)
From Coq Require Import ZArith List Bool String.
Import ListNotations.
From Verif.Model Require Import Text Num Flt.
Open Scope Z_scope.

(** [Value], src/model/value.rs:6-18.
    A [HashMap<String, Value>] is represented by the list of its entries in
    its current iteration order (keys are unique, see [wf]).  Hash maps that
    differ only in that order are the same map: see [Spec.vequiv]; every
    theorem that could depend on the order quantifies over it.
    Integers are unbounded [Z] constrained by [wf] to the variant's range. *)
Inductive value :=
| VNone
| VBool (b : bool)
| VInt (z : Z)
| VLong (z : Z)
| VUInt (z : Z)
| VULong (z : Z)
| VFloat (f : f64)
| VStr (s : str)
| VArr (l : list value)
| VMap (m : list (str * value)).

Definition vmap := list (str * value).

(** Errors of the model module, src/model/errors.rs:3-19.  The payload of
    [ConversionError] is kept; strings are exactly those of the source. *)
Inductive model_error :=
| EMapOnly                                   (* OperationOnlyForMapValue *)
| EArrayOnly                                 (* OperationOnlyForArrayValue *)
| ESerialization (msg : str)                 (* SerializationError *)
| EDeserialization (msg : str)               (* DeserializationError *)
| EConversion (from to why : str).           (* ConversionError *)

(** [Result<T, E>]. *)
Inductive result (A E : Type) :=
| Ok (a : A)
| Err (e : E).
Arguments Ok {A E} a.
Arguments Err {A E} e.

(** A computation that may also panic ([unwrap], [unimplemented!], overflow). *)
Inductive outcome (A E : Type) :=
| Done (a : A)
| Fail (e : E)
| Panic.
Arguments Done {A E} a.
Arguments Fail {A E} e.
Arguments Panic {A E}.

Definition obind {A B E} (x : outcome A E) (f : A -> outcome B E) : outcome B E :=
  match x with Done a => f a | Fail e => Fail e | Panic => Panic end.
Definition of_result {A E} (x : result A E) : outcome A E :=
  match x with Ok a => Done a | Err e => Fail e end.
(** [.unwrap()]. *)
Definition unwrap {A E} (x : result A E) : outcome A E :=
  match x with Ok a => Done a | Err _ => Panic end.

(** ** HashMap primitives (std) *)

(** [HashMap::get]. *)
Fixpoint mget {V} (k : str) (m : list (str * V)) : option V :=
  match m with
  | [] => None
  | (k', v) :: t => if str_eqb k k' then Some v else mget k t
  end.

(** [HashMap::insert]: replaces the value of a present key, adds an absent
    one.  Where the new entry appears in the iteration order is arbitrary in
    Rust; the model puts it last and the theorems are insensitive to it. *)
Fixpoint minsert {V} (k : str) (v : V) (m : list (str * V)) : list (str * V) :=
  match m with
  | [] => [(k, v)]
  | (k', v') :: t => if str_eqb k k' then (k', v) :: t else (k', v') :: minsert k v t
  end.

Definition mkeys {V} (m : list (str * V)) : list str := map fst m.

(** [HashMap::contains_key]. *)
Definition mhas {V} (k : str) (m : list (str * V)) : bool :=
  match mget k m with Some _ => true | None => false end.

(** ** Container API, src/model/value.rs:55-120 *)

(** [Value::default] / [Value::new], src/model/from.rs:5-9, src/model/new.rs:6-8. *)
Definition v_default : value := VNone.
(** [Value::new_map], src/model/new.rs:10-12. *)
Definition new_map : value := VMap [].
(** [Value::new_array] and [Value::with_array_capacity], src/model/new.rs:14-20
    (capacity is not observable). *)
Definition new_array : value := VArr [].

(** [Value::get], src/model/value.rs:56-64. *)
Definition v_get (v : value) (key : str) : value :=
  match v with
  | VMap m => match mget key m with Some x => x | None => VNone end
  | _ => VNone
  end.

(** [Value::set], src/model/value.rs:66-74: the new receiver and the result. *)
Definition v_set (self : value) (key : str) (x : value) : value * result unit model_error :=
  match self with
  | VMap m => (VMap (minsert key x m), Ok tt)
  | _ => (self, Err EMapOnly)
  end.

(** [Value::at], src/model/value.rs:76-84. *)
Definition v_at (v : value) (i : nat) : value :=
  match v with
  | VArr l => match nth_error l i with Some x => x | None => VNone end
  | _ => VNone
  end.

(** [Value::push], src/model/value.rs:86-94. *)
Definition v_push (self : value) (x : value) : value * result unit model_error :=
  match self with
  | VArr l => (VArr (l ++ [x]), Ok tt)
  | _ => (self, Err EArrayOnly)
  end.

(** [Value::len], src/model/value.rs:96-103. *)
Definition v_len (v : value) : nat :=
  match v with
  | VArr l => List.length l
  | VMap m => List.length m
  | VStr s => byte_len s
  | _ => 0%nat
  end.

(** [is_map], [is_array], [is_none], src/model/value.rs:105-115. *)
Definition is_map (v : value) : bool := match v with VMap _ => true | _ => false end.
Definition is_array (v : value) : bool := match v with VArr _ => true | _ => false end.
Definition is_none (v : value) : bool := match v with VNone => true | _ => false end.

(** [ValueIter], src/model/iter.rs:3-12.  The index is unbounded here (a
    usize in Rust: overflow would need 2^64 calls). *)
Record value_iter := { it_value : value; it_index : nat }.
Definition v_iter (v : value) : value_iter := {| it_value := v; it_index := 0 |}.

(** [ValueIter::next], src/model/iter.rs:17-26. *)
Definition iter_next (it : value_iter) : option value * value_iter :=
  match it_value it with
  | VArr l => (nth_error l (it_index it),
               {| it_value := it_value it; it_index := S (it_index it) |})
  | _ => (None, it)
  end.

(** [value_map!], src/model/new.rs:24-34: a sequence of [set(..).unwrap()]. *)
Fixpoint value_map_loop (self : value) (kvs : list (str * value)) : outcome value model_error :=
  match kvs with
  | [] => Done self
  | (k, v) :: t =>
    match v_set self k v with
    | (self', r) => obind (unwrap r) (fun _ => value_map_loop self' t)
    end
  end.
Definition value_map_macro (kvs : list (str * value)) : outcome value model_error :=
  value_map_loop new_map kvs.

(** [value_vec!], src/model/new.rs:37-47: a sequence of [push(..).unwrap()]. *)
Fixpoint value_vec_loop (self : value) (vs : list value) : outcome value model_error :=
  match vs with
  | [] => Done self
  | v :: t =>
    match v_push self v with
    | (self', r) => obind (unwrap r) (fun _ => value_vec_loop self' t)
    end
  end.
Definition value_vec_macro (vs : list value) : outcome value model_error :=
  value_vec_loop new_array vs.

(** ** Derived [PartialEq], src/model/value.rs:6: IEEE equality on floats,
    [HashMap == HashMap] = same length and every entry of the left found equal
    on the right. *)
Fixpoint v_eqb (a b : value) {struct a} : bool :=
  match a, b with
  | VNone, VNone => true
  | VBool x, VBool y => Bool.eqb x y
  | VInt x, VInt y => x =? y
  | VLong x, VLong y => x =? y
  | VUInt x, VUInt y => x =? y
  | VULong x, VULong y => x =? y
  | VFloat x, VFloat y => f64_eqb x y
  | VStr x, VStr y => str_eqb x y
  | VArr l, VArr r =>
    (fix go (l r : list value) : bool :=
       match l, r with
       | [], [] => true
       | x :: l', y :: r' => v_eqb x y && go l' r'
       | _, _ => false
       end) l r
  | VMap m, VMap n =>
    Nat.eqb (List.length m) (List.length n) &&
    (fix go (m : list (str * value)) : bool :=
       match m with
       | [] => true
       | (k, x) :: m' =>
         match mget k n with Some y => v_eqb x y | None => false end && go m'
       end) m
  | _, _ => false
  end.

(** ** [Display], src/model/value.rs:20-53.  Map entries are printed in
    iteration order. *)
Fixpoint join_with (sep : str) (l : list str) : str :=
  match l with
  | [] => []
  | [x] => x
  | x :: t => x ++ sep ++ join_with sep t
  end.

Definition print_bool (b : bool) : str := if b then lit "true" else lit "false".

Fixpoint v_display (v : value) : str :=
  match v with
  | VNone => lit "none"
  | VBool b => print_bool b
  | VInt z | VLong z | VUInt z | VULong z => print_int z
  | VFloat f => print_f64 f
  | VStr s => s
  | VArr l => lit "[" ++ join_with (lit ", ") (map v_display l) ++ lit "]"
  | VMap m =>
    lit "{" ++
    join_with (lit ", ") (map (fun e => fst e ++ lit ": " ++ v_display (snd e)) m)
    ++ lit "}"
  end.

(** ** Representation invariant of a Rust [Value]: numbers in the range of
    their variant, valid floats and texts, unique map keys. *)
Fixpoint wf (v : value) : Prop :=
  match v with
  | VNone | VBool _ => True
  | VInt z => in_range I64 z = true
  | VLong z => in_range I128 z = true
  | VUInt z => in_range U64 z = true
  | VULong z => in_range U128 z = true
  | VFloat f => f64_valid f = true
  | VStr s => is_text s = true
  | VArr l => (fix go (l : list value) : Prop :=
                 match l with [] => True | x :: t => wf x /\ go t end) l
  | VMap m => NoDup (mkeys m) /\
              (fix go (m : list (str * value)) : Prop :=
                 match m with
                 | [] => True
                 | (k, x) :: t => is_text k = true /\ wf x /\ go t
                 end) m
  end.
