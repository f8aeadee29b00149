(** Types of the standard library that are not covered by [ty], as serde's impls
    for them read and write a Value (the impls are external, written down here).
    The code modelled is what they call: [deserialize_seq] (src/model/de.rs:186-194),
    [deserialize_tuple] (:196-201), [deserialize_struct] (:225-235),
    [deserialize_<integer>] (:37-91), [deserialize_str] (:115-121), and the
    serialisers of src/model/ser.rs:71-117, 181-217. *)
From Coq Require Import ZArith List Bool String.
Import ListNotations.
From Verif.Model Require Import Text Num Flt Value Convert Serde Buffered Attributes.
Local Open Scope Z_scope.

(** [HashSet<T>], [BTreeSet<T>]: every element is inserted; an element that is
    already there is not inserted again.  The list shows the set in some order. *)
Definition set_insert (s : list data) (d : data) : list data :=
  if existsb (key_eqb d) s then s else s ++ [d].
Definition de_set (t : ty) (v : value) : mres (list data) :=
  match v with
  | VArr l => obind (de_seq (de t) l) (fun ds => Done (fold_left set_insert ds []))
  | _ => de_kind_fail v (lit "Array")
  end.
(** Written as a sequence, in iteration order. *)
Definition ser_set (l : list data) : mres value := ser (DSeq l).

(** [[T; N]]: N elements, one after the other. *)
Definition expecting_array (n : nat) : str :=
  match n with O => lit "an empty array" | _ => lit "an array of length " ++ print_int (Z.of_nat n) end.
Definition de_array (t : ty) (n : nat) (v : value) : mres (list data) :=
  match v with
  | VArr l => de_tuple (expecting_array n) 0 (repeat (de t) n) l
  | _ => de_kind_fail v (lit "Array")
  end.
Definition ser_array (l : list data) : mres value := ser (DTuple l).

(** [NonZero<T>]: the integer, unless it is zero.  Simplification: the wording
    of that error is not modelled. *)
Definition de_nonzero (t : ity) (v : value) : mres Z :=
  obind (de (TInt t) v) (fun d => match d with DInt _ z => if z =? 0 then invalid else Done z | _ => invalid end).
Definition ser_nonzero (t : ity) (z : Z) : mres value := ser (DInt t z).

(** A struct of two named parts that refuses other names ([Duration],
    [SystemTime], [Range], [RangeInclusive]). *)
Definition two_part (a b : str) (ta tb : ty) : aty :=
  AStruct (Some [a; b]) [Field a [] Required (APlain ta); Field b [] Required (APlain tb)].

Definition nanos_per_sec : Z := 1000000000.
(** serde's [check_overflow] and [Duration::new]. *)
Definition duration_new (what : str) (secs nanos : Z) : mres (Z * Z) :=
  if in_range U64 (secs + nanos / nanos_per_sec) then Done (secs + nanos / nanos_per_sec, nanos mod nanos_per_sec)
  else de_fail (lit "overflow deserializing " ++ what).
Definition de_two_numbers (a b what : str) (v : value) : mres (Z * Z) :=
  obind (de_attr (two_part a b (TInt U64) (TInt U32)) v) (fun d =>
  match d with DStruct [(_, DInt _ s); (_, DInt _ n)] => duration_new what s n | _ => invalid end).

(** [Duration]: seconds and nanoseconds. *)
Definition de_duration (v : value) : mres (Z * Z) := de_two_numbers (lit "secs") (lit "nanos") (lit "Duration") v.
Definition ser_duration (d : Z * Z) : mres value :=
  ser (DStruct [(lit "secs", DInt U64 (fst d)); (lit "nanos", DInt U32 (snd d))]).

(** [SystemTime], as nanoseconds since the epoch; on Unix the seconds are an i64
    ([checked_add]). *)
Definition de_system_time (v : value) : mres Z :=
  obind (de_two_numbers (lit "secs_since_epoch") (lit "nanos_since_epoch") (lit "SystemTime epoch offset") v) (fun d =>
  if in_range I64 (fst d) then Done (fst d * nanos_per_sec + snd d) else de_fail (lit "overflow deserializing SystemTime")).
Definition ser_system_time (t : Z) : mres value :=
  if t <? 0 then Fail (ESerialization (lit "SystemTime must be later than UNIX_EPOCH"))
  else ser (DStruct [(lit "secs_since_epoch", DInt U64 (t / nanos_per_sec)); (lit "nanos_since_epoch", DInt U32 (t mod nanos_per_sec))]).

(** [Range<T>], [RangeInclusive<T>]. *)
Definition de_range (t : ty) (v : value) : mres (data * data) :=
  obind (de_attr (two_part (lit "start") (lit "end") t t) v) (fun d =>
  match d with DStruct [(_, a); (_, b)] => Done (a, b) | _ => invalid end).
Definition ser_range (r : data * data) : mres value := ser (DStruct [(lit "start", fst r); (lit "end", snd r)]).

(** Types read from and written as text in human-readable formats ([IpAddr],
    [SocketAddr], ...; [is_human_readable] is not overridden): [deserialize_str]
    and [FromStr]; [serialize_str] of [Display]. *)
Definition de_parsed {A} (parse : str -> option A) (v : value) : mres A :=
  obind (of_result (into_string v)) (fun s => match parse s with Some a => Done a | None => invalid end).
Definition ser_printed {A} (print : A -> str) (a : A) : mres value := ser_str (print a).

(** [&str], [&Path]: [deserialize_str] with a visitor that has only
    [visit_borrowed_str]; src/model/de.rs:115-121 calls [visit_str]. *)
Definition de_borrowed_str (v : value) : mres str :=
  obind (of_result (into_string v)) (fun _ => invalid).
