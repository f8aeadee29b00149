(** The compound serialisers driven by a hand-written [Serialize]
    implementation: any sequence of calls, errors possibly ignored,
    src/model/ser.rs:181-227 and 229-416. *)
From Coq Require Import ZArith List Bool String.
Import ListNotations.
From Verif.Model Require Import Text Num Flt Value Convert Serde.
Local Open Scope Z_scope.

(** What a call answers; after a panic there are no further calls. *)
Inductive reply := ROk | RErr (e : model_error) | RPanic.

(** Each call carries what its argument's own [Serialize] gives on [ValueSerializer]. *)

(** ** Sequences, tuples, tuple structs and tuple variants:
    [serialize_element]/[serialize_field], src/model/ser.rs:248-255, 294-301. *)
Definition seq_step (self : value) (arg : mres value) : reply * value :=
  match arg with
  | Done x => match v_push self x with (self', Ok _) => (ROk, self') | (self', Err e) => (RErr e, self') end
  | Fail e => (RErr e, self)
  | Panic => (RPanic, self)
  end.

(** ** Maps: [ValueSerMap], src/model/ser.rs:310-353. *)
Inductive smap_call := SKey (arg : mres value) | SValue (arg : mres value).
Definition smap_step (sm : ser_map) (c : smap_call) : reply * ser_map :=
  match c with
  | SKey arg =>                                                            (* :329-336 *)
    match obind arg (fun kv => of_result (into_string kv)) with
    | Done k => (ROk, {| sm_map := sm_map sm; sm_key := Some k |})
    | Fail e => (RErr e, sm)
    | Panic => (RPanic, sm)
    end
  | SValue arg =>                                                          (* :338-349; [take] happens first *)
    match sm_key sm with
    | None => (RPanic, sm)
    | Some k =>
      match arg with
      | Done x => match v_set (sm_map sm) k x with
                  | (m', Ok _) => (ROk, {| sm_map := m'; sm_key := None |})
                  | (m', Err e) => (RErr e, {| sm_map := m'; sm_key := None |})
                  end
      | Fail e => (RErr e, {| sm_map := sm_map sm; sm_key := None |})
      | Panic => (RPanic, {| sm_map := sm_map sm; sm_key := None |})
      end
    end
  end.

(** ** Structs and struct variants: [serialize_field], src/model/ser.rs:375-386,
    400-411; [skip_field] is serde's default, which does nothing. *)
Inductive sfield_call := SField (name : str) (arg : mres value) | SSkip (name : str).
Definition sfield_step (self : value) (c : sfield_call) : reply * value :=
  match c with
  | SField name arg =>
    match arg with
    | Done x => match v_set self name x with (self', Ok _) => (ROk, self') | (self', Err e) => (RErr e, self') end
    | Fail e => (RErr e, self)
    | Panic => (RPanic, self)
    end
  | SSkip _ => (ROk, self)
  end.

(** A sequence of calls, up to the first panic. *)
Fixpoint run_calls {S C} (step : S -> C -> reply * S) (s : S) (cs : list C) : list reply * S :=
  match cs with
  | [] => ([], s)
  | c :: t =>
    match step s c with
    | (RPanic, s') => ([RPanic], s')
    | (r, s') => let '(rs, s'') := run_calls step s' t in (r :: rs, s'')
    end
  end.

(** ** Opening and closing

    [Vec::with_capacity(len)] panics if len elements of [Value]'s size exceed
    isize::MAX bytes; [value_size] is that size.  src/model/ser.rs:181-205,
    235-239, 281-286, src/model/new.rs:18-20.  (Allocation failure below that
    limit is not modelled.) *)
Definition with_array_capacity (value_size len : Z) : mres value :=
  if len * value_size <=? 2 ^ 63 - 1 then Done new_array else Panic.
(** [serialize_seq(len)], src/model/ser.rs:181-183. *)
Definition open_seq (value_size : Z) (len : option Z) : mres value :=
  with_array_capacity value_size (match len with Some n => n | None => 0 end).

(** A whole compound: open, calls, [end] (src/model/ser.rs:257-259, 303-307,
    351-353, 388-392, 413-415). *)
Definition whole_seq (value_size : Z) (len : option Z) (cs : list (mres value)) : mres (list reply * value) :=
  obind (open_seq value_size len) (fun s => Done (run_calls seq_step s cs)).
Definition whole_map (cs : list smap_call) : list reply * value :=
  let '(rs, sm) := run_calls smap_step ser_map_new cs in (rs, sm_map sm).
Definition whole_struct (cs : list sfield_call) : list reply * value := run_calls sfield_step new_map cs.
(** Tuple and struct variants close by wrapping under the variant's name,
    src/model/ser.rs:185-227, 303-307, 388-392. *)
Definition whole_tuple_variant (value_size : Z) (name : str) (len : Z) (cs : list (mres value))
  : mres (list reply * mres value) :=
  obind (with_array_capacity value_size len) (fun s =>
  let '(rs, s') := run_calls seq_step s cs in Done (rs, variant_map name s')).
Definition whole_struct_variant (name : str) (cs : list sfield_call) : list reply * mres value :=
  let '(rs, s') := run_calls sfield_step new_map cs in (rs, variant_map name s').
