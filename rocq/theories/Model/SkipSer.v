(** Writing types derived with serde attributes: [skip_serializing],
    [skip_serializing_if], [skip], [rename(serialize = .., deserialize = ..)],
    on top of [Serializer for ValueSerializer], src/model/ser.rs:37-411.
    The attributes are serde's; the code modelled is what they call.  A field
    that is left out calls [skip_field], which src/model/ser.rs does not
    override (serde's default does nothing). *)
From Coq Require Import ZArith List Bool String.
Import ListNotations.
From Verif.Model Require Import Text Num Flt Value Convert Serde Attributes.
Local Open Scope Z_scope.

(** The name it is written under, whether it is left out, and how it is read. *)
Record wfield (A : Type) := WField { w_out : str; w_skip : data -> bool; w_in : afield A }.
Arguments WField {A}. Arguments w_out {A}. Arguments w_skip {A}. Arguments w_in {A}.
(** Simplification as in Model/Attributes.v: maps of attributed types are keyed by [String]. *)
Inductive wty :=
| WPlain (t : ty)
| WOption (w : wty)
| WSeq (w : wty)
| WMap (w : wty)
| WNewtype (w : wty)
| WStruct (deny : option (list str)) (fs : list (wfield wty)).
(** How the type is read: Model/Attributes.v. *)
Fixpoint read_side (w : wty) : aty :=
  match w with
  | WPlain t => APlain t
  | WOption w1 => AOption (read_side w1)
  | WSeq w1 => ASeq (read_side w1)
  | WMap w1 => AMap (read_side w1)
  | WNewtype w1 => ANewtype (read_side w1)
  | WStruct deny fs => AStruct deny (map (fun f => Field (f_name (w_in f)) (f_aliases (w_in f)) (f_presence (w_in f)) (read_side (f_type (w_in f)))) fs)
  end.

(** [Value::serialize], src/model/ser.rs:37-44, on a datum of an attributed
    type: option ser.rs:126-136, newtype :155-164, seq :181-183, map :207-209,
    struct :211-217 with serialize_field :375-386.  Data that are not of the
    type do not exist in Rust; the model gives [Panic] there. *)
Fixpoint ser_w (w : wty) (d : data) {struct w} : mres value :=
  match w with
  | WPlain _ => ser d
  | WOption w1 => match d with DNone => ser_none | DSome x => ser_w w1 x | _ => Panic end
  | WNewtype w1 => match d with DNewtype x => ser_w w1 x | _ => Panic end
  | WSeq w1 => match d with DSeq l => ser_seq (ser_w w1) new_array l | _ => Panic end
  | WMap w1 => match d with DMap m => ser_map_entries (fun e => ser (fst e)) (fun e => ser_w w1 (snd e)) m | _ => Panic end
  | WStruct _ fs =>
    match d with
    | DStruct l =>
      ser_fields (fun x => x) new_map
        ((fix go (fs : list (wfield wty)) (l : list (str * data)) : list (str * mres value) :=
            match fs, l with
            | f :: fs', (_, x) :: l' => if w_skip f x then go fs' l' else (w_out f, ser_w (f_type (w_in f)) x) :: go fs' l'
            | _, _ => []
            end) fs l)
    | _ => Panic
    end
  end.
