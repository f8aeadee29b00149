(** Types derived with serde attributes: [default], [skip_deserializing],
    [alias], [rename] (the name is then the new one), [deny_unknown_fields], on
    top of [Deserializer for Value], src/model/de.rs:9-340.
    The attributes are serde's; the code modelled is what they call.  *)
From Coq Require Import ZArith List Bool String.
Import ListNotations.
From Verif.Model Require Import Text Num Flt Value Convert Serde.
Local Open Scope Z_scope.

(** A field without attribute, with [#[serde(default)]] (on the field or the
    struct; [d] is the default's value) and with [#[serde(skip_deserializing)]]. *)
Inductive presence := Required | Defaulted (d : data) | Skipped (d : data).
Record afield (A : Type) := Field { f_name : str; f_aliases : list str; f_presence : presence; f_type : A }.
Arguments Field {A}. Arguments f_name {A}. Arguments f_aliases {A}. Arguments f_presence {A}. Arguments f_type {A}.

(** Simplification: maps of attributed types are keyed by [String], tuples
    have no attributed components.  [deny]: the names listed by the derived
    FIELDS constant if the struct denies unknown fields. *)
Inductive aty :=
| APlain (t : ty)
| AOption (a : aty)
| ASeq (a : aty)
| AMap (a : aty)
| ANewtype (a : aty)
| AStruct (deny : option (list str)) (fs : list (afield aty)).

(** serde's [OneOf] and [Error::unknown_field]. *)
Definition quoted (n : str) : str := lit "`" ++ n ++ lit "`".
Definition one_of (names : list str) : str :=
  match names with
  | [a] => quoted a
  | [a; b] => quoted a ++ lit " or " ++ quoted b
  | _ => lit "one of " ++ join_with (lit ", ") (map quoted names)
  end.
Definition unknown_field {A} (k : str) (expected : list str) : mres A :=
  de_fail (match expected with
           | [] => lit "unknown field `" ++ k ++ lit "`, there are no fields"
           | _ => lit "unknown field `" ++ k ++ lit "`, expected " ++ one_of expected
           end).

Definition skipped {A} (f : afield A) : bool := match f_presence f with Skipped _ => true | _ => false end.
(** The derived field visitor: name or alias of a field that is not skipped. *)
Definition answers {A} (k : str) (f : afield A) : bool :=
  negb (skipped f) && existsb (str_eqb k) (f_name f :: f_aliases f).

(** A field with the function that reads it and whether it is an [Option]. *)
Definition slot := afield (bool * (value -> mres data)).

(** The derived [visit_map]; the entries come as in [de_struct_loop]. *)
Fixpoint attr_loop (deny : option (list str)) (fs : list slot) (m : vmap) (filled : list (str * data)) : mres (list (str * data)) :=
  match m with
  | [] => Done filled
  | (k, x) :: t =>
    match find (answers k) fs with
    | Some f =>
      match mget (f_name f) filled with
      | Some _ => de_fail (lit "duplicate field `" ++ f_name f ++ lit "`")
      | None => obind (snd (f_type f) x) (fun d => attr_loop deny fs t (minsert (f_name f) d filled))
      end
    | None =>
      match deny with
      | Some expected => unknown_field k expected
      | None => obind (ignored_any x) (fun _ => attr_loop deny fs t filled)
      end
    end
  end.
Definition absent (f : slot) : mres data :=
  match f_presence f with
  | Defaulted d | Skipped d => Done d
  | Required => if fst (f_type f) then Done DNone else de_fail (lit "missing field `" ++ f_name f ++ lit "`")
  end.
Fixpoint attr_collect (fs : list slot) (filled : list (str * data)) : mres (list (str * data)) :=
  match fs with
  | [] => Done []
  | f :: t =>
    obind (match mget (f_name f) filled with Some d => Done d | None => absent f end) (fun d =>
    obind (attr_collect t filled) (fun ds => Done ((f_name f, d) :: ds)))
  end.

Definition a_is_option (a : aty) : bool :=
  match a with APlain t => is_option t | AOption _ => true | _ => false end.

(** [Value::deserialize::<T>] for an attributed type, src/model/de.rs:333-340:
    option de.rs:144-152, seq :186-194, map :215-223, newtype :175-184,
    struct :225-235. *)
Fixpoint de_attr (a : aty) (v : value) {struct a} : mres data :=
  match a with
  | APlain t => de t v
  | AOption a1 => match v with VNone => Done DNone | _ => obind (de_attr a1 v) (fun d => Done (DSome d)) end
  | ASeq a1 =>
    match v with
    | VArr l => obind (de_seq (de_attr a1) l) (fun ds => Done (DSeq ds))
    | _ => de_kind_fail v (lit "Array")
    end
  | AMap a1 =>
    match v with
    | VMap m => obind (de_map (de TString) (de_attr a1) dinsert m) (fun ds => Done (DMap ds))
    | _ => de_kind_fail v (lit "Map")
    end
  | ANewtype a1 => obind (de_attr a1 v) (fun d => Done (DNewtype d))
  | AStruct deny fs =>
    match v with
    | VMap m =>
      let slots := map (fun f => Field (f_name f) (f_aliases f) (f_presence f) (a_is_option (f_type f), de_attr (f_type f))) fs in
      obind (attr_loop deny slots m []) (fun filled =>
      obind (attr_collect slots filled) (fun ds => Done (DStruct ds)))
    | _ => de_kind_fail v (lit "Map")
    end
  end.
