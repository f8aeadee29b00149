(** What a type with serde attributes reads from a Value, and why it refuses
    one (C96).  Parts without attributes are read as by [de] (C92). *)
From Coq Require Import ZArith List Bool String.
Import ListNotations.
From Verif.Model Require Import Text Num Flt Value Convert Serde Attributes.
From Verif.Spec Require Import Spec.
Local Open Scope Z_scope.

(** k is a name under which f is looked up. *)
Definition known {A} (f : afield A) (k : str) : Prop :=
  (k = f_name f \/ In k (f_aliases f)) /\ forall d, f_presence f <> Skipped d.

(** Field names are distinct and no two fields answer to one name (rustc and
    serde refuse anything else). *)
Inductive aproper : aty -> Prop :=
| ApPlain t : aproper (APlain t)
| ApOption a : aproper a -> aproper (AOption a)
| ApSeq a : aproper a -> aproper (ASeq a)
| ApMap a : aproper a -> aproper (AMap a)
| ApNewtype a : aproper a -> aproper (ANewtype a)
| ApStruct deny fs : NoDup (map f_name fs) ->
    (forall f g k, In f fs -> In g fs -> known f k -> known g k -> f = g) ->
    (forall f, In f fs -> aproper (f_type f)) -> aproper (AStruct deny fs).

Definition optional (a : aty) : Prop := (exists b, a = AOption b) \/ exists t, a = APlain (TOption t).
(** The Value has nothing for the field. *)
Definition unmentioned (v : value) (f : afield aty) : Prop := forall k, known f k -> lacks v k.

Inductive areads : aty -> value -> data -> Prop :=
| ArPlain t v d : de t v = Done d -> areads (APlain t) v d
| ArNone a : areads (AOption a) VNone DNone
| ArSome a v d : v <> VNone -> areads a v d -> areads (AOption a) v (DSome d)
| ArNewtype a v d : areads a v d -> areads (ANewtype a) v (DNewtype d)
| ArSeq a l r : Forall2 (areads a) l r -> areads (ASeq a) (VArr l) (DSeq r)
| ArMap a m r : Forall2 (fun e d => fst d = DStr (fst e) /\ areads a (snd e) (snd d)) m r -> areads (AMap a) (VMap m) (DMap r)
| ArStruct deny fs m l :
    (* if unknown fields are denied there are none *)
    (forall expected k, deny = Some expected -> In k (map fst m) -> exists f, In f fs /\ known f k) ->
    (* no field is given twice *)
    (forall f k k', In f fs -> known f k -> known f k' -> In k (map fst m) -> In k' (map fst m) -> k = k') ->
    (* each field is what it was given, its default, or none *)
    Forall2 (fun f d => fst d = f_name f /\
      ((exists k x, known f k /\ holds (VMap m) k x /\ areads (f_type f) x (snd d))
       \/ (f_presence f = Skipped (snd d))
       \/ (unmentioned (VMap m) f /\ f_presence f = Defaulted (snd d))
       \/ (unmentioned (VMap m) f /\ f_presence f = Required /\ optional (f_type f) /\ snd d = DNone))) fs l ->
    areads (AStruct deny fs) (VMap m) (DStruct l).

(** How serde shows the names it expected. *)
Definition tick (n : str) : str := lit "`" ++ n ++ lit "`".
Inductive tick_list : list str -> str -> Prop :=
| TlOne n : tick_list [n] (tick n)
| TlMore n ns s : tick_list ns s -> tick_list (n :: ns) (tick n ++ lit ", " ++ s).
Inductive expected_names : list str -> str -> Prop :=
| EnNone : expected_names [] (lit "there are no fields")
| EnOne a : expected_names [a] (lit "expected " ++ tick a)
| EnTwo a b : expected_names [a; b] (lit "expected " ++ tick a ++ lit " or " ++ tick b)
| EnMore ns s : (3 <= List.length ns)%nat -> tick_list ns s -> expected_names ns (lit "expected one of " ++ s).

(** The same for the variants of an enum. *)
Definition expected_variants (ns : list str) (s : str) : Prop :=
  ns = [] /\ s = lit "there are no variants" \/ ns <> [] /\ expected_names ns s.

(** The first entries of a map go well. *)
Definition fine (deny : option (list str)) (fs : list (afield aty)) (m : vmap) : Prop :=
  (forall k x f, In (k, x) m -> In f fs -> known f k -> exists d, areads (f_type f) x d) /\
  (forall expected k, deny = Some expected -> In k (map fst m) -> exists f, In f fs /\ known f k) /\
  (forall f k k', In f fs -> known f k -> known f k' -> In k (map fst m) -> In k' (map fst m) -> k = k').

Inductive arefuses : aty -> value -> model_error -> Prop :=
| AfPlain t v e : de t v = Fail e -> arefuses (APlain t) v e
| AfSome a v e : v <> VNone -> arefuses a v e -> arefuses (AOption a) v e
| AfNewtype a v e : arefuses a v e -> arefuses (ANewtype a) v e
| AfSeq a l1 x l2 e : (forall y, In y l1 -> exists d, areads a y d) -> arefuses a x e -> arefuses (ASeq a) (VArr (l1 ++ x :: l2)) e
| AfMap a m1 k x m2 e : (forall k' y, In (k', y) m1 -> exists d, areads a y d) -> arefuses a x e ->
    arefuses (AMap a) (VMap (m1 ++ (k, x) :: m2)) e
| AfArray a v : ~ arrayv v ->
    arefuses (ASeq a) v (EDeserialization (lit "Can't deserialize " ++ v_display v ++ lit " to Array"))
| AfMapKind a v : ~ mapv v -> (exists b, a = AMap b) \/ (exists deny fs, a = AStruct deny fs) ->
    arefuses a v (EDeserialization (lit "Can't deserialize " ++ v_display v ++ lit " to Map"))
| AfField deny fs m1 k x m2 f e : fine deny fs m1 -> In f fs -> known f k ->
    (forall k', known f k' -> ~ In k' (map fst m1)) -> arefuses (f_type f) x e ->
    arefuses (AStruct deny fs) (VMap (m1 ++ (k, x) :: m2)) e
| AfTwice deny fs m1 k x m2 f k' : fine deny fs m1 -> In f fs -> known f k -> known f k' -> In k' (map fst m1) ->
    arefuses (AStruct deny fs) (VMap (m1 ++ (k, x) :: m2)) (EDeserialization (lit "duplicate field " ++ tick (f_name f)))
| AfUnknown expected fs m1 k x m2 s : fine (Some expected) fs m1 -> (forall f, In f fs -> ~ known f k) -> expected_names expected s ->
    arefuses (AStruct (Some expected) fs) (VMap (m1 ++ (k, x) :: m2)) (EDeserialization (lit "unknown field " ++ tick k ++ lit ", " ++ s))
| AfMissing deny f1 f f2 m : fine deny (f1 ++ f :: f2) m ->
    (forall g, In g f1 -> (exists k, known g k /\ In k (map fst m)) \/ f_presence g <> Required \/ optional (f_type g)) ->
    unmentioned (VMap m) f -> f_presence f = Required -> ~ optional (f_type f) ->
    arefuses (AStruct deny (f1 ++ f :: f2)) (VMap m) (EDeserialization (lit "missing field " ++ tick (f_name f))).
