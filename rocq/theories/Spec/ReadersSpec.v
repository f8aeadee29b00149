(** What a type made of parts answers, from what the parts answer (C118), and
    which of its data come back after writing and reading (C119). *)
From Coq Require Import ZArith List Bool String.
Import ListNotations.
From Verif.Model Require Import Text Num Value Convert Serde Readers.
From Verif.Spec Require Import Spec Numerals SerdeSpec.

(** Fields of a struct are distinct. *)
Inductive rproper : rty -> Prop :=
| RpOwn r w : rproper (ROwn r w)
| RpOption t : rproper t -> rproper (ROption t)
| RpNewtype t : rproper t -> rproper (RNewtype t)
| RpSeq t : rproper t -> rproper (RSeq t)
| RpTuple ts : (forall t, In t ts -> rproper t) -> rproper (RTuple ts)
| RpMap t : rproper t -> rproper (RMap t)
| RpStruct fs : NoDup (map fst fs) -> (forall n t, In (n, t) fs -> rproper t) -> rproper (RStruct fs).

(** Anything but a result: an error or a panic. *)
Definition stops {A} (o : mres A) : Prop := forall a, o <> Done a.
Definition wrong_kind_error (v : value) (kind : str) : mres data :=
  Fail (EDeserialization (lit "Can't deserialize " ++ v_display v ++ lit " to " ++ kind)).

(** [answers t v o]: reading v as t ends in o.  The first part that stops
    decides, in the order of the Value. *)
Inductive answers : rty -> value -> mres data -> Prop :=
| AnOwn r w v : answers (ROwn r w) v (r v)
| AnNone t : answers (ROption t) VNone (Done DNone)
| AnSome t v d : v <> VNone -> answers t v (Done d) -> answers (ROption t) v (Done (DSome d))
| AnSomeStop t v o : v <> VNone -> answers t v o -> stops o -> answers (ROption t) v o
| AnNewtype t v d : answers t v (Done d) -> answers (RNewtype t) v (Done (DNewtype d))
| AnNewtypeStop t v o : answers t v o -> stops o -> answers (RNewtype t) v o
| AnSeqKind t v : ~ arrayv v -> answers (RSeq t) v (wrong_kind_error v (lit "Array"))
| AnSeq t l r : Forall2 (fun x d => answers t x (Done d)) l r -> answers (RSeq t) (VArr l) (Done (DSeq r))
| AnSeqStop t l1 x l2 o : (forall y, In y l1 -> exists d, answers t y (Done d)) -> answers t x o -> stops o ->
    answers (RSeq t) (VArr (l1 ++ x :: l2)) o
| AnTupleKind ts v : ~ arrayv v -> answers (RTuple ts) v (wrong_kind_error v (lit "Array"))
| AnTuple ts l rest r : List.length l = List.length ts ->
    Forall2 (fun p d => answers (fst p) (snd p) (Done d)) (List.combine ts l) r ->
    answers (RTuple ts) (VArr (l ++ rest)) (Done (DTuple r))
| AnTupleStop ts1 t ts2 l1 x l2 o : List.length l1 = List.length ts1 ->
    (forall t' y, In (t', y) (List.combine ts1 l1) -> exists d, answers t' y (Done d)) -> answers t x o -> stops o ->
    answers (RTuple (ts1 ++ t :: ts2)) (VArr (l1 ++ x :: l2)) o
| AnTupleShort ts1 t ts2 l here all : List.length l = List.length ts1 ->
    (forall t' y, In (t', y) (List.combine ts1 l) -> exists d, answers t' y (Done d)) ->
    canonical here (Z.of_nat (List.length l)) -> canonical all (Z.of_nat (List.length (ts1 ++ t :: ts2))) ->
    answers (RTuple (ts1 ++ t :: ts2)) (VArr l)
      (Fail (EDeserialization (lit "invalid length " ++ here ++ lit ", expected a tuple of size " ++ all)))
| AnMapKind t v : ~ mapv v -> answers (RMap t) v (wrong_kind_error v (lit "Map"))
| AnMap t m r : Forall2 (fun e p => fst p = DStr (fst e) /\ answers t (snd e) (Done (snd p))) m r ->
    answers (RMap t) (VMap m) (Done (DMap r))
| AnMapStop t m1 k x m2 o : (forall k' y, In (k', y) m1 -> exists d, answers t y (Done d)) -> answers t x o -> stops o ->
    answers (RMap t) (VMap (m1 ++ (k, x) :: m2)) o
| AnStructKind fs v : ~ mapv v -> answers (RStruct fs) v (wrong_kind_error v (lit "Map"))
| AnStruct fs m r :
    Forall2 (fun f d => fst d = fst f /\
      ((exists x, In (fst f, x) m /\ answers (snd f) x (Done (snd d)))
       \/ ((forall x, ~ In (fst f, x) m) /\ (exists t, snd f = ROption t) /\ snd d = DNone))) fs r ->
    answers (RStruct fs) (VMap m) (Done (DStruct r))
| AnStructStop fs m1 n x m2 t o :
    (forall n' y t', In (n', y) m1 -> In (n', t') fs -> exists d, answers t' y (Done d)) ->
    In (n, t) fs -> answers t x o -> stops o -> answers (RStruct fs) (VMap (m1 ++ (n, x) :: m2)) o
| AnStructMissing f1 n t f2 m :
    (forall n' y t', In (n', y) m -> In (n', t') (f1 ++ (n, t) :: f2) -> exists d, answers t' y (Done d)) ->
    (forall n' t', In (n', t') f1 -> (exists x, In (n', x) m) \/ exists u, t' = ROption u) ->
    (forall x, ~ In (n, x) m) -> (forall u, t <> ROption u) ->
    answers (RStruct (f1 ++ (n, t) :: f2)) (VMap m) (Fail (EDeserialization (lit "missing field `" ++ n ++ lit "`"))).

(** d is a datum of type t: maps have distinct String keys, structs their fields. *)
Inductive rtyped : rty -> data -> Prop :=
| RtOwn r w d : rtyped (ROwn r w) d
| RtNone t : rtyped (ROption t) DNone
| RtSome t d : rtyped t d -> rtyped (ROption t) (DSome d)
| RtNewtype t d : rtyped t d -> rtyped (RNewtype t) (DNewtype d)
| RtSeq t l : (forall d, In d l -> rtyped t d) -> rtyped (RSeq t) (DSeq l)
| RtTuple ts l : Forall2 rtyped ts l -> rtyped (RTuple ts) (DTuple l)
| RtMap t m : NoDup (map fst m) -> (forall k d, In (k, d) m -> (exists s, k = DStr s) /\ rtyped t d) -> rtyped (RMap t) (DMap m)
| RtStruct fs l : Forall2 (fun f d => fst d = fst f /\ rtyped (snd f) (snd d)) fs l -> rtyped (RStruct fs) (DStruct l).

(** [writes t d o]: writing d as t ends in o.  The first part that stops decides. *)
Inductive writes : rty -> data -> mres value -> Prop :=
| WrOwn r w d : writes (ROwn r w) d (w d)
| WrNone t : writes (ROption t) DNone (Done VNone)
| WrSome t d o : writes t d o -> writes (ROption t) (DSome d) o
| WrNewtype t d o : writes t d o -> writes (RNewtype t) (DNewtype d) o
| WrSeq t l vs : Forall2 (fun d v => writes t d (Done v)) l vs -> writes (RSeq t) (DSeq l) (Done (VArr vs))
| WrSeqStop t l1 d l2 o : (forall y, In y l1 -> exists v, writes t y (Done v)) -> writes t d o -> stops o ->
    writes (RSeq t) (DSeq (l1 ++ d :: l2)) o
| WrTuple ts l vs : Forall2 (fun p v => writes (fst p) (snd p) (Done v)) (List.combine ts l) vs ->
    writes (RTuple ts) (DTuple l) (Done (VArr vs))
| WrTupleStop ts1 t ts2 l1 d l2 o : List.length l1 = List.length ts1 ->
    (forall t' y, In (t', y) (List.combine ts1 l1) -> exists v, writes t' y (Done v)) -> writes t d o -> stops o ->
    writes (RTuple (ts1 ++ t :: ts2)) (DTuple (l1 ++ d :: l2)) o
| WrMap t m vs : Forall2 (fun p e => fst p = DStr (fst e) /\ writes t (snd p) (Done (snd e))) m vs ->
    writes (RMap t) (DMap m) (Done (VMap vs))
| WrMapStop t m1 k d m2 o : (forall k' y, In (k', y) m1 -> exists v, writes t y (Done v)) -> writes t d o -> stops o ->
    writes (RMap t) (DMap (m1 ++ (k, d) :: m2)) o
| WrStruct fs l vs : Forall2 (fun p e => fst (fst p) = fst e /\ writes (snd (fst p)) (snd (snd p)) (Done (snd e))) (List.combine fs l) vs ->
    writes (RStruct fs) (DStruct l) (Done (VMap vs))
| WrStructStop f1 n t f2 l1 d l2 o : List.length l1 = List.length f1 ->
    (forall f y, In (f, y) (List.combine f1 l1) -> exists v, writes (snd f) (snd y) (Done v)) -> writes t d o -> stops o ->
    writes (RStruct (f1 ++ (n, t) :: f2)) (DStruct (l1 ++ (n, d) :: l2)) o.

(** d is written as None: by its own impl, or being a newtype or option of such. *)
Inductive writes_none : rty -> data -> Prop :=
| WnOwn r w d : w d = Done VNone -> writes_none (ROwn r w) d
| WnNone t : writes_none (ROption t) DNone
| WnSome t d : writes_none t d -> writes_none (ROption t) (DSome d)
| WnNewtype t d : writes_none t d -> writes_none (RNewtype t) (DNewtype d).

(** [keeps t d]: every own part in d comes back from what it writes, and no
    [Some] is written as None. *)
Inductive keeps : rty -> data -> Prop :=
| KpOwn r w d v : w d = Done v -> r v = Done d -> keeps (ROwn r w) d
| KpNone t : keeps (ROption t) DNone
| KpSome t d : keeps t d -> ~ writes_none t d -> keeps (ROption t) (DSome d)
| KpNewtype t d : keeps t d -> keeps (RNewtype t) (DNewtype d)
| KpSeq t l : (forall d, In d l -> keeps t d) -> keeps (RSeq t) (DSeq l)
| KpTuple ts l : Forall2 keeps ts l -> keeps (RTuple ts) (DTuple l)
| KpMap t m : (forall k d, In (k, d) m -> keeps t d) -> keeps (RMap t) (DMap m)
| KpStruct fs l : Forall2 (fun f d => keeps (snd f) (snd d)) fs l -> keeps (RStruct fs) (DStruct l).

(** The own parts of a type. *)
Inductive own_part (r : value -> mres data) (w : data -> mres value) : rty -> Prop :=
| OpHere : own_part r w (ROwn r w)
| OpOption t : own_part r w t -> own_part r w (ROption t)
| OpNewtype t : own_part r w t -> own_part r w (RNewtype t)
| OpSeq t : own_part r w t -> own_part r w (RSeq t)
| OpTuple ts t : In t ts -> own_part r w t -> own_part r w (RTuple ts)
| OpMap t : own_part r w t -> own_part r w (RMap t)
| OpStruct fs n t : In (n, t) fs -> own_part r w t -> own_part r w (RStruct fs).

(** A plain type, taken apart as far as possible. *)
Fixpoint in_parts (t : ty) : rty :=
  match t with
  | TOption t => ROption (in_parts t)
  | TNewtype t => RNewtype (in_parts t)
  | TSeq t => RSeq (in_parts t)
  | TTuple ts => RTuple (map in_parts ts)
  | TMap TString t => RMap (in_parts t)
  | TStruct fs => RStruct (map (fun f => (fst f, in_parts (snd f))) fs)
  | _ => ROwn (de t) ser
  end.
