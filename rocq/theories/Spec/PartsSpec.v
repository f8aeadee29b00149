(** Types made of parts after a start and through a file (C123, C124), and parts
    that convert or check what they read (C125). *)
From Coq Require Import ZArith List Bool String.
Import ListNotations.
From Verif.Model Require Import Text Num Value Convert Serde Readers.
From Verif.Spec Require Import Spec Numerals SerdeSpec VisitorSpec TomlSpec ReadersSpec.

(** [same_datum E t d d']: the same datum of type t, where E says when two data
    of a part with its own impls are the same; maps may list their entries in
    another order. *)
Inductive same_datum (E : data -> data -> Prop) : rty -> data -> data -> Prop :=
| SdOwn r w d d' : E d d' -> same_datum E (ROwn r w) d d'
| SdNone t : same_datum E (ROption t) DNone DNone
| SdSome t d d' : same_datum E t d d' -> same_datum E (ROption t) (DSome d) (DSome d')
| SdNewtype t d d' : same_datum E t d d' -> same_datum E (RNewtype t) (DNewtype d) (DNewtype d')
| SdSeq t l l' : Forall2 (same_datum E t) l l' -> same_datum E (RSeq t) (DSeq l) (DSeq l')
| SdTuple ts l l' : List.length l = List.length ts ->
    Forall2 (fun p d' => same_datum E (fst p) (snd p) d') (List.combine ts l) l' -> same_datum E (RTuple ts) (DTuple l) (DTuple l')
| SdMap t m m' :
    (forall k d, In (k, d) m -> exists d', In (k, d') m' /\ same_datum E t d d') ->
    (forall k d', In (k, d') m' -> exists d, In (k, d) m /\ same_datum E t d d') ->
    same_datum E (RMap t) (DMap m) (DMap m')
| SdStruct fs l l' : List.length l = List.length fs ->
    Forall2 (fun p e => fst e = fst (fst p) /\ same_datum E (snd (fst p)) (snd (snd p)) (snd e)) (List.combine fs l) l' ->
    same_datum E (RStruct fs) (DStruct l) (DStruct l').

(** [outlives E t d]: every own part in d reads the same datum back out of
    whatever a TOML file keeps of what it writes (integers are i64, maps may have
    changed their order, map entries without a value are gone); no
    Some and no map entry is written as none, and no field unless it is an
    Option. *)
Inductive outlives (E : data -> data -> Prop) : rty -> data -> Prop :=
| OlOwn r w d v : w d = Done v -> (forall v', same_numbers true v v' -> wf v' -> toml_plain v' -> exists d', r v' = Done d' /\ E d d') ->
    outlives E (ROwn r w) d
| OlNone t : outlives E (ROption t) DNone
| OlSome t d : outlives E t d -> ~ writes_none t d -> outlives E (ROption t) (DSome d)
| OlNewtype t d : outlives E t d -> outlives E (RNewtype t) (DNewtype d)
| OlSeq t l : (forall d, In d l -> outlives E t d) -> outlives E (RSeq t) (DSeq l)
| OlTuple ts l : Forall2 (outlives E) ts l -> outlives E (RTuple ts) (DTuple l)
| OlMap t m : (forall k d, In (k, d) m -> outlives E t d /\ ~ writes_none t d) -> outlives E (RMap t) (DMap m)
| OlStruct fs l : Forall2 (fun f d => outlives E (snd f) (snd d) /\ ((exists u, snd f = ROption u) \/ ~ writes_none (snd f) (snd d))) fs l ->
    outlives E (RStruct fs) (DStruct l).

(** Every datum of an own part inside d satisfies P. *)
Inductive own_data (P : data -> Prop) : rty -> data -> Prop :=
| OdOwn r w d : P d -> own_data P (ROwn r w) d
| OdNone t : own_data P (ROption t) DNone
| OdSome t d : own_data P t d -> own_data P (ROption t) (DSome d)
| OdNewtype t d : own_data P t d -> own_data P (RNewtype t) (DNewtype d)
| OdSeq t l : (forall d, In d l -> own_data P t d) -> own_data P (RSeq t) (DSeq l)
| OdTuple ts l : Forall2 (own_data P) ts l -> own_data P (RTuple ts) (DTuple l)
| OdMap t m : (forall k d, In (k, d) m -> own_data P t d) -> own_data P (RMap t) (DMap m)
| OdStruct fs l : Forall2 (fun f d => fst d = fst f /\ own_data P (snd f) (snd d)) fs l -> own_data P (RStruct fs) (DStruct l).
