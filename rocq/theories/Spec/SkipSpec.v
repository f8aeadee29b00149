(** What is written of a type with serde attributes for writing, and when it
    comes back (C133).  Parts without attributes are written as by [ser]. *)
From Coq Require Import ZArith List Bool String.
Import ListNotations.
From Verif.Model Require Import Text Num Flt Value Convert Serde Attributes SkipSer.
From Verif.Spec Require Import Spec AttrSpec.
Local Open Scope Z_scope.

(** The field is looked up under k. *)
Definition reads_key (f : wfield wty) (k : str) : Prop := known (w_in f) k.
(** Written names are distinct, no field reads what another one writes, and
    the type can be read (see [aproper]). *)
Inductive wproper : wty -> Prop :=
| WpPlain t : wproper (WPlain t)
| WpOption w : wproper w -> wproper (WOption w)
| WpSeq w : wproper w -> wproper (WSeq w)
| WpMap w : wproper w -> wproper (WMap w)
| WpNewtype w : wproper w -> wproper (WNewtype w)
| WpStruct deny fs : NoDup (map (fun f => w_out f) fs) -> NoDup (map (fun f => f_name (w_in f)) fs) ->
    (forall f g k, In f fs -> In g fs -> reads_key f k -> reads_key g k -> f = g) ->
    (forall f g, In f fs -> In g fs -> reads_key f (w_out g) -> f = g) ->
    (forall f, In f fs -> wproper (f_type (w_in f))) -> wproper (WStruct deny fs).

(** d is a datum of the type. *)
Inductive datum : wty -> data -> Prop :=
| DaPlain t d : datum (WPlain t) d
| DaNone w : datum (WOption w) DNone
| DaSome w d : datum w d -> datum (WOption w) (DSome d)
| DaNewtype w d : datum w d -> datum (WNewtype w) (DNewtype d)
| DaSeq w l : Forall (datum w) l -> datum (WSeq w) (DSeq l)
| DaMap w (ks : list str) ds : NoDup ks -> List.length ks = List.length ds -> Forall (datum w) ds -> datum (WMap w) (DMap (combine (map DStr ks) ds))
| DaStruct deny fs l : Forall2 (fun f e => fst e = f_name (w_in f) /\ datum (f_type (w_in f)) (snd e)) fs l -> datum (WStruct deny fs) (DStruct l).

(** The fields that are not left out, with their data. *)
Inductive kept : list (wfield wty) -> list (str * data) -> list (wfield wty * data) -> Prop :=
| KpEnd : kept [] [] []
| KpLeaveOut f n d fs l ks : w_skip f d = true -> kept fs l ks -> kept (f :: fs) ((n, d) :: l) ks
| KpKeep f n d fs l ks : w_skip f d = false -> kept fs l ks -> kept (f :: fs) ((n, d) :: l) ((f, d) :: ks).

Inductive writes : wty -> data -> value -> Prop :=
| WrPlain t d v : ser d = Done v -> writes (WPlain t) d v
| WrNone w : writes (WOption w) DNone VNone
| WrSome w d v : writes w d v -> writes (WOption w) (DSome d) v
| WrNewtype w d v : writes w d v -> writes (WNewtype w) (DNewtype d) v
| WrSeq w l r : Forall2 (writes w) l r -> writes (WSeq w) (DSeq l) (VArr r)
| WrMap w l m : Forall2 (fun e x => fst e = DStr (fst x) /\ writes w (snd e) (snd x)) l m -> writes (WMap w) (DMap l) (VMap m)
| WrStruct deny fs l ks m : kept fs l ks ->
    Forall2 (fun e x => fst x = w_out (fst e) /\ writes (f_type (w_in (fst e))) (snd e) (snd x)) ks m ->
    writes (WStruct deny fs) (DStruct l) (VMap m).

(** What a field is when the Value has nothing for it. *)
Definition value_if_absent (f : wfield wty) (d : data) : Prop :=
  f_presence (w_in f) = Skipped d \/ f_presence (w_in f) = Defaulted d
  \/ (f_presence (w_in f) = Required /\ optional (read_side (f_type (w_in f))) /\ d = DNone).
(** d comes back: each field is written under a name it is read under, and
    comes back itself, or is not and is then what an absent field is. *)
Inductive comes_back : wty -> data -> Prop :=
| CbPlain t d : (forall v, ser d = Done v -> de t v = Done d) -> comes_back (WPlain t) d
| CbNone w : comes_back (WOption w) DNone
| CbSome w d : comes_back w d -> ~ writes w d VNone -> comes_back (WOption w) (DSome d)
| CbNewtype w d : comes_back w d -> comes_back (WNewtype w) (DNewtype d)
| CbSeq w l : Forall (comes_back w) l -> comes_back (WSeq w) (DSeq l)
| CbMap w l : Forall (fun e => comes_back w (snd e)) l -> comes_back (WMap w) (DMap l)
| CbStruct deny fs l :
    Forall2 (fun f e => (w_skip f (snd e) = false /\ reads_key f (w_out f) /\ comes_back (f_type (w_in f)) (snd e))
                        \/ ((w_skip f (snd e) = true \/ ~ reads_key f (w_out f)) /\ value_if_absent f (snd e))) fs l ->
    deny = None \/ Forall2 (fun f e => w_skip f (snd e) = true \/ reads_key f (w_out f)) fs l ->
    comes_back (WStruct deny fs) (DStruct l).
