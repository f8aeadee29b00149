(** Arrays of tables in TOML files written by hand (C134). *)
From Coq Require Import ZArith List Bool String.
Import ListNotations.
From Verif.Model Require Import Text Num Value.
From Verif.Spec Require Import Spec TomlTextSpec TomlGrammar.
Local Open Scope Z_scope.

(** A document, or one element of an array of tables: settings, tables, and
    arrays of tables, each with its path and its elements.  The paths are those
    inside the document (the element). *)
Inductive doc := Doc (l : list (list str * value)) (ts : list (list str * list (list str * value))) (gs : list (list str * list doc)).

(** [ [[path]] ]: a new element. *)
Inductive element_text (lim : nat) : list str -> str -> Prop :=
| ElLine p t w e : path_text p t -> (List.length p < lim)%nat -> blank w -> line_tail e -> element_text lim p (w ++ [91; 91] ++ t ++ [93; 93] ++ e).
(** The text of a document whose headers all begin with the path p. *)
Inductive doc_text (W : str -> value -> Prop) (lim : nat) : list str -> doc -> str -> Prop :=
| DtDoc p l ts gs a b c : settings_text W lim l a -> tables_text W lim (map (fun t => (p ++ fst t, snd t)) ts) b -> (forall t, In t ts -> fst t <> []) ->
    groups_text W lim p gs c -> doc_text W lim p (Doc l ts gs) (a ++ b ++ c)
with groups_text (W : str -> value -> Prop) (lim : nat) : list str -> list (list str * list doc) -> str -> Prop :=
| GtEnd p : groups_text W lim p [] []
| GtMore p q ds gs s t : q <> [] -> ds <> [] -> elements_text W lim (p ++ q) ds s -> groups_text W lim p gs t -> groups_text W lim p ((q, ds) :: gs) (s ++ t)
with elements_text (W : str -> value -> Prop) (lim : nat) : list str -> list doc -> str -> Prop :=
| EtEnd p : elements_text W lim p [] []
| EtMore p h d s ds t : element_text lim p h -> doc_text W lim p d s -> elements_text W lim p ds t -> elements_text W lim p (d :: ds) (h ++ s ++ t).

(** Nothing clashes, and the first key of an array's path is used for nothing else. *)
Inductive clear : doc -> Prop :=
| Clear l ts gs : no_clash (paths_of l) (shape ts) -> dots_apart (paths_of l) (shape ts) ->
    NoDup (map (fun g => hd [] (fst g)) gs) ->
    (forall g p, In g gs -> In p (paths_of l) \/ In p (map fst ts) -> hd [] p <> hd [] (fst g)) ->
    (forall q ds d, In (q, ds) gs -> In d ds -> clear d) -> clear (Doc l ts gs).

(** v is what the document says: its settings, its tables, its arrays, each
    element being what it says, and nothing else. *)
Inductive says : doc -> value -> Prop :=
| Says l ts gs v :
    (forall p x, In (p, x) (all_settings l ts) -> exists y, at_path v p y /\ vequiv x y) ->
    (forall h, In h (map fst ts) -> exists m, at_path v h (VMap m)) ->
    Forall (fun g => exists xs, at_path v (fst g) (VArr xs) /\ Forall2 says (snd g) xs) gs ->
    (forall q y, at_path v q y -> q = [] \/ (exists p x, In (p, x) (all_settings l ts) /\ (begins q p \/ begins p q))
       \/ (exists h, In h (map fst ts) /\ begins q h) \/ (exists g, In g gs /\ begins q (fst g))) ->
    says (Doc l ts gs) v.
