(** The order of the sections of a TOML file, and of the settings in a section
    (C135). *)
From Coq Require Import ZArith List Bool String.
Import ListNotations.
From Verif.Model Require Import Text Num Value.
From Verif.Spec Require Import Spec TomlTextSpec TomlGrammar TomlArrays.
Local Open Scope Z_scope.

(** A section: a header, of a table or of an array's element, and the settings
    below it (with their comments and empty lines). *)
Inductive section_text (W : str -> value -> Prop) (lim : nat) : list str -> str -> Prop :=
| SxTable p h l s : header_text lim p h -> settings_text W lim l s -> section_text W lim p (h ++ s)
| SxElement p h l s : element_text lim p h -> settings_text W lim l s -> section_text W lim p (h ++ s).
(** The beginning of a file: settings, then sections, all complete. *)
Definition file_start (W : str -> value -> Prop) (lim : nat) (a : str) : Prop :=
  exists l s ps, settings_text W lim l s /\ (forall p t, In (p, t) ps -> section_text W lim p t) /\ a = s ++ List.concat (map snd ps).

(** The same sections in another order: neighbours are swapped, any number of
    times, when neither header's path begins the other's. *)
Inductive rearranged : list (list str * str) -> list (list str * str) -> Prop :=
| ReSame l : rearranged l l
| ReSwap l p s q t l' : apart p q -> rearranged (l ++ (p, s) :: (q, t) :: l') (l ++ (q, t) :: (p, s) :: l')
| ReTrans a b c : rearranged a b -> rearranged b c -> rearranged a c.
