(** Vocabulary for C121: paths as bytes. *)
From Coq Require Import ZArith List Bool String.
Import ListNotations.
From Verif.Model Require Import Text Value Paths Finder BytePaths.

(** A finder whose folders are texts, as a finder over bytes. *)
Definition finder_in_bytes (f : finder) : bfinder :=
  {| bf_folders := map utf8_encode (ff_folders f); bf_name := ff_name f; bf_exts := ff_exts f |}.
(** The same result, its path as bytes. *)
Definition result_in_bytes (r : find_result) : find_result :=
  {| fr_path := utf8_encode (fr_path r); fr_extension := fr_extension r; fr_index := fr_index r; fr_exists := fr_exists r |}.
(** The same outcome, its paths as bytes. *)
Inductive same_outcome {A B E} (same : A -> B -> Prop) : outcome A E -> outcome B E -> Prop :=
| SameDone a b : same a b -> same_outcome same (Done a) (Done b)
| SameFail e : same_outcome same (Fail e) (Fail e)
| SamePanic : same_outcome same Panic Panic.
(** The same platform, its folders as bytes. *)
Definition platform_in_bytes (pf : platform) : platform :=
  {| pf_base := match pf_base pf with
                | Some b => Some {| bd_home := utf8_encode (bd_home b); bd_config := utf8_encode (bd_config b); bd_pref := utf8_encode (bd_pref b) |}
                | None => None
                end;
     pf_cwd := match pf_cwd pf with Some p => Some (utf8_encode p) | None => None end |}.
