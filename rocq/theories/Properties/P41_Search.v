(** C120: the dialogue of a search with the file system. *)
From Coq Require Import ZArith Bool String Lia List.
Import ListNotations.
From Verif.Model Require Import Text Value Paths Finder.
From Verif.Spec Require Import PathSpec FinderSpec SearchSpec.
From Verif.Proofs Require Import Basics PathLemmas FinderProofs FinderTop SearchTrace.

(** Whatever the file system answers, the search has exactly one of these
    dialogues, and its outcome is what the dialogue says. *)
Theorem C120_find_first : forall f cs allow, candidates f cs -> complete f ->
  (forall ex, exists tr x, replies ex 0 tr /\ first_dialogue allow cs tr x)
  /\ forall ex tr x, replies ex 0 tr -> first_dialogue allow cs tr x ->
       find_first ex f allow = match x with Some y => Done (single y) | None => Fail NoFilesFound end.
Proof.
  exact (fun f cs allow HC HF => conj
    (fun ex => first_dialogue_exists ex allow cs (candidates_nonempty f cs HC HF))
    (fun ex tr x R D => find_first_trace ex f cs HC HF allow tr x D R)).
Qed.
Print Assumptions C120_find_first.

Theorem C120_find_last : forall f cs allow, candidates f cs -> complete f ->
  (forall ex, exists tr x, replies ex 0 tr /\ last_dialogue allow cs tr x)
  /\ forall ex tr x, replies ex 0 tr -> last_dialogue allow cs tr x ->
       find_last ex f allow = match x with Some y => Done (single y) | None => Fail NoFilesFound end.
Proof.
  exact (fun f cs allow HC HF => conj
    (fun ex => last_dialogue_exists ex allow cs (candidates_nonempty f cs HC HF))
    (fun ex tr x R D => find_last_trace ex f cs HC HF allow tr x D R)).
Qed.
Print Assumptions C120_find_last.

Theorem C120_find_all : forall f cs allow, candidates f cs -> complete f ->
  (forall ex, exists tr found, replies ex 0 tr /\ all_dialogue allow cs tr found)
  /\ forall ex oc tr found, replies ex 0 tr -> all_dialogue allow cs tr found ->
       find_all ex oc f allow = match found with [] => Fail NoFilesFound | _ => listed oc found end.
Proof.
  exact (fun f cs allow HC HF => conj
    (fun ex => all_dialogue_exists ex allow cs)
    (fun ex oc tr found R D => find_all_trace ex f cs HC HF oc allow tr found D R)).
Qed.
Print Assumptions C120_find_all.

Theorem C120_find_all_or_first : forall f cs, candidates f cs -> complete f ->
  (forall ex, exists tr found, replies ex 0 tr /\ all_or_first_dialogue cs tr found)
  /\ forall ex oc tr found, replies ex 0 tr -> all_or_first_dialogue cs tr found ->
       find_all_or_first ex oc f = listed oc found.
Proof.
  exact (fun f cs HC HF => conj
    (fun ex => aof_dialogue_exists ex cs)
    (fun ex oc tr found R D => find_aof_trace ex f cs HC HF oc tr found D R)).
Qed.
Print Assumptions C120_find_all_or_first.

(** A search asks about candidates only, at most twice each. *)
Theorem C120_at_most_two_questions_per_candidate : forall allow cs tr,
  (exists x, first_dialogue allow cs tr x) \/ (exists x, last_dialogue allow cs tr x)
  \/ (exists l, all_dialogue allow cs tr l) \/ (exists l, all_or_first_dialogue cs tr l) ->
  (List.length tr <= 2 * List.length cs)%nat /\ forall p b, In (p, b) tr -> exists c, In c cs /\ fst c = p.
Proof. exact two_questions. Qed.
Print Assumptions C120_at_most_two_questions_per_candidate.

(** A result that says exists = false in find_all(false), or for find_first /
    find_last without allow_missing, is a file that was there and was gone at
    the very next question. *)
Theorem C120_flag_false_means_vanished : forall cs tr c,
  (exists l, all_dialogue false cs tr l /\ In (c, false) l) \/ first_dialogue false cs tr (Some (c, false))
  \/ last_dialogue false cs tr (Some (c, false)) ->
  exists tr1 tr2, tr = tr1 ++ (fst c, true) :: (fst c, false) :: tr2.
Proof. exact vanished. Qed.
Print Assumptions C120_flag_false_means_vanished.

(** Two candidates; the first one exists when asked and vanishes at once, the
    second one appears only after it was asked. *)
Definition two_names : finder := {| ff_folders := [lit "/etc"]; ff_name := lit "app"; ff_exts := [lit "toml"; lit "json"] |}.
Definition two_paths : list cand := [(lit "/etc/app.toml", lit "toml"); (lit "/etc/app.json", lit "json")].
Definition flicker : fs_oracle := fun t _ => Nat.eqb t 0 || Nat.leb 3 t.
Example C120_example :
  candidates two_names two_paths /\ complete two_names
  /\ (exists tr, replies flicker 0 tr /\ all_dialogue false two_paths tr [((lit "/etc/app.toml", lit "toml"), false)])
  /\ find_all flicker true two_names false
     = Done [{| fr_path := lit "/etc/app.toml"; fr_extension := ExtCustom (lit "toml"); fr_index := 0; fr_exists := false |}].
Proof.
  split; [|split; [split; discriminate|split]].
  - repeat constructor.
  - exists [(lit "/etc/app.toml", true); (lit "/etc/app.toml", false); (lit "/etc/app.json", false)]. split.
    + intros [|[|[|[|i]]]] p b H; cbn in H; try discriminate; injection H as <- <-; reflexivity.
    + constructor. apply (PassFound (lit "/etc/app.toml", lit "toml") false).
      apply (PassMissed (lit "/etc/app.json", lit "json")). constructor.
  - reflexivity.
Qed.
