(** C89: what a search looks at, and what happens when a finder grows. *)
From Coq Require Import ZArith Bool String.
From Coq Require Import List.
Import ListNotations.
From Verif.Model Require Import Text Value Paths Finder.
From Verif.Spec Require Import PathSpec FinderSpec.
From Verif.Proofs Require Import Basics PathLemmas FinderProofs FinderTop FinderMore FinderGrow.

(** A search asks for nothing but its candidates: whatever else happens in the
    file system while it runs has no influence. *)
Theorem C89_only_candidates_matter : forall ex ex' oc f cs allow, candidates f cs ->
  (forall c, In c cs -> forall t, ex t (fst c) = ex' t (fst c)) ->
  find_first ex f allow = find_first ex' f allow /\ find_last ex f allow = find_last ex' f allow
  /\ find_all ex oc f allow = find_all ex' oc f allow /\ find_all_or_first ex oc f = find_all_or_first ex' oc f.
Proof. exact searches_congr. Qed.
Print Assumptions C89_only_candidates_matter.

(** Further folder calls on the builder only add folders behind. *)
Theorem C89_builder_adds_behind : forall name calls more ds es, calls_add more ds es ->
  (es = [] -> finder_built name (calls ++ more) = more_folders (finder_built name calls) ds)
  /\ (ds = [] -> finder_built name (calls ++ more) = more_extensions (finder_built name calls) es).
Proof.
  intros name calls more ds es A. unfold finder_built. rewrite fold_left_app.
  destruct (fold_left finder_apply calls (finder_new name)) as [ds0 n0 es0] eqn:E.
  assert (G : fold_left finder_apply more {| ff_folders := ds0; ff_name := n0; ff_exts := es0 |}
      = {| ff_folders := ds0 ++ ds; ff_name := n0; ff_exts := es0 ++ es |}) by exact (builder_calls_from more ds es A _).
  rewrite G. split; intros ->; unfold more_folders, more_extensions; cbn; now rewrite ?app_nil_r.
Qed.
Print Assumptions C89_builder_adds_behind.

(** An existing file found first stays the one found when folders are added, ... *)
Theorem C89_more_folders_keep_the_first_file : forall ex f ds allow allow' r,
  (forall e, In e (ff_exts f) -> no_sep e) ->
  find_first (still ex) f allow = Done r -> fr_exists r = true ->
  find_first (still ex) (more_folders f ds) allow' = Done r.
Proof. intros ex [ds0 n es] ds allow allow' r. exact (first_grows ex n es ds0 ds allow allow' r). Qed.
Print Assumptions C89_more_folders_keep_the_first_file.

(** ... the files found stay the beginning of the list, ... *)
Theorem C89_more_folders_extend_the_list : forall ex oc f ds allow l l', (forall e, In e (ff_exts f) -> no_sep e) ->
  find_all ex oc f allow = Done l -> find_all ex oc (more_folders f ds) allow = Done l' ->
  exists new, l' = l ++ new.
Proof. intros ex oc [ds0 n es] ds allow l l'. exact (all_grows ex oc n es ds0 ds allow l l'). Qed.
Print Assumptions C89_more_folders_extend_the_list.

(** ... and the existing file found last is that of the folders added last, if
    these have one. *)
Theorem C89_the_folders_added_last_win : forall ex f ds allow allow' r,
  (forall e, In e (ff_exts f) -> no_sep e) ->
  find_last (still ex) {| ff_folders := ds; ff_name := ff_name f; ff_exts := ff_exts f |} allow = Done r -> fr_exists r = true ->
  find_last (still ex) (more_folders f ds) allow' = Done r.
Proof. intros ex [ds0 n es] ds allow allow' r. exact (last_grows ex n es ds ds0 allow allow' r). Qed.
Print Assumptions C89_the_folders_added_last_win.

(** Extensions behave so only within one folder: with more folders, a new
    extension of an early folder comes before the files of later folders. *)
Theorem C89_more_extensions_in_one_folder : forall ex d n es more allow allow' r,
  (forall e, In e (es ++ more) -> no_sep e) ->
  let f := {| ff_folders := [d]; ff_name := n; ff_exts := es |} in
  find_first (still ex) f allow = Done r -> fr_exists r = true ->
  find_first (still ex) (more_extensions f more) allow' = Done r.
Proof. exact first_grows_ext. Qed.
Print Assumptions C89_more_extensions_in_one_folder.

Theorem C89_more_extensions_refuted : exists ex f e r r', no_sep e /\ complete f /\ (forall x, In x (ff_exts f) -> no_sep x)
  /\ find_first (still ex) f false = Done r /\ fr_exists r = true
  /\ find_first (still ex) (more_extensions f [e]) false = Done r' /\ fr_path r' <> fr_path r.
Proof.
  exists (fun p => str_eqb p (lit "/a/app.conf") || str_eqb p (lit "/b/app.toml")).
  exists {| ff_folders := [lit "/a"; lit "/b"]; ff_name := lit "app"; ff_exts := [lit "toml"] |}, (lit "conf").
  do 2 eexists. split; [|split; [|split; [|split; [reflexivity|]]]].
  - intros X. vm_compute in X. intuition discriminate.
  - split; discriminate.
  - intros x [<-|[]] X. vm_compute in X. intuition discriminate.
  - split; [reflexivity|]. split; [reflexivity|]. discriminate.
Qed.
Print Assumptions C89_more_extensions_refuted.

Example C89_example : let f := {| ff_folders := [lit "/a"; lit "/b"]; ff_name := lit "app"; ff_exts := [lit "toml"] |} in
  let ex := fun p => str_eqb p (lit "/b/app.toml") || str_eqb p (lit "/c/app.toml") in
  (forall e, In e (ff_exts f) -> no_sep e)
  /\ (exists r, find_first (still ex) f true = Done r /\ fr_exists r = true /\ fr_path r = lit "/b/app.toml"
        /\ find_first (still ex) (more_folders f [lit "/c"]) true = Done r)
  /\ (exists r, find_last (still ex) {| ff_folders := [lit "/c"]; ff_name := lit "app"; ff_exts := [lit "toml"] |} true = Done r
        /\ fr_exists r = true /\ find_last (still ex) (more_folders f [lit "/c"]) true = Done r)
  /\ (exists l l', find_all (still ex) true f true = Done l /\ find_all (still ex) true (more_folders f [lit "/c"]) true = Done l').
Proof.
  cbv zeta. split; [intros x [<-|[]] X; vm_compute in X; intuition discriminate|].
  split; [eexists; repeat split; reflexivity|]. split; [eexists; repeat split; reflexivity|]. do 2 eexists; split; reflexivity.
Qed.
