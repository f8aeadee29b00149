(** C39-C48: the file finder. *)
From Coq Require Import ZArith Bool String Lia List.
Import ListNotations.
From Verif.Model Require Import Text Value Paths Finder.
From Verif.Spec Require Import PathSpec FinderSpec SearchSpec.
From Verif.Proofs Require Import Basics PathLemmas FinderProofs FinderTop FinderMore SearchTrace.

(** Every finder whose extensions contain no separator has its candidates, and
    only one list of them. *)
Theorem C39_candidates_exist : forall f, (forall e, In e (ff_exts f) -> no_sep e) ->
  (exists cs, candidates f cs) /\ (forall cs cs', candidates f cs -> candidates f cs' -> cs = cs')
  /\ (forall cs, candidates f cs -> List.length cs = (List.length (ff_folders f) * List.length (ff_exts f))%nat).
Proof.
  exact (fun f H => conj (candidates_exist f H) (conj (candidates_fun f) (candidates_length f))).
Qed.
Print Assumptions C39_candidates_exist.

(** ** C39. *)
Theorem C39_find_first_is_the_first_existing_candidate : forall ex f cs allow,
  candidates f cs -> complete f ->
  (forall before c after, cs = before ++ c :: after -> (forall x, In x before -> ex (fst x) = false) ->
     ex (fst c) = true -> find_first (still ex) f allow = Done (result_of c 0 true))
  /\ ((forall x, In x cs -> ex (fst x) = false) ->
       find_first (still ex) f false = Fail NoFilesFound
       /\ forall c rest, cs = c :: rest -> find_first (still ex) f true = Done (result_of c 0 false)).
Proof. exact (fun ex f cs allow HC HF => find_first_still ex f cs HC HF allow). Qed.
Print Assumptions C39_find_first_is_the_first_existing_candidate.

(** All four searches refuse an incomplete finder with the same error. *)
Theorem C39_incomplete_finders_are_refused : forall f ex oc allow,
  (ff_folders f = [] -> find_first ex f allow = Fail NoFoldersDefined /\ find_last ex f allow = Fail NoFoldersDefined
     /\ find_all ex oc f allow = Fail NoFoldersDefined /\ find_all_or_first ex oc f = Fail NoFoldersDefined)
  /\ (ff_folders f <> [] -> ff_exts f = [] ->
        find_first ex f allow = Fail NoExtensionsDefined /\ find_last ex f allow = Fail NoExtensionsDefined
        /\ find_all ex oc f allow = Fail NoExtensionsDefined /\ find_all_or_first ex oc f = Fail NoExtensionsDefined).
Proof.
  intros f ex oc allow. split.
  - intros E. assert (N : ~ complete f) by (intros [A _]; contradiction).
    assert (H := incomplete_fails f ex oc allow N). cbv zeta in H. now rewrite E in H.
  - intros A E. assert (N : ~ complete f) by (intros [_ B]; contradiction).
    assert (H := incomplete_fails f ex oc allow N). cbv zeta in H. destruct (ff_folders f); [contradiction | exact H].
Qed.
Print Assumptions C39_incomplete_finders_are_refused.

(** A finder built by any chain of builder calls searches the name it was
    created with, the folders the calls add (an unresolvable one adds nothing)
    and the extensions the calls add, each in call order; so its candidates are
    these folders by these extensions. *)
Theorem C39_builder_calls_add_in_order : forall name calls ds es, calls_add calls ds es ->
  let f := finder_built name calls in
  finder_get_file_name f = name
  /\ (forall cs, candidates f cs <->
        Forall2 (fun de c => with_extension (path_join (fst de) name) (snd de) = Some (fst c) /\ snd c = snd de)
          (list_prod ds es) cs)
  /\ (complete f <-> ds <> [] /\ es <> []).
Proof.
  intros name calls ds es H f.
  assert (E : f = {| ff_folders := ds; ff_name := name; ff_exts := es |}).
  { subst f. unfold finder_built. rewrite (builder_calls calls ds es H). reflexivity. }
  rewrite E. split; [reflexivity|]. split; [intros cs; reflexivity | reflexivity].
Qed.
Print Assumptions C39_builder_calls_add_in_order.
Theorem C39_builder_calls_determine_the_finder : forall calls,
  (exists ds es, calls_add calls ds es)
  /\ (forall ds es ds' es', calls_add calls ds es -> calls_add calls ds' es' -> ds = ds' /\ es = es').
Proof. exact (fun calls => conj (calls_add_total calls) (calls_add_fun calls)). Qed.
Print Assumptions C39_builder_calls_determine_the_finder.

Definition ex_finder : finder :=
  {| ff_folders := [lit "/etc"; lit "/home/u/"]; ff_name := lit "app"; ff_exts := [lit "toml"; lit "json"] |}.
Definition ex_cands : list cand :=
  [(lit "/etc/app.toml", lit "toml"); (lit "/etc/app.json", lit "json");
   (lit "/home/u/app.toml", lit "toml"); (lit "/home/u/app.json", lit "json")].
Definition ex_exists (p : path) : bool := str_eqb p (lit "/etc/app.json") || str_eqb p (lit "/home/u/app.toml").
Example C39_example : candidates ex_finder ex_cands /\ complete ex_finder
  /\ ex_cands = [(lit "/etc/app.toml", lit "toml")] ++ (lit "/etc/app.json", lit "json") :: skipn 2 ex_cands
  /\ ex_exists (lit "/etc/app.toml") = false /\ ex_exists (lit "/etc/app.json") = true
  /\ find_first (still ex_exists) ex_finder false
     = Done {| fr_path := lit "/etc/app.json"; fr_extension := ExtCustom (lit "json"); fr_index := 0; fr_exists := true |}.
Proof.
  split; [repeat constructor|]. split; [split; discriminate|]. repeat split; reflexivity.
Qed.

Example C39_builder_example :
  let pf := {| pf_base := Some {| bd_home := lit "/home/u"; bd_config := lit "/home/u/.config"; bd_pref := lit "/home/u/.config" |};
               pf_cwd := None |} in
  let calls := [CallToml; CallWorkingDirectory pf; CallUserConfig pf; CallExtension (lit "conf"); CallFolder (lit "/etc")] in
  calls_add calls [lit "/home/u/.config"; lit "/etc"] [lit "toml"; lit "conf"]
  /\ finder_built (lit "app") calls
     = {| ff_folders := [lit "/home/u/.config"; lit "/etc"]; ff_name := lit "app"; ff_exts := [lit "toml"; lit "conf"] |}.
Proof.
  cbv zeta. split; [|reflexivity].
  apply (CallsMore _ _ [] [lit "toml"] [lit "/home/u/.config"; lit "/etc"] [lit "conf"]); [split; reflexivity|].
  apply (CallsMore _ _ [] [] [lit "/home/u/.config"; lit "/etc"] [lit "conf"]).
  { split; [|reflexivity]. apply ResolvedSkip; [|constructor].
    intros p (b & E & H). inversion H as [q Q| | | | | |]; discriminate. }
  apply (CallsMore _ _ [lit "/home/u/.config"] [] [lit "/etc"] [lit "conf"]).
  { split; [|reflexivity]. apply ResolvedKeep; [eexists; split; [reflexivity|]; apply OsConfig | constructor]. }
  apply (CallsMore _ _ [] [lit "conf"] [lit "/etc"] []); [split; reflexivity|].
  apply (CallsMore _ _ [lit "/etc"] [] [] []); [split; reflexivity | constructor].
Qed.

(** ** C40. *)
Theorem C40_find_last_is_the_last_existing_candidate : forall ex f cs allow,
  candidates f cs -> complete f ->
  (forall before c after, cs = before ++ c :: after -> (forall x, In x after -> ex (fst x) = false) ->
     ex (fst c) = true -> find_last (still ex) f allow = Done (result_of c 0 true))
  /\ ((forall x, In x cs -> ex (fst x) = false) ->
       find_last (still ex) f false = Fail NoFilesFound
       /\ forall c before, cs = before ++ [c] -> find_last (still ex) f true = Done (result_of c 0 false)).
Proof. exact (fun ex f cs allow HC HF => find_last_still ex f cs HC HF allow). Qed.
Print Assumptions C40_find_last_is_the_last_existing_candidate.

Example C40_example :
  find_last (still ex_exists) ex_finder true
     = Done {| fr_path := lit "/home/u/app.toml"; fr_extension := ExtCustom (lit "toml"); fr_index := 0; fr_exists := true |}
  /\ find_last (still (fun _ => false)) ex_finder true
     = Done {| fr_path := lit "/home/u/app.json"; fr_extension := ExtCustom (lit "json"); fr_index := 0; fr_exists := false |}.
Proof. split; reflexivity. Qed.

(** ** C41.  [oc] = overflow checks on (debug build). *)
Theorem C41_find_all_returns_the_existing_candidates : forall ex oc f cs,
  candidates f cs -> complete f ->
  let found := filter (fun c => ex (fst c)) cs in
  oc = false \/ (Z.of_nat (List.length found) <= 65535)%Z ->
  (found = [] -> find_all (still ex) oc f false = Fail NoFilesFound)
  /\ (found <> [] -> exists l, find_all (still ex) oc f false = Done l
        /\ List.length l = List.length found
        /\ forall i c, nth_error found i = Some c ->
             nth_error l i = Some (result_of c (Z.of_nat i mod 65536) true)).
Proof.
  intros ex oc f cs HC HF found B. destruct (find_all_still ex f cs HC HF oc false) as (l & [L N] & A & D & _).
  change (selected ex cs false) with found in *.
  split; auto. intros NE. exists l. split; auto. split; auto. intros i c X. destruct (N i c X) as [te Q]. rewrite Q.
  unfold still. apply nth_error_In in X. unfold found in X. apply filter_In in X as [_ X]. now rewrite X.
Qed.
Print Assumptions C41_find_all_returns_the_existing_candidates.

Theorem C41_find_all_with_missing_returns_every_candidate : forall ex oc f cs,
  candidates f cs -> complete f -> oc = false \/ (Z.of_nat (List.length cs) <= 65535)%Z ->
  exists l, find_all (still ex) oc f true = Done l /\ List.length l = List.length cs
    /\ forall i c, nth_error cs i = Some c ->
         nth_error l i = Some (result_of c (Z.of_nat i mod 65536) (ex (fst c))).
Proof.
  intros ex oc f cs HC HF B. destruct (find_all_still ex f cs HC HF oc true) as (l & [L N] & A & D & _).
  change (selected ex cs true) with cs in *. assert (NE := candidates_nonempty f cs HC HF).
  exists l. split; auto. split; auto. intros i c X. destruct (N i c X) as [te Q]. exact Q.
Qed.
Print Assumptions C41_find_all_with_missing_returns_every_candidate.

Example C41_example :
  find_all (still ex_exists) true ex_finder false
  = Done [{| fr_path := lit "/etc/app.json"; fr_extension := ExtCustom (lit "json"); fr_index := 0; fr_exists := true |};
          {| fr_path := lit "/home/u/app.toml"; fr_extension := ExtCustom (lit "toml"); fr_index := 1; fr_exists := true |}].
Proof. reflexivity. Qed.

(** ** C42. *)
Theorem C42_find_all_or_first : forall ex oc f cs, candidates f cs -> complete f ->
  let found := filter (fun c => ex (fst c)) cs in
  oc = false \/ (Z.of_nat (List.length found) <= 65535)%Z ->
  (found <> [] -> find_all_or_first (still ex) oc f = find_all (still ex) oc f false)
  /\ (found = [] -> exists c rest, cs = c :: rest /\
        find_all_or_first (still ex) oc f = Done [result_of c 0 false])
  /\ exists l, find_all_or_first (still ex) oc f = Done l /\ l <> [].
Proof.
  intros ex oc f cs HC HF found B.
  destruct (find_aof_still ex f cs HC HF oc) as (l & N & A & D & _). change (filter (present ex) cs) with found in *.
  destruct (find_all_still ex f cs HC HF oc false) as (l' & N' & A' & D' & _). change (selected ex cs false) with found in *.
  assert (G : found <> [] -> find_all_or_first (still ex) oc f = find_all (still ex) oc f false).
  { intros NE. destruct (searches_agree ex oc f cs l' HC HF) as (r & rest & _ & _ & _ & X); [now apply D'|].
    now rewrite X, D'. }
  split; auto. split; auto. destruct found as [|c found'] eqn:E.
  - destruct (A eq_refl) as (c & rest & _ & R). eexists. split; [exact R | discriminate].
  - exists l. split; [apply D; auto; discriminate|]. destruct N as [L _]. destruct l; discriminate.
Qed.
Print Assumptions C42_find_all_or_first.

Example C42_example :
  find_all_or_first (still (fun _ => false)) true ex_finder
  = Done [{| fr_path := lit "/etc/app.toml"; fr_extension := ExtCustom (lit "toml"); fr_index := 0; fr_exists := false |}].
Proof. reflexivity. Qed.

(** ** C43. *)
Theorem C43_searches_agree_when_files_exist : forall ex oc f cs l, candidates f cs -> complete f ->
  find_all (still ex) oc f false = Done l ->
  exists r rest, l = r :: rest
    /\ (forall allow, exists r', find_first (still ex) f allow = Done r' /\ same_file r' r)
    /\ (forall allow, exists r' r'' init, l = init ++ [r''] /\ find_last (still ex) f allow = Done r' /\ same_file r' r'')
    /\ find_all_or_first (still ex) oc f = Done l.
Proof. exact searches_agree. Qed.
Print Assumptions C43_searches_agree_when_files_exist.

Theorem C43_searches_agree_when_nothing_exists : forall ex oc f cs e, candidates f cs -> complete f ->
  find_all (still ex) oc f false = Fail e ->
  e = NoFilesFound /\ find_first (still ex) f false = Fail NoFilesFound /\ find_last (still ex) f false = Fail NoFilesFound
  /\ exists r, find_first (still ex) f true = Done r /\ fr_exists r = false /\ find_all_or_first (still ex) oc f = Done [r].
Proof. exact searches_agree_none. Qed.
Print Assumptions C43_searches_agree_when_nothing_exists.

Example C43_example :
  complete ex_finder /\ (exists cs, candidates ex_finder cs)
  /\ (exists l, find_all (still ex_exists) true ex_finder false = Done l)
  /\ find_all (still (fun _ => false)) true ex_finder false = Fail NoFilesFound.
Proof.
  split; [split; discriminate|]. split; [apply candidates_exist; intros e He; cbn in He; intros S; repeat (destruct He as [<-|He]; [cbn in S; intuition discriminate|]); destruct He|].
  split; [eexists; reflexivity | reflexivity].
Qed.

(** ** C44. *)
(** Even if files come and go during the search. *)
Theorem C44_indices_count_the_results : forall ex oc f cs allow l,
  candidates f cs -> complete f ->
  find_all ex oc f allow = Done l \/ find_all_or_first ex oc f = Done l ->
  (forall i r, nth_error l i = Some r -> fr_index r = (Z.of_nat i mod 65536)%Z)
  /\ ((Z.of_nat (List.length l) <= 65536)%Z -> forall i r, nth_error l i = Some r -> fr_index r = Z.of_nat i)
  /\ (oc = true -> (Z.of_nat (List.length l) <= 65535)%Z).
Proof.
  intros ex oc f cs allow l HC HF H.
  assert (G : exists found, listed oc found = Done l).
  { destruct H as [H|H].
    - destruct (all_dialogue_exists ex allow cs) as (tr & fo & R & D).
      rewrite (find_all_trace ex f cs HC HF oc allow tr fo D R) in H. exists fo. destruct fo; [discriminate | exact H].
    - destruct (aof_dialogue_exists ex cs) as (tr & fo & R & D).
      rewrite (find_aof_trace ex f cs HC HF oc tr fo D R) in H. eauto. }
  destruct G as [fo G]. unfold listed in G.
  destruct (oc && (65536 <=? Z.of_nat (List.length fo))%Z) eqn:O; [discriminate|]. injection G as <-.
  assert (K : forall i r, nth_error (results 0 fo) i = Some r -> fr_index r = (Z.of_nat i mod 65536)%Z).
  { intros i r X. destruct (nth_error fo i) as [[c b]|] eqn:Y.
    - rewrite (results_nth 0 fo i c b Y) in X. injection X as <-. reflexivity.
    - apply nth_error_None in Y. assert (i < List.length (results 0 fo))%nat by (apply nth_error_Some; congruence).
      rewrite results_length in *. lia. }
  split; [exact K|]. rewrite results_length. split.
  - intros B i r X. rewrite (K i r X). apply Z.mod_small.
    assert (i < List.length (results 0 fo))%nat by (apply nth_error_Some; congruence). rewrite results_length in *. lia.
  - intros ->. cbn in O. apply Z.leb_gt in O. lia.
Qed.
Print Assumptions C44_indices_count_the_results.

(** With overflow checks, 65536 results or more make the search panic. *)
Theorem C44_too_many_results_panic : forall ex f cs, candidates f cs -> complete f ->
  ((65536 <= Z.of_nat (List.length cs))%Z -> find_all (still ex) true f true = Panic)
  /\ ((65536 <= Z.of_nat (List.length (filter (fun c => ex (fst c)) cs)))%Z ->
        find_all (still ex) true f false = Panic /\ find_all_or_first (still ex) true f = Panic).
Proof.
  intros ex f cs HC HF.
  destruct (find_all_still ex f cs HC HF true true) as (l1 & _ & _ & _ & P1).
  destruct (find_all_still ex f cs HC HF true false) as (l2 & _ & _ & _ & P2).
  destruct (find_aof_still ex f cs HC HF true) as (l3 & _ & _ & _ & P3).
  split; [auto|]. intros B. split; [apply P2 | apply P3]; auto.
Qed.
Print Assumptions C44_too_many_results_panic.

Theorem C44_no_overflow_refuted : forall n, (65536 <= Z.of_nat n)%Z ->
  let f := {| ff_folders := [lit "/etc"]; ff_name := lit "app"; ff_exts := List.repeat (lit "toml") n |} in
  complete f /\ (forall e, In e (ff_exts f) -> no_sep e)
  /\ find_all (still (fun _ => false)) true f true = Panic.
Proof.
  intros n B f.
  assert (N : forall e, In e (ff_exts f) -> no_sep e).
  { intros e I. apply repeat_spec in I. subst e. intros J. cbn in J. intuition discriminate. }
  assert (HF : complete f).
  { split; [discriminate|]. intros E. apply (f_equal (fun l => Z.of_nat (List.length l))) in E.
    cbn [f ff_exts] in E. rewrite repeat_length in E. cbn in E. lia. }
  split; [exact HF|]. split; [exact N|].
  destruct (candidates_exist f N) as [cs HC]. apply (C44_too_many_results_panic _ f cs HC HF).
  rewrite (candidates_length f cs HC). cbn [f ff_exts ff_folders List.length]. rewrite repeat_length. lia.
Qed.
Print Assumptions C44_no_overflow_refuted.

(** ** C45. *)
Theorem C45_candidate_path : forall d pre n sub base s e,
  folder_prefix d pre -> (forall r, n <> SEP :: r) -> names_file n sub base -> stem_of base s ->
  no_sep e -> e <> [] ->
  with_extension (path_join d n) e = Some (pre ++ sub ++ s ++ DOT :: e).
Proof. exact candidate_path. Qed.
Print Assumptions C45_candidate_path.

(** For a plain name (no separator, no dot except possibly the first character)
    the candidate is folder/name.ext. *)
Theorem C45_plain_name : forall d pre c n e, folder_prefix d pre ->
  no_sep (c :: n) -> no_dot n -> c :: n <> [DOT] -> no_sep e -> e <> [] ->
  with_extension (path_join d (c :: n)) e = Some (pre ++ (c :: n) ++ DOT :: e).
Proof.
  intros d pre c n e P Ns Nd N1 Se Ne.
  apply (candidate_path d pre (c :: n) [] (c :: n) (c :: n) e); auto; [| |now constructor].
  - intros r X. injection X as -> _. apply Ns; left; auto.
  - exists []. rewrite app_nil_r. split; auto. split; [left; auto|]. split; [constructor|]. split; auto.
    split; [discriminate|]. split; auto. intros X. injection X as -> ->. apply Nd; left; auto.
Qed.
Print Assumptions C45_plain_name.

(** A name with an interior dot loses what follows its last dot ... *)
Theorem C45_dotted_name : forall d pre s x e, folder_prefix d pre ->
  no_sep (s ++ DOT :: x) -> s <> [] -> s ++ DOT :: x <> [DOT; DOT] -> no_dot x -> no_sep e -> e <> [] ->
  with_extension (path_join d (s ++ DOT :: x)) e = Some (pre ++ s ++ DOT :: e).
Proof.
  intros d pre s x e P Ns Es N2 Nd Se Ne.
  apply (candidate_path d pre (s ++ DOT :: x) [] (s ++ DOT :: x) s e); auto; [| |now constructor].
  - intros r X. apply Ns. rewrite X. left; auto.
  - exists []. rewrite app_nil_r. split; auto. split; [left; auto|]. split; [constructor|]. split; auto.
    split; [destruct s; discriminate|]. split; auto. intros X. destruct s as [|y [|? ?]]; [contradiction | discriminate X | discriminate X].
Qed.
Print Assumptions C45_dotted_name.

(** ... so "app.dev" and "app.prod" share one candidate, against "name.ext". *)
Theorem C45_name_dot_ext_refuted :
  with_extension (path_join (lit "/etc") (lit "app.dev")) (lit "toml") = Some (lit "/etc/app.toml")
  /\ with_extension (path_join (lit "/etc") (lit "app.prod")) (lit "toml") = Some (lit "/etc/app.toml").
Proof. split; reflexivity. Qed.
Print Assumptions C45_name_dot_ext_refuted.

(** The empty name leaves the folder; ".." never gets the extension. *)
Theorem C45_empty_name : forall d dd dn s e, names_file d dd dn -> stem_of dn s -> no_sep e -> e <> [] ->
  with_extension (path_join d []) e = Some (dd ++ s ++ DOT :: e).
Proof. exact candidate_empty_name. Qed.
Print Assumptions C45_empty_name.
Theorem C45_dotdot_name : forall d pre e, folder_prefix d pre -> no_sep e ->
  with_extension (path_join d [DOT; DOT]) e = Some (pre ++ [DOT; DOT]).
Proof. exact candidate_dotdot. Qed.
Print Assumptions C45_dotdot_name.

(** An extension containing a separator makes the search panic. *)
Theorem C45_separator_in_extension_panics : forall ex oc f e rest, complete f ->
  ff_exts f = e :: rest -> ~ no_sep e ->
  forall allow, find_first ex f allow = Panic /\ find_last ex f allow = Panic
    /\ find_all ex oc f allow = Panic /\ find_all_or_first ex oc f = Panic.
Proof.
  intros ex oc f e rest HF E N allow. unfold find_first, find_last, find_all, find_all_or_first.
  rewrite (validate_complete f HF), E. destruct HF as [HD _]. destruct (ff_folders f) as [|d ds]; [contradiction|].
  assert (W : with_extension (path_join d (ff_name f)) e = None) by now apply with_extension_sep.
  cbn [of_result obind find_first_folders find_first_exts find_last_folders find_last_exts find_all_folders
       find_all_exts find_aof_folders find_aof_exts].
  rewrite W. auto.
Qed.
Print Assumptions C45_separator_in_extension_panics.

Example C45_example : folder_prefix (lit "/etc") (lit "/etc/") /\ folder_prefix (lit "/etc/") (lit "/etc/")
  /\ names_file (lit "sub/.app") (lit "sub/") (lit ".app") /\ stem_of (lit ".app") (lit ".app")
  /\ stem_of (lit "a.b.c") (lit "a.b")
  /\ with_extension (path_join (lit "/etc") (lit "sub/.app")) (lit "toml") = Some (lit "/etc/sub/.app.toml").
Proof.
  split; [right; right; split; [discriminate|]; split; [|reflexivity]|].
  - intros d' X. apply (f_equal (@rev _)) in X. rewrite rev_app_distr in X. vm_compute in X. discriminate.
  - split; [right; left; exists (lit "/etc"); split; reflexivity|]. split.
    + exists []. split; [reflexivity|]. split; [right; exists (lit "sub"); reflexivity|]. split; [constructor|].
      split; [intros J; cbn in J; intuition discriminate|]. repeat split; discriminate.
    + split; [constructor; intros J; cbn in J; intuition discriminate|]. split; [|reflexivity].
      apply (StemCut (lit "a.b") (lit "c")); [discriminate | intros J; cbn in J; intuition discriminate].
Qed.

(** ** C46.  [ex] answers the n-th existence check of the search: the file
    system may change arbitrarily between two checks. *)
Theorem C46_find_first_under_changes : forall ex f cs allow, candidates f cs -> complete f ->
  (exists before c after ts tc te, cs = before ++ c :: after /\ observed ex before ts []
     /\ increasing 0 (ts ++ [tc; te]) /\ ex tc (fst c) = true
     /\ find_first ex f allow = Done (result_of c 0 (ex te (fst c))))
  \/ (exists ts, observed ex cs ts [] /\ increasing 0 ts /\
        if allow then exists c rest te, cs = c :: rest /\ find_first ex f allow = Done (result_of c 0 (ex te (fst c)))
        else find_first ex f allow = Fail NoFilesFound).
Proof. exact (fun ex f cs allow HC HF => find_first_oracle ex f cs HC HF allow). Qed.
Print Assumptions C46_find_first_under_changes.

Theorem C46_find_last_under_changes : forall ex f cs allow, candidates f cs -> complete f ->
  (exists before c after tsb found tc te tsa, cs = before ++ c :: after
     /\ observed ex before tsb found /\ observed ex after tsa [] /\ increasing 0 (tsb ++ tc :: te :: tsa)
     /\ ex tc (fst c) = true /\ find_last ex f allow = Done (result_of c 0 (ex te (fst c))))
  \/ (exists ts, observed ex cs ts [] /\ increasing 0 ts /\
        if allow then exists before c te, cs = before ++ [c] /\ find_last ex f allow = Done (result_of c 0 (ex te (fst c)))
        else find_last ex f allow = Fail NoFilesFound).
Proof. exact (fun ex f cs allow HC HF => find_last_oracle ex f cs HC HF allow). Qed.
Print Assumptions C46_find_last_under_changes.

Theorem C46_find_all_under_changes : forall ex f cs, candidates f cs -> complete f ->
  forall oc, exists ts found, observed ex cs ts found /\ increasing 0 ts
    /\ (found = [] -> find_all ex oc f false = Fail NoFilesFound)
    /\ (found <> [] -> oc = false \/ (Z.of_nat (List.length found) <= 65535)%Z -> exists l, find_all ex oc f false = Done l /\ numbered ex found l).
Proof.
  intros ex f cs HC HF oc. destruct (find_all_oracle ex f cs HC HF oc false) as (ts & sel & l & [O I] & N & A & D & _).
  exists ts, sel. do 3 (split; auto). intros NE B. exists l. auto.
Qed.
Print Assumptions C46_find_all_under_changes.

Theorem C46_find_all_or_first_under_changes : forall ex f cs, candidates f cs -> complete f ->
  forall oc, exists ts found, observed ex cs ts found /\ increasing 0 ts
    /\ (found = [] -> exists c rest te, cs = c :: rest /\ find_all_or_first ex oc f = Done [result_of c 0 (ex te (fst c))])
    /\ (found <> [] -> oc = false \/ (Z.of_nat (List.length found) <= 65535)%Z -> exists l, find_all_or_first ex oc f = Done l /\ numbered ex found l).
Proof.
  intros ex f cs HC HF oc. destruct (find_aof_oracle ex f cs HC HF oc) as (ts & sel & l & O & I & N & A & D & _).
  exists ts, sel. do 3 (split; auto). intros NE B. exists l. auto.
Qed.
Print Assumptions C46_find_all_or_first_under_changes.

(** A file that vanishes right after being seen: the result says so. *)
Example C46_example :
  find_first (fun n _ => Nat.eqb n 1) ex_finder false
  = Done {| fr_path := lit "/etc/app.json"; fr_extension := ExtCustom (lit "json"); fr_index := 0; fr_exists := false |}.
Proof. reflexivity. Qed.

(** ** C47. *)
Theorem C47_every_result_is_a_candidate : forall ex oc f cs allow r, candidates f cs -> complete f ->
  find_first ex f allow = Done r \/ find_last ex f allow = Done r
  \/ (exists l, (find_all ex oc f allow = Done l \/ find_all_or_first ex oc f = Done l) /\ In r l) ->
  exists c i b, In c cs /\ r = result_of c i b.
Proof. exact results_are_candidates. Qed.
Print Assumptions C47_every_result_is_a_candidate.

Theorem C47_extension_names_the_searched_extension : forall c i b, snd c <> lit ".toml" ->
  ext_as_str (fr_extension (result_of c i b)) = snd c
  /\ forall p, ext_match_path (fr_extension (result_of c i b)) p = false.
Proof. exact (fun c i b N => conj (as_str_from (snd c) N) (fun p => custom_never_matches (snd c) p N)). Qed.
Print Assumptions C47_extension_names_the_searched_extension.

(** Searching ".toml" gives the built-in kind: it is called "toml" and
    matches exactly the paths with the extension toml; the shorthands add the
    extension "toml". *)
Theorem C47_builtin_toml : forall c i b, snd c = lit ".toml" ->
  ext_as_str (fr_extension (result_of c i b)) = lit "toml"
  /\ forall p, ext_match_path (fr_extension (result_of c i b)) p = true <-> has_extension p (lit "toml").
Proof.
  intros [q ext] i b E. cbn [snd] in E. subst ext. split; [reflexivity|]. intros p.
  change (fr_extension _) with ExtToml. unfold ext_match_path. rewrite <- extension_iff.
  destruct (extension p) as [x|]; [|split; discriminate]. rewrite str_eqb_eq. split; [congruence | intros [= ->]; reflexivity].
Qed.
Print Assumptions C47_builtin_toml.
Theorem C47_toml_shorthands : forall f,
  finder_with_toml f = finder_with_extension f (lit "toml")
  /\ finder_with_supported f = finder_with_extension f (lit "toml").
Proof. intros f. split; reflexivity. Qed.
Print Assumptions C47_toml_shorthands.

(** "match_path holds for built-in extensions" is false: for every search of
    the supported extension toml, the result's path has the extension toml and
    the result's own extension does not match it. *)
Theorem C47_match_path_refuted : forall d pre n sub base s i b,
  folder_prefix d pre -> (forall r, n <> SEP :: r) -> names_file n sub base -> stem_of base s ->
  exists p, with_extension (path_join d n) (lit "toml") = Some p
    /\ has_extension p (lit "toml") /\ ext_match_path ExtToml p = true
    /\ ext_match_path (fr_extension (result_of (p, lit "toml") i b)) p = false.
Proof.
  intros d pre n sub base s i b P R N S.
  assert (Se : no_sep (lit "toml")) by (intros J; cbn in J; intuition discriminate).
  assert (Sd : no_dot (lit "toml")) by (intros J; cbn in J; intuition discriminate).
  exists (pre ++ sub ++ s ++ DOT :: lit "toml").
  assert (H : has_extension (pre ++ sub ++ s ++ DOT :: lit "toml") (lit "toml"))
    by (eapply candidate_has_extension; eauto; discriminate).
  split; [eapply candidate_path; eauto; discriminate|]. split; auto. split; [|reflexivity].
  apply extension_iff in H. unfold ext_match_path. rewrite H. reflexivity.
Qed.
Print Assumptions C47_match_path_refuted.

Example C47_example :
  fr_extension (result_of (lit "/etc/app.toml", lit "toml") 0 true) = ExtCustom (lit "toml")
  /\ ext_from (lit ".toml") = ExtToml /\ ext_as_str (ext_from (lit ".toml")) = lit "toml".
Proof. repeat split. Qed.

(** ** C48. *)
Theorem C48_unresolvable_directories_are_skipped : forall pf ds ps, resolved pf ds ps -> forall f,
  fold_left (finder_with_os_dir pf) ds f
  = {| ff_folders := ff_folders f ++ ps; ff_name := ff_name f; ff_exts := ff_exts f |}.
Proof. exact os_dirs_folders. Qed.
Print Assumptions C48_unresolvable_directories_are_skipped.

Theorem C48_resolution_is_a_function : forall pf ds,
  (exists ps, resolved pf ds ps) /\ (forall ps ps', resolved pf ds ps -> resolved pf ds ps' -> ps = ps').
Proof. exact (fun pf ds => conj (resolved_total pf ds) (resolved_fun pf ds)). Qed.
Print Assumptions C48_resolution_is_a_function.

(** Without base directories (no home) not even an explicit path resolves. *)
Theorem C48_nothing_resolves_without_base_directories : forall pf ds f, pf_base pf = None ->
  fold_left (finder_with_os_dir pf) ds f = f.
Proof.
  intros pf ds f N. induction ds as [|d ds IH]; cbn; auto.
  assert (E : finder_with_os_dir pf f d = f) by (unfold finder_with_os_dir, to_path_buf; now rewrite N).
  now rewrite E.
Qed.
Print Assumptions C48_nothing_resolves_without_base_directories.

Example C48_example :
  let pf := {| pf_base := Some {| bd_home := lit "/home/u"; bd_config := lit "/home/u/.config"; bd_pref := lit "/home/u/.config" |};
               pf_cwd := None |} in
  resolved pf [WorkingDirectory; AppConfig (lit "app"); DirPath (lit "/etc")] [lit "/home/u/.config/app"; lit "/etc"].
Proof.
  cbv zeta. apply ResolvedSkip.
  - intros p (b & E & H). inversion H as [q Q| | | | | |]; discriminate.
  - apply ResolvedKeep; [eexists; split; [reflexivity|]; apply OsAppConfig|].
    apply ResolvedKeep; [eexists; split; [reflexivity|]; apply OsPath | constructor].
Qed.
