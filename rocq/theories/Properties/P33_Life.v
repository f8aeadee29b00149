(** C110: configuration files in the long run. *)
From Coq Require Import ZArith Bool Permutation String Lia.
From Coq Require Import List.
Import ListNotations.
From Verif.Model Require Import Text Value Merge Paths Finder World Layers Config Macro.
From Verif.Spec Require Import Spec ConfigSpec EnvSpec PathSpec ReadsSpec MacroSpec StartSpec LifeSpec.
From Verif.Proofs Require Import Basics PathLemmas Files Utf8 ConfigBuild MacroProofs StartProofs LifeProofs.

(** A file that exists keeps its content (also half-written content) over any
    history of starts, crashed starts, and writes elsewhere. *)
Theorem C110_an_existing_file_keeps_its_content : forall tc q w es w', life_sparing tc q w es w' -> ~ missing w q -> w_fs w' q = w_fs w q.
Proof. intros tc q w es w'. apply life_existing. Qed.
Print Assumptions C110_an_existing_file_keeps_its_content.

(** A file that has changed was created by one start (or crash) of the history,
    with that start's defaults, and is since then unchanged. *)
Theorem C110_a_file_keeps_the_defaults_it_was_created_with : forall tc q w es w', life_sparing tc q w es w' ->
  w_fs w' q = w_fs w q \/
  exists before e after w1 w2, es = before ++ e :: after /\ life_sparing tc q w before w1 /\ spares tc q w1 e w2 /\ life_sparing tc q w2 after w'
    /\ missing w1 q /\ created_by tc q e w1 w2 /\ w_fs w' q = w_fs w2 q.
Proof. intros tc q w es w'. apply life_origin. Qed.
Print Assumptions C110_a_file_keeps_the_defaults_it_was_created_with.

(** Once every program has been started, further starts, in any order, change
    nothing at all. *)
Theorem C110_starts_settle : forall tc w mss w1 mss' w2, starts tc w mss w1 -> (forall m, In m mss' -> In m mss) -> starts tc w1 mss' w2 -> w2 = w1.
Proof. intros tc w mss w1 mss' w2 S H S'. eapply starts_settle; eauto. Qed.
Print Assumptions C110_starts_settle.
(** Also if files were added or changed in between (none removed). *)
Theorem C110_a_restart_changes_nothing : forall tc ms w cfg w1 w2 cfg' w3, distinct_names ms -> create_config tc ms w = Done (cfg, w1) ->
  nothing_removed w1 w2 -> create_config tc ms w2 = Done (cfg', w3) -> w3 = w2.
Proof. exact settled. Qed.
Print Assumptions C110_a_restart_changes_nothing.

(** A key in a file that an earlier version created from its defaults keeps that
    version's default, whatever the new version's default is. *)
Theorem C110_old_defaults_outlive_an_upgrade : forall tc q w s m es w1 ms cfg w2 v f1 n f2 k x,
  w_fs w q = Some (NFile (utf8_encode s)) -> is_text s = true -> toml_from_str tc s = Ok m ->
  life_sparing tc q w es w1 -> w_can_read w1 q = true ->
  distinct_start ms -> proper_defaults ms -> proper_codec tc ->
  create_config tc ms w1 = Done (cfg, w2) -> file_layers tc ms w1 w2 (f1 ++ (n, q) :: f2) -> build_value w2 cfg true = Ok v ->
  (forall s', ~ env_gives ms w1 k s') -> holds m k x -> ~ mapv x ->
  (forall n' p' m', In (n', p') f2 -> file_answer tc w2 p' (Ok m') -> lacks m' k) ->
  holds v k x.
Proof.
  intros tc q w s m es w1 ms cfg w2 v f1 n f2 k x F T R L CR D PD PC E FL B NE H NM LK.
  assert (Dn : distinct_names ms).
  { unfold distinct_start in D. unfold distinct_names. inversion D as [|? ? A1 A2]; subst. inversion A2; subst. constructor; auto. intros X. apply A1. right; auto. }
  assert (F1 : w_fs w1 q = Some (NFile (utf8_encode s))) by (rewrite <- F; eapply life_existing; eauto; unfold missing; congruence).
  assert (F2 : w_fs w2 q = Some (NFile (utf8_encode s))).
  { rewrite <- F1. eapply (spares_existing tc q w1 (EvStart ms) w2); [econstructor; eauto | unfold missing; congruence]. }
  eapply start_last_file; eauto. eapply AnsValue; eauto; [|now apply utf8_of_text].
  destruct (start_removes_nothing _ _ _ _ _ Dn E) as [(_ & _ & _ & C & _) _]. now rewrite C.
Qed.
Print Assumptions C110_old_defaults_outlive_an_upgrade.

(** Version 1 has the default x = 1, version 2 has x = 2. *)
Definition lf_codec : codec :=
  {| toml_from_str := fun s => if str_eqb s (lit "x = 1") then Ok (VMap [(lit "x", VInt 1)])
       else if str_eqb s (lit "x = 2") then Ok (VMap [(lit "x", VInt 2)])
       else if str_eqb s [] then Ok (VMap []) else Err (lit "bad");
     toml_to_string := fun v => match v with VMap [(_, VInt 1)] => Ok (lit "x = 1") | VMap [(_, VInt 2)] => Ok (lit "x = 2") | _ => Err (lit "no") end |}.
Definition lf_world : world :=
  {| w_files := fun p => None; w_target := fun p => p; w_can_read := fun _ => true; w_can_open := fun p => true;
     w_room := fun _ => None; w_env := []; w_platform := {| pf_base := Some {| bd_home := lit "/h"; bd_config := lit "/k"; bd_pref := lit "/p" |}; pf_cwd := None |} |}.
Definition lf_clause : layer_spec := {| ls_name := lit "user"; ls_dirs := [DirPath (lit "/c")]; ls_init := Some true |}.
Definition lf_version (n : Z) : macro_spec :=
  {| ms_file_name := lit "app"; ms_default := [(lit "x", VInt n)]; ms_env := None; ms_layers := [lf_clause] |}.

(** Refuted: "a new version's default takes effect where the user changed nothing". *)
Theorem C110_a_new_default_takes_effect_refuted : exists tc w cfg1 w1 cfg2 w2 v,
  create_config tc (lf_version 1) w = Done (cfg1, w1) /\ create_config tc (lf_version 2) w1 = Done (cfg2, w2) /\
  last_binding (ms_default (lf_version 2)) (lit "x") (VInt 2) /\ build_value w2 cfg2 false = Ok v /\ holds v (lit "x") (VInt 1).
Proof.
  exists lf_codec, lf_world. do 4 eexists. exists (VMap [(lit "x", VInt 1)]). split; [reflexivity|]. split; [reflexivity|]. split.
  - exists [], []. split; [reflexivity|]. cbn. tauto.
  - split; [reflexivity|]. eexists. split; [reflexivity|]. left; reflexivity.
Qed.
Print Assumptions C110_a_new_default_takes_effect_refuted.


(** Version 1 starts, another program writes elsewhere, version 2 starts. *)
Definition lf_w1 : world := set_node lf_world (lit "/c/app.toml") (NFile (utf8_encode (lit "x = 1"))).
Definition lf_es : list event := [EvStart (lf_version 1); EvWrite (lit "/d/other.toml") (VMap [(lit "x", VInt 2)]); EvOther].
Lemma lf_names n : distinct_names (lf_version n).
Proof. repeat constructor; cbn; intuition discriminate. Qed.
Lemma lf_start : exists cfg, create_config lf_codec (lf_version 1) lf_world = Done (cfg, lf_w1).
Proof. eexists. reflexivity. Qed.
Lemma lf_again : exists cfg, create_config lf_codec (lf_version 2) lf_w1 = Done (cfg, lf_w1) /\ build_value lf_w1 cfg true = Ok (VMap [(lit "x", VInt 1)]).
Proof. eexists. split; reflexivity. Qed.
Example C110_example : exists cfg w2,
  starts lf_codec lf_world [lf_version 1; lf_version 2] lf_w1
  /\ spares lf_codec (lit "/c/app.toml") lf_world (EvStart (lf_version 1)) lf_w1
  /\ created_by lf_codec (lit "/c/app.toml") (EvStart (lf_version 1)) lf_world lf_w1
  /\ life_sparing lf_codec (lit "/c/app.toml") lf_world lf_es w2
  /\ w_fs lf_w1 (lit "/c/app.toml") = Some (NFile (utf8_encode (lit "x = 1"))) /\ is_text (lit "x = 1") = true
  /\ toml_from_str lf_codec (lit "x = 1") = Ok (VMap [(lit "x", VInt 1)]) /\ w_can_read lf_w1 (lit "/c/app.toml") = true
  /\ distinct_start (lf_version 2) /\ proper_defaults (lf_version 2) /\ proper_codec lf_codec
  /\ create_config lf_codec (lf_version 2) lf_w1 = Done (cfg, lf_w1)
  /\ file_layers lf_codec (lf_version 2) lf_w1 lf_w1 [(lit "user", lit "/c/app.toml")]
  /\ build_value lf_w1 cfg true = Ok (VMap [(lit "x", VInt 1)]).
Proof.
  destruct lf_start as (c1 & E1). destruct lf_again as (c2 & E2 & B).
  exists c2, (set_node lf_w1 (lit "/d/other.toml") (NFile (utf8_encode (lit "x = 2")))).
  assert (CC : forall w, w_platform w = w_platform lf_world -> clause_candidates w (lit "app") lf_clause [lit "/c/app.toml"]).
  { intros w P. exists [lit "/c"], [(lit "/c/app.toml", lit "toml")]. rewrite P. split; [repeat constructor; eexists; split; [reflexivity | constructor]|]. split; [repeat constructor | reflexivity]. }
  assert (X : has_extension (lit "/c/app.toml") (lit "toml")) by (apply extension_iff; reflexivity).
  split; [econstructor; [apply lf_names | exact E1 | econstructor; [apply lf_names | exact E2 | constructor]]|].
  split; [econstructor; [apply lf_names | exact E1]|]. split.
  { exists (lf_version 1), (VMap [(lit "x", VInt 1)]). split; auto. split; [reflexivity|]. split; [reflexivity|].
    exists lf_clause, (lit "/c/app.toml"), [], (lit "x = 1"), 5%nat. split; [left; reflexivity|]. split; [reflexivity|]. split; [apply CC; reflexivity|].
    split; [intros x [<-|[]]; reflexivity|]. split; [apply extension_iff; reflexivity|]. split; [reflexivity|]. split; [reflexivity|]. reflexivity. }
  split.
  { econstructor; [econstructor; [apply lf_names | exact E1]|]. econstructor; [|econstructor; [|constructor]].
    - econstructor; [intros Y; discriminate Y | reflexivity].
    - apply SpOther. reflexivity. }
  split; [reflexivity|]. split; [reflexivity|]. split; [reflexivity|]. split; [reflexivity|].
  split; [repeat constructor; cbn; intuition discriminate|]. split; [intros k x [[= <- <-]|[]]; split; reflexivity|].
  split.
  { intros t v H. cbn [toml_from_str lf_codec] in H.
    destruct (str_eqb t (lit "x = 1")); [assert (v = VMap [(lit "x", VInt 1)]) as -> by congruence; cbn; repeat split; repeat constructor; cbn; tauto|].
    destruct (str_eqb t (lit "x = 2")); [assert (v = VMap [(lit "x", VInt 2)]) as -> by congruence; cbn; repeat split; repeat constructor; cbn; tauto|].
    destruct (str_eqb t []); [assert (v = VMap []) as -> by congruence; cbn; repeat constructor | discriminate H]. }
  split; [exact E2|]. split; [|exact B].
  exists (VMap [(lit "x", VInt 2)]). split; [reflexivity|]. eapply RunAdd; [exists [lit "/c/app.toml"]; split; [apply CC; reflexivity|]; split; [apply (ChosenExisting _ [] _ []); [intros q [] | discriminate] | exact X] | intros [_ Y]; discriminate Y | constructor].
Qed.
