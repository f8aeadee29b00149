(** C75, C76: a world shared with other processes.  [others n] is what the other
    processes do to the world right before our n-th access to it; it is
    arbitrary. *)
From Coq Require Import ZArith Bool String Lia Permutation.
From Coq Require Import List.
Import ListNotations.
From Verif.Model Require Import Text Value Merge Paths Finder World Layers Config Macro Concurrent.
From Verif.Spec Require Import Spec ConfigSpec FinderSpec PathSpec MacroSpec EnvSpec ConcurrentSpec.
From Verif.Proofs Require Import Basics ConfigBuild Files MacroProofs ConcurrentProofs.
Open Scope nat_scope.

(** ** C75: building while others write *)
Theorem C75_alone_it_is_the_sequential_build : forall s c skip,
  snd (c_build_value alone s c skip) = build_value (r_world s) c skip.
Proof. exact alone_build. Qed.
Print Assumptions C75_alone_it_is_the_sequential_build.

(** The layers are read one after the other, each at one moment of its own, and
    the result is that of layers holding for ever what was read then; only a
    strict build that fails leaves layers unread. *)
Theorem C75_each_layer_is_read_at_one_moment : forall others w c r skip s' res, registered c r ->
  c_build_value others (run_start w) c skip = (s', res) ->
  exists done rest xs, r = done ++ rest /\ in_turn (moment others w) 0 done xs
    /\ (forall w0 c0 fr, frozen done xs fr -> registered c0 fr -> build_value w0 c0 skip = res)
    /\ (rest = [] \/ skip = false /\ exists e, res = Err e).
Proof. exact c_build_turn. Qed.
Print Assumptions C75_each_layer_is_read_at_one_moment.

Theorem C75_such_layers_exist : forall h t ls xs, NoDup (map fst ls) -> in_turn h t ls xs ->
  exists c0 fr, frozen ls xs fr /\ registered c0 fr.
Proof.
  intros h t ls xs D T. destruct (frozen_exists ls xs (in_turn_length _ _ _ _ T)) as (fr & F).
  exists {| layers_names := map fst fr; layers := fr |}, fr. split; [exact F|]. split; [reflexivity|].
  split; [now rewrite (proj1 F) | apply Permutation_refl].
Qed.
Print Assumptions C75_such_layers_exist.

Theorem C75_a_lenient_build_never_fails : forall others s c r, registered c r ->
  exists v, snd (c_build_value others s c true) = Ok v.
Proof. exact c_build_lenient. Qed.
Print Assumptions C75_a_lenient_build_never_fails.

(** Two files that change together. *)
Definition cx_codec : codec :=
  {| toml_from_str := fun s =>
       if str_eqb s (lit "a1") then Ok (VMap [(lit "a", VInt 1)])
       else if str_eqb s (lit "a2") then Ok (VMap [(lit "a", VInt 2)])
       else if str_eqb s (lit "b1") then Ok (VMap [(lit "b", VInt 1)])
       else if str_eqb s (lit "b2") then Ok (VMap [(lit "b", VInt 2)]) else Err (lit "bad");
     toml_to_string := fun v => match v with VMap [(_, VInt 1)] => Ok (lit "a1") | _ => Err (lit "no") end |}.
Definition cx_fs (a b : str) : path -> option node := fun p =>
  if str_eqb p (lit "a.toml") then Some (NFile a) else if str_eqb p (lit "b.toml") then Some (NFile b) else None.
Definition cx_world (fs : path -> option node) : world :=
  {| w_files := fs; w_target := fun p => p; w_can_read := fun _ => true; w_can_open := fun _ => true; w_room := fun _ => None;
     w_env := []; w_platform := {| pf_base := Some {| bd_home := lit "/h"; bd_config := lit "/c"; bd_pref := lit "/p" |}; pf_cwd := None |} |}.
Definition cx_old := cx_world (cx_fs (lit "a1") (lit "b1")).
Definition cx_new := cx_world (cx_fs (lit "a2") (lit "b2")).
Definition cx_layers : list (str * layer) :=
  [(lit "a", LFile (toml_handler cx_codec) (lit "a.toml")); (lit "b", LFile (toml_handler cx_codec) (lit "b.toml"))].
Definition cx_config : config := {| layers_names := map fst cx_layers; layers := cx_layers |}.
Lemma cx_registered : registered cx_config cx_layers.
Proof. split; [reflexivity|]. split; [repeat constructor; cbn; intuition discriminate | apply Permutation_refl]. Qed.

(** "The result is the configuration at some moment" is false. *)
Theorem C75_the_result_is_a_snapshot_refuted : exists others w c r s' v, registered c r
  /\ c_build_value others (run_start w) c false = (s', Ok v)
  /\ forall i, exists v', build_value (moment others w i) c false = Ok v' /\ ~ vequiv v v'.
Proof.
  set (others := fun n (w : world) => if Nat.ltb n 2 then cx_old else cx_new).
  exists others, cx_old, cx_config, cx_layers. do 2 eexists. split; [exact cx_registered|]. split; [reflexivity|].
  intros i. assert (M : moment others cx_old i = cx_old \/ moment others cx_old i = cx_new).
  { destruct i as [|[|i]]; [left; reflexivity | left; reflexivity | right; reflexivity]. }
  destruct M as [->| ->]; (eexists; split; [reflexivity|]); intros V; inversion V as [|? ? ?|m m' H _]; subst;
    try (match goal with X : scalarv _ |- _ => destruct X end).
  - destruct (H (lit "b") (VInt 2)) as (y & [Y|[Y|[]]] & E); [right; left; reflexivity | discriminate Y |].
    injection Y as <-. inversion E.
  - destruct (H (lit "a") (VInt 1)) as (y & [Y|[Y|[]]] & E); [left; reflexivity | | discriminate Y].
    injection Y as <-. inversion E.
Qed.
Print Assumptions C75_the_result_is_a_snapshot_refuted.

(** "A missing file never makes a strict build fail" is false when the file goes
    missing between the check and the read. *)
Theorem C75_a_missing_file_is_never_an_error_refuted : exists others w c r s', registered c r
  /\ c_build_value others (run_start w) c false = (s', Err (BIo IoNotFound))
  /\ forall i, exists v, build_value (moment others w i) c false = Ok v.
Proof.
  set (others := fun n (w : world) => if Nat.ltb n 1 then cx_old else cx_world (fun _ => None)).
  exists others, cx_old, cx_config, cx_layers. eexists. split; [exact cx_registered|]. split; [reflexivity|].
  intros i. assert (M : moment others cx_old i = cx_old \/ moment others cx_old i = cx_world (fun _ => None)).
  { destruct i as [|i]; [left; reflexivity | right; reflexivity]. }
  destruct M as [->| ->]; eexists; reflexivity.
Qed.
Print Assumptions C75_a_missing_file_is_never_an_error_refuted.

(** ** C76: create_config! while others write *)
Theorem C76_alone_it_is_the_sequential_run : forall tc ms s cfg w',
  create_config tc ms (r_world s) = Done (cfg, w') ->
  exists s', c_create_config alone tc ms s = Done (cfg, s') /\ r_world s' = w'.
Proof.
  intros tc ms s cfg w' E. pose proof (alone_create tc ms s) as A. rewrite E in A.
  destruct (c_create_config alone tc ms s) as [[c s']|e|]; cbn in A; try contradiction.
  destruct A as [-> A]. eauto.
Qed.
Print Assumptions C76_alone_it_is_the_sequential_run.

Theorem C76_writes_only_what_was_just_missing : forall others tc ms w dv, distinct_names ms ->
  value_map_macro (ms_default ms) = Done dv ->
  exists cfg s r, c_create_config others tc ms (run_start w) = Done (cfg, s) /\ registered cfg r
    /\ (exists new, map fst r = lit "default" :: new /\ incl new (map ls_name (ms_layers ms) ++ [lit "environment"]))
    /\ forall e, In e (r_log s) -> honest_write others tc dv (ms_layers ms) e.
Proof.
  intros others tc ms w dv D V. destruct (c_create_run others tc ms w dv D V) as (cfg & s & r & E & R & N & C).
  exists cfg, s, r. split; [exact E|]. split; [exact R|]. split; [exact N|]. intros e He.
  destruct (clauses_honest _ _ _ _ _ _ _ C e He) as [[]|H]; exact H.
Qed.
Print Assumptions C76_writes_only_what_was_just_missing.

(** A file that is there from the start, that nobody removes and to which nobody
    redirects another path is not written, whatever others do to its contents. *)
Theorem C76_a_file_that_stays_is_never_written : forall others tc ms w dv cfg s q, distinct_names ms ->
  value_map_macro (ms_default ms) = Done dv -> c_create_config others tc ms (run_start w) = Done (cfg, s) ->
  ~ missing w q -> never_remove others q -> never_redirect others q ->
  forall e p, In e (r_log s) -> we_layer e = LFile (toml_handler tc) p -> ~ same_file (we_before e) p q.
Proof.
  intros others tc ms w dv cfg s q D V E P NR NL e p He L Sf.
  destruct (c_create_run others tc ms w dv D V) as (cfg' & s' & r & E' & _ & _ & C). rewrite E in E'. injection E' as <- <-.
  refine (proj2 (clauses_present _ _ _ _ q _ _ _ NR C P) e p He L _).
  destruct (clauses_honest _ _ _ _ _ _ _ C e He) as [[]|(p' & ls & n & _ & _ & _ & _ & B & _)].
  rewrite B in Sf. exact (NL _ _ _ Sf).
Qed.
Print Assumptions C76_a_file_that_stays_is_never_written.

(** A path nobody else touches ends up as it was, or was missing and now holds
    (the beginning of) the defaults. *)
Theorem C76_a_path_left_alone_is_kept_or_initialised : forall others tc ms w dv cfg s q, distinct_names ms ->
  value_map_macro (ms_default ms) = Done dv -> c_create_config others tc ms (run_start w) = Done (cfg, s) ->
  leave_alone others q -> never_redirect others q ->
  w_fs (r_world s) q = w_fs w q \/ missing w q /\ holds_defaults tc dv (r_world s) q.
Proof.
  intros others tc ms w dv cfg s q D V E LA NL.
  destruct (c_create_run others tc ms w dv D V) as (cfg' & s' & r & E' & _ & _ & C). rewrite E in E'. injection E' as <- <-.
  exact (clauses_alone _ _ _ _ q _ _ _ LA NL C).
Qed.
Print Assumptions C76_a_path_left_alone_is_kept_or_initialised.

Definition cx_macro : macro_spec :=
  {| ms_file_name := lit "app"; ms_default := [(lit "a", VInt 1)]; ms_env := Some (lit "APP_");
     ms_layers := [{| ls_name := lit "user"; ls_dirs := [DirPath (lit "/n")]; ls_init := Some true |}] |}.
Lemma cx_distinct : distinct_names cx_macro.
Proof. unfold distinct_names. cbn. repeat constructor; cbn; intuition discriminate. Qed.

(** Another process makes /n/app.toml a link to b.toml. *)
Definition cx_link (u : world) : world :=
  {| w_files := w_files u; w_target := fun p => if str_eqb p (lit "/n/app.toml") then w_target u (lit "b.toml") else w_target u p;
     w_can_read := w_can_read u; w_can_open := w_can_open u; w_room := w_room u; w_env := w_env u; w_platform := w_platform u |}.

(** "Existing files are never overwritten" is false when another process creates
    the file between the check and the write. *)
Theorem C76_files_of_others_are_safe_refuted : exists others tc ms w cfg s p bs bs', distinct_names ms
  /\ c_create_config others tc ms (run_start w) = Done (cfg, s)
  /\ (forall n u q, ~ same_file u p q -> w_fs (others n u) q = w_fs u q) /\ never_remove others p
  /\ (exists e, In e (r_log s) /\ w_fs (we_before e) p = Some (NFile bs))
  /\ w_fs (r_world s) p = Some (NFile bs') /\ bs <> bs'.
Proof.
  set (p := lit "/n/app.toml").
  exists (fun n u => if Nat.eqb n 3 then set_node u p (NFile (lit "a2")) else u), cx_codec, cx_macro, cx_old.
  do 2 eexists. exists p, (lit "a2"), (lit "a1"). split; [exact cx_distinct|]. split; [reflexivity|].
  split. { intros n u q N. destruct (Nat.eqb n 3); [|reflexivity]. apply set_node_ne. exact N. }
  split. { intros n u H. destruct (Nat.eqb n 3); [|exact H]. unfold missing. rewrite set_node_at. discriminate. }
  split; [eexists; split; [left; reflexivity | reflexivity]|]. split; [reflexivity | discriminate].
Qed.
Print Assumptions C76_files_of_others_are_safe_refuted.

(** "A file that nobody removes or changes is not written" is false when another
    process makes the missing path a link to that file between the check and the
    write: the defaults then replace the contents of the linked file. *)
Theorem C76_a_link_planted_in_between_is_followed_refuted : exists others tc ms w cfg s q bs bs', distinct_names ms
  /\ c_create_config others tc ms (run_start w) = Done (cfg, s)
  /\ leave_alone others q /\ never_remove others q
  /\ w_fs w q = Some (NFile bs) /\ w_fs (r_world s) q = Some (NFile bs') /\ bs <> bs'.
Proof.
  set (q := lit "b.toml").
  exists (fun n u => if Nat.eqb n 3 then cx_link u else u), cx_codec, cx_macro, cx_old.
  do 2 eexists. exists q, (lit "b1"), (lit "a1"). split; [exact cx_distinct|]. split; [reflexivity|].
  assert (LA : forall u, w_fs (cx_link u) q = w_fs u q) by reflexivity.
  split. { intros n u. destruct (Nat.eqb n 3); [apply LA | reflexivity]. }
  split. { intros n u H. destruct (Nat.eqb n 3); [|exact H]. unfold missing. rewrite LA. exact H. }
  split; [reflexivity|]. split; [reflexivity | discriminate].
Qed.
Print Assumptions C76_a_link_planted_in_between_is_followed_refuted.

(** The hypotheses are met: a file changed (but kept) by another process during
    the run, next to a missing one that gets initialised. *)
Example C76_example : exists others cfg s,
  c_create_config others cx_codec cx_macro (run_start cx_old) = Done (cfg, s)
  /\ ~ missing cx_old (lit "b.toml") /\ never_remove others (lit "b.toml") /\ never_redirect others (lit "b.toml")
  /\ leave_alone others (lit "/n/app.toml") /\ never_redirect others (lit "/n/app.toml")
  /\ w_fs (r_world s) (lit "/n/app.toml") = Some (NFile (lit "a1"))
  /\ List.length (r_log s) = 1.
Proof.
  exists (fun n u => if Nat.eqb n 1 then
      if str_eqb (w_target u (lit "b.toml")) (w_target u (lit "/n/app.toml")) then u
      else set_node u (lit "b.toml") (NFile (lit "b2")) else u). do 2 eexists.
  split; [reflexivity|]. split; [discriminate|].
  split.
  { intros n u H. destruct (Nat.eqb n 1); [|exact H]. destruct (str_eqb _ _); [exact H|]. unfold missing. rewrite set_node_at. discriminate. }
  split.
  { intros n u p. destruct (Nat.eqb n 1); [|auto]. destruct (str_eqb _ _); auto. }
  split.
  { intros n u. destruct (Nat.eqb n 1); [|reflexivity]. destruct (str_eqb_spec (w_target u (lit "b.toml")) (w_target u (lit "/n/app.toml"))); [reflexivity|].
    apply set_node_ne. assumption. }
  split.
  { intros n u p. destruct (Nat.eqb n 1); [|auto]. destruct (str_eqb _ _); auto. }
  split; reflexivity.
Qed.
