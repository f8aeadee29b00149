(** C87: starting a program - [create_config!], then [build_value]. *)
From Coq Require Import ZArith Bool String Permutation.
From Coq Require Import List.
Import ListNotations.
From Verif.Model Require Import Text Num Flt Value Merge Paths Finder World Layers Config Macro.
From Verif.Spec Require Import Spec MergeSpec ConfigSpec EnvSpec FinderSpec PathSpec MacroSpec ReadsSpec StartSpec.
From Verif.Proofs Require Import Basics Merge ConfigBuild Utf8 Env PathLemmas Files MacroProofs Reads StartProofs.
From Verif.Properties Require Import P08_Macro.

(** With distinct layer names, what the program sees is the resolution of: the
    defaults, then the files of the clauses in order, then the environment.
    Unreadable layers contribute nothing to a lenient build; a strict build gives
    the same Value or fails, and succeeds exactly when every file is readable and
    the environment prefix is not blank. *)
Theorem C87_what_the_program_sees : forall tc ms w, distinct_start ms -> proper_defaults ms -> proper_codec tc ->
  exists dv cfg w' fs mm v,
    value_map_macro (ms_default ms) = Done dv /\ default_map ms dv /\ create_config tc ms w = Done (cfg, w')
    /\ file_layers tc ms w w' fs
    /\ Forall2 (contributes tc w') (LMemory dv :: map (fun np => LFile (toml_handler tc) (snd np)) fs ++ map snd (env_registration ms)) mm
    /\ build_value w' cfg true = Ok v /\ mapv v /\ wf v
    /\ (forall p f, sees v p f <-> resolves (concat mm) p f)
    /\ (forall v', build_value w' cfg false = Ok v' -> v' = v)
    /\ ((exists v', build_value w' cfg false = Ok v') <->
        (forall n p e, In (n, p) fs -> ~ file_answer tc w' p (Err e))
        /\ (forall prefix, ms_env ms = Some prefix -> ~ trimmed prefix [])).
Proof. exact start_value. Qed.
Print Assumptions C87_what_the_program_sees.

(** Key by key: a variable wins over everything; ... *)
Theorem C87_the_environment_wins : forall tc ms w cfg w' fs v, distinct_start ms -> proper_defaults ms -> proper_codec tc ->
  create_config tc ms w = Done (cfg, w') -> file_layers tc ms w w' fs -> build_value w' cfg true = Ok v ->
  forall k s, env_gives ms w k s -> holds v k (VStr s).
Proof. exact start_env_wins. Qed.
Print Assumptions C87_the_environment_wins.

(** ... otherwise the last file that has the key; ... *)
Theorem C87_then_the_last_file : forall tc ms w cfg w' fs v, distinct_start ms -> proper_defaults ms -> proper_codec tc ->
  create_config tc ms w = Done (cfg, w') -> file_layers tc ms w w' fs -> build_value w' cfg true = Ok v ->
  forall k f1 n p f2 m x, (forall s, ~ env_gives ms w k s) ->
  fs = f1 ++ (n, p) :: f2 -> file_answer tc w' p (Ok m) -> holds m k x -> ~ mapv x ->
  (forall n' p' m', In (n', p') f2 -> file_answer tc w' p' (Ok m') -> lacks m' k) ->
  holds v k x.
Proof. exact start_last_file. Qed.
Print Assumptions C87_then_the_last_file.

(** ... otherwise the default. *)
Theorem C87_then_the_default : forall tc ms w cfg w' fs v, distinct_start ms -> proper_defaults ms -> proper_codec tc ->
  create_config tc ms w = Done (cfg, w') -> file_layers tc ms w w' fs -> build_value w' cfg true = Ok v ->
  forall k, (forall s, ~ env_gives ms w k s) ->
  (forall n p m, In (n, p) fs -> file_answer tc w' p (Ok m) -> lacks m k) ->
  forall x, holds v k x <-> last_binding (ms_default ms) k x.
Proof. exact start_default. Qed.
Print Assumptions C87_then_the_default.

(** With a clause named "environment" the env: layer is dropped silently: the
    variable has no effect although the build succeeds. *)
Theorem C87_any_names_refuted : exists tc ms w cfg w' v k s, distinct_names ms /\ proper_defaults ms /\ proper_codec tc
  /\ create_config tc ms w = Done (cfg, w') /\ build_value w' cfg false = Ok v
  /\ env_gives ms w k s /\ ~ holds v k (VStr s).
Proof.
  exists mx_codec, (mx_spec [clause "environment" [DirPath (lit "/e")] None]),
    (with_env (mx_world None) [(utf8_encode (lit "APP_x"), utf8_encode (lit "9"))]).
  do 2 eexists. exists (VMap [(lit "x", VInt 2)]), (lit "x"), (lit "9").
  split; [repeat constructor; cbn; intuition discriminate|].
  split; [intros k x [X|[]]; injection X as <- <-; split; [reflexivity | cbn; reflexivity]|].
  split.
  { intros t v. cbn [toml_from_str mx_codec].
    destruct (str_eqb t (lit "x = 1")); [intros X; injection X as <-; cbn; repeat split; repeat constructor; cbn; tauto|].
    destruct (str_eqb t (lit "x = 2")); [intros X; injection X as <-; cbn; repeat split; repeat constructor; cbn; tauto|].
    destruct (str_eqb t []); [|discriminate]. intros X; injection X as <-. cbn; repeat constructor. }
  split; [reflexivity|]. split; [reflexivity|]. split.
  - exists (lit "APP_"), (lit "APP_"). split; [reflexivity|]. split; [apply trimmed_iff; reflexivity|]. split; [discriminate|].
    exists [], (utf8_encode (lit "APP_x"), utf8_encode (lit "9")), []. split; [reflexivity|]. split; [|intros ? []].
    apply expose_spec; [discriminate | reflexivity].
  - intros (m & Em & I). injection Em as <-. destruct I as [I|[]]; discriminate.
Qed.
Print Assumptions C87_any_names_refuted.

(** /e/app.toml says x = 2, the created /n/app.toml says x = 1 (the defaults),
    the environment says y = 9. *)
Definition st_world : world := with_env (mx_world None) [(utf8_encode (lit "APP_y"), utf8_encode (lit "9"))].
Definition st_ms : macro_spec := mx_spec [clause "local" [DirPath (lit "/n")] (Some true); clause "global" [UserHome; DirPath (lit "/e")] None].
Example C87_example : distinct_start st_ms /\ proper_defaults st_ms /\ proper_codec mx_codec
  /\ env_gives st_ms st_world (lit "y") (lit "9") /\ (forall s, ~ env_gives st_ms st_world (lit "x") s)
  /\ exists cfg w', create_config mx_codec st_ms st_world = Done (cfg, w')
     /\ file_layers mx_codec st_ms st_world w' [(lit "local", lit "/n/app.toml"); (lit "global", lit "/e/app.toml")]
     /\ file_answer mx_codec w' (lit "/e/app.toml") (Ok (VMap [(lit "x", VInt 2)]))
     /\ build_value w' cfg true = Ok (VMap [(lit "x", VInt 2); (lit "y", VStr (lit "9"))]).
Proof.
  split; [repeat constructor; cbn; intuition discriminate|].
  split; [intros k x [X|[]]; injection X as <- <-; split; [reflexivity | cbn; reflexivity]|].
  split.
  { intros t v. cbn [toml_from_str mx_codec].
    destruct (str_eqb t (lit "x = 1")); [intros X; injection X as <-; cbn; repeat split; repeat constructor; cbn; tauto|].
    destruct (str_eqb t (lit "x = 2")); [intros X; injection X as <-; cbn; repeat split; repeat constructor; cbn; tauto|].
    destruct (str_eqb t []); [|discriminate]. intros X; injection X as <-. cbn; repeat constructor. }
  split.
  { exists (lit "APP_"), (lit "APP_"). split; [reflexivity|]. split; [apply trimmed_iff; reflexivity|]. split; [discriminate|].
    exists [], (utf8_encode (lit "APP_y"), utf8_encode (lit "9")), []. split; [reflexivity|]. split; [|intros ? []].
    apply expose_spec; [discriminate | reflexivity]. }
  split.
  { intros s (prefix & p & E & T & Np & (before & kv & after & Ev & X & _)). injection E as <-. apply trimmed_iff in T.
    vm_compute in T. subst p. destruct before as [|? [|? ?]]; try discriminate. injection Ev as <- _.
    apply expose_spec in X; [|discriminate]. vm_compute in X. discriminate. }
  do 2 eexists. split; [reflexivity|]. split; [|split; [|reflexivity]].
  - exists (VMap [(lit "x", VInt 1)]). split; [reflexivity|].
    eapply RunInit with (p := lit "/n/app.toml") (l := LFile (toml_handler mx_codec) (lit "/n/app.toml")); [| reflexivity | reflexivity | | reflexivity | ].
    + exists [lit "/n/app.toml"]. split; [|split].
      * exists [lit "/n"], [(lit "/n/app.toml", lit "toml")].
        split; [repeat constructor; eexists; split; [reflexivity | constructor]|]. split; [repeat constructor | reflexivity].
      * apply ChosenFirst. intros q [<-|[]]. reflexivity.
      * apply extension_iff. reflexivity.
    + exists [(lit "default", LMemory (VMap [(lit "x", VInt 1)]))], []. split; [reflexivity|]. cbn. intuition discriminate.
    + eapply RunAdd with (p := lit "/e/app.toml"); [| intros [X _]; discriminate | apply RunEnd].
      exists [lit "/h/app.toml"; lit "/e/app.toml"]. split; [|split].
      * exists [lit "/h"; lit "/e"], [(lit "/h/app.toml", lit "toml"); (lit "/e/app.toml", lit "toml")].
        split; [constructor; [eexists; split; [reflexivity | exact (OsHome _ {| bd_home := lit "/h"; bd_config := lit "/c"; bd_pref := lit "/p" |})]|]; repeat constructor; eexists; split; [reflexivity|constructor]|].
        split; [repeat constructor | reflexivity].
      * apply (ChosenExisting _ [lit "/h/app.toml"] (lit "/e/app.toml") []); [intros q [<-|[]]; reflexivity | discriminate].
      * apply extension_iff. reflexivity.
  - apply file_answer_iff. reflexivity.
Qed.
