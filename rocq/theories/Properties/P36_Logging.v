(** C113, C114: what the library tells the logger. *)
From Coq Require Import ZArith Bool String List Lia.
Import ListNotations.
From Verif.Model Require Import Text Num Flt Value Merge Paths Finder World Layers Config Macro Logging.
From Verif.Spec Require Import Spec ConfigSpec EnvSpec FinderSpec PathSpec MacroSpec LogSpec.
From Verif.Proofs Require Import Basics ConfigBuild Utf8 Env PathLemmas Files FinderProofs FinderTop FinderMore MacroProofs LogProofs.

(** ** C113. *)
(** With the records taken away, reads, writes, builds and starts are those of
    the other properties. *)
Theorem C113_logging_changes_nothing : forall tc w l v c skip ms,
  fst (layer_read_log w l) = layer_read w l /\ fst (layer_write_log w l v) = layer_write w l v
  /\ fst (build_value_log w c skip) = build_value w c skip
  /\ (forall st log, create_config_log tc ms w = Done (st, log) -> create_config tc ms w = Done st)
  /\ exists st log, create_config_log tc ms w = Done (st, log).
Proof.
  intros tc w l v c skip ms. split; [apply layer_read_log_fst|]. split; [reflexivity|]. split; [apply build_loop_log_fst|]. split.
  - intros st log E. pose proof (create_config_log_fst tc ms w) as H. rewrite E in H. exact H.
  - destruct (create_config_log_spec tc ms w) as (dv & h & r & cfg & w' & log & _ & E & _). eauto.
Qed.
Print Assumptions C113_logging_changes_nothing.

Theorem C113_a_read_logs_exactly : forall tc w l ms, (forall h p, l = LFile h p -> h = toml_handler tc) ->
  (snd (layer_read_log w l) = ms <-> layer_says w l ms).
Proof.
  intros tc w l ms _. pose proof (layer_read_says w l) as S. split; [intros <-; exact S | intros H; exact (layer_says_fun _ _ _ _ S H)].
Qed.
Print Assumptions C113_a_read_logs_exactly.

(** Level by level: a logger set to "debug" hears of an environment layer
    exactly the values that are no text; the rest is "trace". *)
Theorem C113_levels_of_a_read : forall w,
  (forall p, p <> [] -> exists ts ds,
     at_level Trace (snd (layer_read_log w (LEnv p))) (MsgLoadingEnv p :: ts) /\ bad_names (w_env w) ts
     /\ at_level Debug (snd (layer_read_log w (LEnv p))) ds /\ bad_values p (w_env w) ds
     /\ at_level Warn (snd (layer_read_log w (LEnv p))) [])
  /\ (forall h p, at_level Trace (snd (layer_read_log w (LFile h p))) (snd (layer_read_log w (LFile h p)))).
Proof.
  intros w. split.
  - intros p Np. pose proof (layer_read_says w (LEnv p)) as H. remember (snd (layer_read_log w (LEnv p))) as log eqn:Q. clear Q. inversion H as [| | |? ms Np2 E| |]; subst; [congruence|].
    assert (X : exists ts ds, at_level Trace ms ts /\ bad_names (w_env w) ts /\ at_level Debug ms ds /\ bad_values p (w_env w) ds /\ at_level Warn ms []).
    { clear - E. revert E. generalize (w_env w) as env0. intros env0 E. induction E as [|kv env ms N E (ts & ds & A1 & A2 & A3 & A4 & A5)|kv name t k env ms U T St N E (ts & ds & A1 & A2 & A3 & A4 & A5)|kv name t env ms U T Q E (ts & ds & A1 & A2 & A3 & A4 & A5)].
      - exists [], []. repeat split; constructor.
      - exists (MsgBadKey (fst kv) :: ts), ds. split; [now constructor|]. split; [now constructor|]. split; [now constructor|]. split; [|now constructor].
        constructor; auto. intros name t U. destruct (N _ U).
      - exists ts, (MsgBadValue k (snd kv) :: ds). split; [now constructor|]. split; [econstructor; eauto|]. split; [now constructor|]. split; [econstructor; eauto | now constructor].
      - exists ts, ds. split; auto. split; [econstructor; eauto|]. split; auto. split; auto. constructor; auto. intros name' t' U' T' B.
        pose proof (utf8_fun _ _ _ U U') as ->. assert (t' = t) by (apply Env.trimmed_iff in T, T'; congruence). subst t'. destruct Q as [Q|Q]; [contradiction | exact Q]. }
    destruct X as (ts & ds & A1 & A2 & A3 & A4 & A5). exists ts, ds. split; [now constructor|]. split; auto. split; [now constructor|]. split; auto. now constructor.
  - intros h p. cbn [layer_read_log]. destruct (negb (fs_exists w p)); cbn [snd]; repeat constructor.
Qed.
Print Assumptions C113_levels_of_a_read.

Theorem C113_a_build_logs_exactly : forall tc w c r skip ms, registered c r -> toml_files tc r ->
  (snd (build_value_log w c skip) = ms <-> build_says w skip r ms).
Proof.
  intros tc w c r skip ms R _. pose proof (build_log_says w c r skip R) as S.
  split; [intros <-; exact S | intros H; exact (build_says_fun _ _ _ _ S _ H)].
Qed.
Print Assumptions C113_a_build_logs_exactly.

(** A lenient build warns once for every layer that cannot be read, in order,
    with the layer's name and error, and about nothing else. *)
Theorem C113_a_lenient_build_warns_exactly : forall tc w c r ws, registered c r -> toml_files tc r ->
  (warnings (snd (build_value_log w c true)) ws <-> failing w r ws).
Proof.
  intros tc w c r ws R _. pose proof (build_warnings _ _ _ _ (build_log_says w c r true R)) as [B _].
  destruct (failing_total w r) as [ws' F]. specialize (B eq_refl ws' F). split.
  - intros H. now rewrite (warnings_fun _ _ H _ B).
  - intros H. now rewrite (failing_fun _ _ _ H _ F).
Qed.
Print Assumptions C113_a_lenient_build_warns_exactly.
Theorem C113_every_skipped_layer_is_named : forall w c r n l, registered c r -> In (n, l) r ->
  ((exists e, layer_read w l = Err e) <-> exists e, In (MsgSkipped n e) (snd (build_value_log w c true))).
Proof.
  intros w c r n l R I. destruct (failing_total w r) as [ws F].
  pose proof (build_warnings _ _ _ _ (build_log_says w c r true R)) as [B _]. specialize (B eq_refl ws F). split.
  - intros [e E]. exists e. assert (W : In (MsgSkipped n e) ws) by (apply (failing_In _ _ _ F); eauto 6).
    now apply (warnings_In _ _ B) in W.
  - intros [e H]. assert (W : In (MsgSkipped n e) ws) by (apply (warnings_In _ _ B); auto).
    apply (failing_In _ _ _ F) in W as (n' & l' & e' & I' & E' & Q). injection Q as <- <-.
    destruct R as (_ & D & _). apply (In_mget _ _ _ D) in I, I'. assert (l = l') by congruence. subst l'. eauto.
Qed.
Print Assumptions C113_every_skipped_layer_is_named.
(** A lenient build is quiet exactly when the strict build succeeds (and then
    they agree, C29); a strict build never warns. *)
Theorem C113_quiet_means_nothing_was_skipped : forall w c r, registered c r ->
  (warnings (snd (build_value_log w c true)) [] <-> exists v, build_value w c false = Ok v)
  /\ warnings (snd (build_value_log w c false)) [].
Proof.
  intros w c r R. destruct (failing_total w r) as [ws F].
  pose proof (build_warnings _ _ _ _ (build_log_says w c r true R)) as [B _]. specialize (B eq_refl ws F).
  pose proof (build_warnings _ _ _ _ (build_log_says w c r false R)) as [_ B']. specialize (B' eq_refl).
  split; [|exact B']. assert (Q : ws = [] <-> exists v, build_value w c false = Ok v).
  { rewrite (build_value_list w c r false R). clear B B' R. generalize new_map as acc.
    induction F as [|n l r v ws E F IH|n l r e ws E F IH]; intros acc; cbn [map snd build_list].
    - split; eauto.
    - rewrite E. apply IH.
    - rewrite E. split; [discriminate | intros [v H]; discriminate]. }
  rewrite <- Q. split; [intros H; exact (warnings_fun _ _ B _ H) | intros ->; exact B].
Qed.
Print Assumptions C113_quiet_means_nothing_was_skipped.

(** A start: [macro_says] describes the records of every run, and the
    registrations and files it speaks of are those of C49-C54. *)
Theorem C113_a_start_logs_exactly : forall tc ms w dv log, value_map_macro (ms_default ms) = Done dv ->
  ((exists st, create_config_log tc ms w = Done (st, log)) <-> exists h w', macro_says tc ms dv w log h w').
Proof.
  intros tc ms w dv log V. destruct (create_config_log_spec tc ms w) as (dv' & h & r & cfg & w' & log' & V' & E & M & _).
  assert (dv' = dv) by congruence. subst dv'. split.
  - intros [st E']. rewrite E in E'. injection E' as <- <-. eauto.
  - intros (h2 & w2 & a2 & b2 & -> & S2 & T2). destruct M as (a & b & -> & S & T).
    assert (h = h2) by (apply start_says_run in S, S2; exact (proj1 (macro_run_fun _ _ _ _ _ _ _ _ S _ _ S2))). subst h2.
    rewrite <- (start_says_fun _ _ _ _ _ _ _ _ _ S _ _ _ S2).
    assert (b = b2) by (destruct (ms_env ms); [exact (taken_fun _ _ _ _ T T2) | congruence]). subst b2. eauto.
Qed.
Print Assumptions C113_a_start_logs_exactly.
Theorem C113_the_records_follow_the_run : forall tc fname dv h w cs ms h' w',
  start_says tc fname dv h w cs ms h' w' -> macro_run tc fname dv h w cs h' w'.
Proof. exact start_says_run. Qed.
Print Assumptions C113_the_records_follow_the_run.

(** If a start with distinct layer names logs no warning, every folder of every
    clause resolved, every clause with a usable file name registered its layer,
    and every init: true clause has its file. *)
Theorem C113_a_quiet_start_is_complete : forall tc ms w cfg w' log ls, distinct_names ms ->
  create_config_log tc ms w = Done ((cfg, w'), log) -> warnings log [] -> In ls (ms_layers ms) ->
  (forall d, In d (ls_dirs ls) -> exists p, resolvable (w_platform w) d p) /\ ls_dirs ls <> []
  /\ forall ps, clause_candidates w (ms_file_name ms) ls ps -> (forall p, In p ps -> has_extension p (lit "toml")) ->
     (exists p, In p ps /\ get_layer cfg (ls_name ls) = Some (LFile (toml_handler tc) p))
     /\ (ls_init ls = Some true -> exists p, In p ps /\ ~ missing w' p).
Proof.
  intros tc ms w cfg w' log ls D E Q I. destruct (macro_default ms) as (dv & V & _).
  destruct (create_config_log_run _ _ _ _ _ _ _ E V) as (h & r & (a & b & -> & S & T) & K & R).
  apply warnings_nil_app in Q as [Qa _].
  destruct (quiet_run _ _ _ _ _ _ _ _ _ S Qa D ls I) as (A1 & A2 & A3). split; auto. split; auto.
  intros ps C X. destruct (A3 ps C X) as [(p & Ip & Ih) B]. split; auto.
  exists p. split; auto. unfold get_layer. rewrite (registered_get cfg r _ R). apply (first_named_get _ _ _ _ K).
  assert (ND : NoDup (map fst h)).
  { clear -S D. apply start_says_run in S. unfold distinct_names in D. revert D.
    change (lit "default" :: map ls_name (ms_layers ms)) with (map fst [(lit "default", LMemory dv)] ++ map ls_name (ms_layers ms)).
    induction S as [h w|h w ls cs h' w' N M IH|h w ls p cs h' w' U N M IH|h w ls p l w1 r cs h' w' U EI Mi F E M IH]; intros D.
    - cbn in D. now rewrite app_nil_r in D.
    - apply IH. cbn [map] in D. now apply NoDup_remove_1 in D.
    - apply IH. rewrite map_app. cbn [map fst]. now apply NoDup_snoc_assoc.
    - apply IH. rewrite map_app. cbn [map fst]. now apply NoDup_snoc_assoc. }
  apply in_split in Ih as (b1 & b2 & ->). exists b1, (b2 ++ env_registration ms). split; [now rewrite <- app_assoc|].
  rewrite map_app in ND. cbn [map fst] in ND. apply NoDup_remove_2 in ND. intros H. apply ND, in_or_app. auto.
Qed.
Print Assumptions C113_a_quiet_start_is_complete.

(** But a clause may come to nothing without a word: with the file name ".."
    the path has no extension, and its refusal is not logged. *)
Definition lx_dots : macro_spec :=
  {| ms_file_name := lit ".."; ms_default := []; ms_env := None;
     ms_layers := [{| ls_name := lit "local"; ls_dirs := [DirPath (lit "/n")]; ls_init := Some true |}] |}.
Definition lx_codec : codec :=
  {| toml_from_str := fun s => if str_eqb s (lit "x = 1") then Ok (VMap [(lit "x", VInt 1)]) else Err (lit "at: " ++ s);
     toml_to_string := fun v => match v with VMap [(_, VInt 1)] => Ok (lit "x = 1") | VMap [(_, VInt 2)] => Ok (lit "x = 2") | _ => Err (lit "no") end |}.
Definition lx_world (text : str) (env : list (list byte * list byte)) : world :=
  {| w_files := fun p => if str_eqb p (lit "/e/app.toml") then Some (NFile (utf8_encode text)) else None;
     w_target := fun p => p; w_can_read := fun _ => true; w_can_open := fun p => negb (str_eqb p (lit "/r/app.toml"));
     w_room := fun _ => None; w_env := env;
     w_platform := {| pf_base := Some {| bd_home := lit "/h"; bd_config := lit "/c"; bd_pref := lit "/p" |}; pf_cwd := None |} |}.
Theorem C113_a_clause_without_a_layer_is_logged_refuted : exists tc ms w cfg w' ls,
  create_config_log tc ms w = Done ((cfg, w'), []) /\ In ls (ms_layers ms) /\ get_layer cfg (ls_name ls) = None.
Proof.
  exists lx_codec, lx_dots, (lx_world [] []). do 2 eexists. eexists. split; [reflexivity|]. split; [now left | reflexivity].
Qed.
Print Assumptions C113_a_clause_without_a_layer_is_logged_refuted.

Definition lx_spec n : macro_spec :=
  {| ms_file_name := lit "app"; ms_default := [(lit "x", VInt n)]; ms_env := Some (lit "APP_");
     ms_layers := [{| ls_name := lit "global"; ls_dirs := [DirPath (lit "/e")]; ls_init := Some true |};
       {| ls_name := lit "cwd"; ls_dirs := [WorkingDirectory]; ls_init := Some true |};
       {| ls_name := lit "local"; ls_dirs := [WorkingDirectory; DirPath (lit "/n")]; ls_init := Some true |};
       {| ls_name := lit "ro"; ls_dirs := [DirPath (lit "/r")]; ls_init := Some true |};
       {| ls_name := lit "environment"; ls_dirs := [DirPath (lit "/e")]; ls_init := None |}] |}.
Example C113_example :
  (exists st, create_config_log lx_codec (lx_spec 1) (lx_world (lit "x = 1") []) = Done (st,
    [MsgUnresolved WorkingDirectory; MsgNoFile NoFoldersDefined; MsgUnresolved WorkingDirectory; MsgWriting (lit "/n/app.toml");
     MsgWriting (lit "/r/app.toml"); MsgNotWritten (lit "ro") (BIo IoDenied); MsgLayerExists (lit "environment")]))
  /\ exists c, config_run lx_codec [OpMemory (lit "d") (VMap []); OpFile (lit "f") (lit "/e/app.toml"); OpEnv (lit "e") (lit "APP_"); OpEnv (lit "bad") (lit " ")] = c
     /\ snd (build_value_log (lx_world (lit "x") [([65; 80; 80; 95; 75]%Z, [255]%Z); ([255]%Z, [65]%Z)]) c true) =
        [MsgReading (lit "/e/app.toml"); MsgSkipped (lit "f") (BLayer (LParseError (lit "at: x")));
         MsgLoadingEnv (lit "APP_"); MsgBadValue (lit "K") [255]%Z; MsgBadKey [255]%Z;
         MsgSkipped (lit "bad") (BLayer (LErrorReadingValue empty_prefix_msg))].
Proof. split; [eexists; reflexivity|]. eexists. split; [reflexivity|]. vm_compute. reflexivity. Qed.

(** ** C114.  Records do not depend on the values. *)
(** Two environments with the same variables in the same order, the values of
    the matching ones being text. *)
Theorem C114_variables_are_logged_without_their_values : forall w w' p, same_variables p (w_env w) (w_env w') ->
  snd (layer_read_log w (LEnv p)) = snd (layer_read_log w' (LEnv p)).
Proof.
  intros w w' p F. pose proof (layer_read_says w (LEnv p)) as A. pose proof (layer_read_says w' (LEnv p)) as B.
  exact (layer_says_values lx_codec w w' _ _ _ _ (SrEnv _ _ _ _ F) A B).
Qed.
Print Assumptions C114_variables_are_logged_without_their_values.

(** Two configurations with the same layers by name and place: if every layer
    can be read on both sides, their builds, strict or lenient, leave the same
    records, whatever the layers hold. *)
Theorem C114_a_build_logs_no_values : forall tc w w' c c' r r' skip skip', registered c r -> registered c' r' ->
  Forall2 (fun a b => fst a = fst b /\ same_source tc w w' (snd a) (snd b)) r r' ->
  (forall n l, In (n, l) r -> exists v, layer_read w l = Ok v) -> (forall n l, In (n, l) r' -> exists v, layer_read w' l = Ok v) ->
  snd (build_value_log w c skip) = snd (build_value_log w' c' skip').
Proof.
  intros tc w w' c c' r r' skip skip' R R' F A A'.
  exact (build_says_values tc w w' skip skip' r r' _ _ F A A' (build_log_says w c r skip R) (build_log_says w' c' r' skip' R')).
Qed.
Print Assumptions C114_a_build_logs_no_values.

(** Two starts of one create_config! with different defaults, in worlds with the
    same files holding anything: unless some default could not be written, the
    records are the same. *)
Theorem C114_a_start_logs_no_values : forall tc ms ms' w w' st st' log log',
  ms_file_name ms = ms_file_name ms' -> ms_env ms = ms_env ms' -> ms_layers ms = ms_layers ms' -> alike_worlds w w' ->
  create_config_log tc ms w = Done (st, log) -> create_config_log tc ms' w' = Done (st', log') ->
  (forall n e, ~ In (MsgNotWritten n e) log) -> (forall n e, ~ In (MsgNotWritten n e) log') -> log = log'.
Proof.
  intros tc ms ms' w w' [cfg w1] [cfg' w1'] log log' En Ee El A E E' N N'.
  destruct (macro_default ms) as (dv & V & _). destruct (macro_default ms') as (dv' & V' & _).
  destruct (create_config_log_run _ _ _ _ _ _ _ E V) as (h & r & (a & b & -> & S & T) & _).
  destruct (create_config_log_run _ _ _ _ _ _ _ E' V') as (h' & r' & (a' & b' & -> & S' & T') & _).
  rewrite <- En, <- El in S'. rewrite <- Ee in T'.
  assert (K0 : kin tc [(lit "default", LMemory dv)] [(lit "default", LMemory dv')]).
  { constructor; [|constructor]. split; [reflexivity|]. left. exists dv, dv'. split; reflexivity. }
  destruct (start_says_values _ _ _ _ _ _ _ _ _ _ S _ _ _ _ _ S' A K0) as [-> K].
  - intros m I (n & e & ->). apply (N n e), in_or_app. auto.
  - intros m I (n & e & ->). apply (N' n e), in_or_app. auto.
  - f_equal. destruct (ms_env ms); [|congruence]. apply kin_names in K.
    destruct T as [T|T], T' as [T'|T']; auto; rewrite K in T; contradiction.
Qed.
Print Assumptions C114_a_start_logs_no_values.

(** Values do get out in two ways: a value that is no text is logged as it is
    (at debug level), and the text of a parse error, which the format library
    may quote from the file, is logged as a warning. *)
Theorem C114_no_value_is_ever_logged_refuted :
  (exists w p k bytes, In (MsgBadValue k bytes) (snd (layer_read_log w (LEnv p))) /\ exists name, In (name, bytes) (w_env w))
  /\ exists tc w c p text n, w_fs w p = Some (NFile (utf8_encode text)) /\ get_layer c n = Some (LFile (toml_handler tc) p)
     /\ exists quoted, In (MsgSkipped n (BLayer (LParseError (quoted ++ text)))) (snd (build_value_log w c true)).
Proof.
  split.
  - exists (lx_world [] [(lit "APP_KEY", [115; 255]%Z)]), (lit "APP_"), (lit "KEY"), [115; 255]%Z.
    split; [vm_compute; auto|]. exists (lit "APP_KEY"). now left.
  - exists lx_codec, (lx_world (lit "pw=1 2") []), (config_run lx_codec [OpFile (lit "f") (lit "/e/app.toml")]), (lit "/e/app.toml"), (lit "pw=1 2"), (lit "f").
    split; [reflexivity|]. split; [reflexivity|]. exists (lit "at: "). vm_compute. auto.
Qed.
Print Assumptions C114_no_value_is_ever_logged_refuted.

Definition lx_quiet n : macro_spec :=
  {| ms_file_name := lit "app"; ms_default := [(lit "x", VInt n)]; ms_env := Some (lit "APP_");
     ms_layers := [{| ls_name := lit "global"; ls_dirs := [DirPath (lit "/e")]; ls_init := Some true |};
       {| ls_name := lit "local"; ls_dirs := [DirPath (lit "/n")]; ls_init := Some true |}] |}.
Example C114_example :
  (exists st st', create_config_log lx_codec (lx_quiet 1) (lx_world (lit "x = 1") []) = Done (st, [MsgWriting (lit "/n/app.toml")])
     /\ create_config_log lx_codec (lx_quiet 2) (lx_world (lit "x = 2") []) = Done (st', [MsgWriting (lit "/n/app.toml")]))
  /\ distinct_names (lx_quiet 1) /\ alike_worlds (lx_world (lit "x = 1") []) (lx_world (lit "x = 2") [])
  /\ same_variables (lit "APP_") [(lit "APP_X", lit "secret"); (lit "Y", [255]%Z)] [(lit "APP_X", lit "other"); (lit "Y", lit "z")].
Proof.
  split; [do 2 eexists; split; reflexivity|]. split; [repeat constructor; cbn; intuition discriminate|]. split.
  - split; [reflexivity|]. split; [reflexivity|]. intros p. unfold missing, w_fs. cbn [w_files w_target lx_world].
    destruct (str_eqb p (lit "/e/app.toml")); split; auto; discriminate.
  - constructor; [|constructor; [|constructor]].
    + split; [reflexivity|]. intros name t _ _ _. split; eexists; apply utf8_decode_spec; reflexivity.
    + split; [reflexivity|]. intros name t U T (r & E). exfalso. apply utf8_decode_spec in U. vm_compute in U. injection U as <-.
      apply trimmed_iff in T. vm_compute in T. subst t. discriminate E.
Qed.
