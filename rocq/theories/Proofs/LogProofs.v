(** Proofs about the records handed to the logger (C113, C114). *)
From Coq Require Import ZArith Bool String Lia List.
Import ListNotations.
From Verif.Model Require Import Text Value Merge Paths Finder World Layers Config Macro Logging.
From Verif.Spec Require Import Spec Containers ConfigSpec EnvSpec FinderSpec PathSpec MacroSpec LogSpec.
From Verif.Proofs Require Import Basics Containers PathLemmas Utf8 Env ConfigBuild Files
  FinderProofs FinderTop FinderMore MacroProofs.

(** ** Logging changes nothing *)
Lemma env_fold_log p env : forall m log, fst (fold_left (env_step_log p) env (m, log)) = fold_left (env_step p) env m.
Proof.
  induction env as [|kv env IH]; intros; [reflexivity|]. cbn [fold_left].
  assert (E : fst (env_step_log p (m, log) kv) = env_step p m kv).
  { unfold env_step_log, env_step. destruct (utf8_decode (fst kv)); auto.
    destruct (negb _); auto. destruct (utf8_decode (snd kv)); auto. }
  destruct (env_step_log p (m, log) kv) as [m' log']. cbn in E. subst m'. apply IH.
Qed.
Lemma env_read_log_fst p env : fst (env_read_log p env) = env_read p env.
Proof.
  unfold env_read_log, env_read. destruct p as [|c p]; auto.
  pose proof (env_fold_log (c :: p) env [] [MsgLoadingEnv (c :: p)]) as E.
  match goal with |- context [let '(_, _) := ?X in _] =>
    change (fst X = fold_left (env_step (c :: p)) env []) in E; destruct X as [m log] end.
  cbn [fst] in *. now rewrite E.
Qed.
Lemma layer_read_log_fst w l : fst (layer_read_log w l) = layer_read w l.
Proof.
  destruct l; cbn; auto; [apply env_read_log_fst | destruct (negb _); auto].
Qed.
Lemma build_loop_log_fst w ls skip names : forall acc log,
  fst (build_loop_log w ls skip acc names log) = build_loop w ls skip acc names.
Proof.
  induction names as [|n names IH]; intros; [reflexivity|]. cbn [build_loop_log build_loop].
  destruct (mget n ls) as [l|]; auto. pose proof (layer_read_log_fst w l) as E.
  destruct (layer_read_log w l) as [r ms]. cbn in E. subst r.
  destruct (layer_read w l); auto. destruct skip; auto.
Qed.
Lemma push_layer_log_fst c n l : fst (push_layer_log c n l) = push_layer c n l.
Proof. unfold push_layer_log, push_layer. destruct (mhas n (layers c)); auto. Qed.
Lemma add_file_layer_log_fst tc c n p : fst (add_file_layer_log tc c n p) = add_file_layer tc c n p.
Proof.
  unfold add_file_layer_log, add_file_layer. destruct (ext_match_path ExtToml p); auto.
  rewrite <- push_layer_log_fst. destruct (push_layer_log c n _); auto.
Qed.
Lemma layer_finder_log_fst w fname ls : fst (layer_finder_log w fname ls) = layer_finder w fname ls.
Proof.
  unfold layer_finder_log, layer_finder. generalize (finder_with_supported (finder_new fname)) as f.
  generalize (@nil message). induction (ls_dirs ls) as [|d ds IH]; intros; [reflexivity|]. cbn [fold_left].
  assert (E : fst (finder_with_os_dir_log (w_platform w) (f, l) d) = finder_with_os_dir (w_platform w) f d).
  { unfold finder_with_os_dir_log, finder_with_os_dir. cbn [fst snd]. destruct (to_path_buf (w_platform w) d); auto. }
  destruct (finder_with_os_dir_log (w_platform w) (f, l) d) as [f' l']. cbn in E. subst f'. apply IH.
Qed.

(** ** One layer *)
Lemma not_text_iff bs : not_text bs <-> utf8_decode bs = None.
Proof.
  unfold not_text. split.
  - intros H. destruct (utf8_decode bs) as [s|] eqn:E; auto. apply utf8_decode_spec in E. now apply H in E.
  - intros E s U. apply utf8_decode_spec in U. congruence.
Qed.
Lemma env_fold_says p env : p <> [] -> forall m log, exists ms, env_says p env ms
  /\ snd (fold_left (env_step_log p) env (m, log)) = log ++ ms.
Proof.
  intros N. induction env as [|kv env IH]; intros.
  { exists []. rewrite app_nil_r. split; [constructor | reflexivity]. }
  cbn [fold_left]. unfold env_step_log at 2.
  destruct (utf8_decode (fst kv)) as [name|] eqn:E.
  - apply utf8_decode_spec in E. destruct (starts_with p (trim name)) eqn:S; cbn [negb].
    + apply starts_with_iff in S. destruct (utf8_decode (snd kv)) as [v|] eqn:E'.
      * apply utf8_decode_spec in E'. edestruct IH as (ms & A & B). exists ms. split; [|exact B].
        eapply EyQuiet; eauto. apply trim_trimmed.
      * apply not_text_iff in E'. edestruct IH as (ms & A & B). eexists. split.
        -- eapply EyValue; eauto; [apply trim_trimmed|]. apply strips_iff; auto.
        -- rewrite B, <- app_assoc. reflexivity.
    + edestruct IH as (ms & A & B). exists ms. split; [|exact B].
      eapply EyQuiet; eauto; [apply trim_trimmed|]. left. intros H. apply starts_with_iff in H. congruence.
  - apply not_text_iff in E. edestruct IH as (ms & A & B). eexists. split; [apply EyKey; eauto|].
    rewrite B, <- app_assoc. reflexivity.
Qed.
Lemma env_says_fun p env ms : env_says p env ms -> p <> [] -> forall ms', env_says p env ms' -> ms = ms'.
Proof.
  intros H N. induction H as [|kv env ms T S IH|kv name t k env ms U Tr St T S IH|kv name t env ms U Tr O S IH]; intros ms' H'.
  - now inversion H'.
  - inversion H' as [|? ? ? T2 S2|? n2 t2 k2 ? ? U2 Tr2 St2 T2 S2|? n2 t2 ? ? U2 Tr2 O2 S2]; subst.
    + f_equal; auto. + now apply T in U2. + now apply T in U2.
  - inversion H' as [|? ? ? T2 S2|? n2 t2 k2 ? ? U2 Tr2 St2 T2 S2|? n2 t2 ? ? U2 Tr2 O2 S2]; subst.
    + now apply T2 in U.
    + rewrite (utf8_fun _ _ _ U2 U) in Tr2. apply trimmed_iff in Tr, Tr2. subst t t2.
      apply strips_iff in St as [_ <-]; auto. apply strips_iff in St2 as [_ <-]; auto. f_equal; auto.
    + rewrite (utf8_fun _ _ _ U2 U) in Tr2. apply trimmed_iff in Tr, Tr2. subst t t2.
      apply strips_iff in St as [B _]; auto. destruct O2 as [O2|[s O2]]; [now destruct O2 | now apply T in O2].
  - inversion H' as [|? ? ? T2 S2|? n2 t2 k2 ? ? U2 Tr2 St2 T2 S2|? n2 t2 ? ? U2 Tr2 O2 S2]; subst; auto.
    + now apply T2 in U.
    + rewrite (utf8_fun _ _ _ U2 U) in Tr2. apply trimmed_iff in Tr, Tr2. subst t t2.
      apply strips_iff in St2 as [B _]; auto. destruct O as [O|[s O]]; [now destruct O | now apply T2 in O].
Qed.
Lemma layer_read_says w l : layer_says w l (snd (layer_read_log w l)).
Proof.
  destruct l as [v|p|h p|c]; cbn [layer_read_log]; try (cbn [snd]; constructor; fail).
  - destruct p as [|c p]; [apply LyBlank|]. unfold env_read_log.
    destruct (env_fold_says (c :: p) (w_env w) ltac:(discriminate) [] [MsgLoadingEnv (c :: p)]) as (ms & A & B).
    match goal with |- context [let '(_, _) := ?X in _] =>
      change (snd X = [MsgLoadingEnv (c :: p)] ++ ms) in B; destruct X as [m log] end. cbn [snd] in *.
    rewrite B. apply LyEnv; [discriminate | auto].
  - destruct (fs_exists w p) eqn:E; cbn [negb snd].
    + apply LyFile. now apply not_missing_exists.
    + apply LyMissing. now apply missing_exists.
Qed.
Lemma layer_says_fun w l ms ms' : layer_says w l ms -> layer_says w l ms' -> ms = ms'.
Proof.
  intros A B. destruct A; inversion B; subst; auto; try contradiction.
  f_equal. eapply env_says_fun; eauto.
Qed.

(** ** Builds *)
Lemma build_loop_says w ls skip r : (forall n l, In (n, l) r -> mget n ls = Some l) -> forall acc log,
  exists ms, build_says w skip r ms /\ snd (build_loop_log w ls skip acc (map fst r) log) = log ++ ms.
Proof.
  induction r as [|[n l] r IH]; intros H acc log.
  { exists []. rewrite app_nil_r. split; [constructor | reflexivity]. }
  cbn [map fst build_loop_log]. rewrite (H n l (or_introl eq_refl)).
  assert (H' : forall n l, In (n, l) r -> mget n ls = Some l) by (intros; apply H; now right).
  pose proof (layer_read_log_fst w l) as E. pose proof (layer_read_says w l) as S.
  destruct (layer_read_log w l) as [x ms]. cbn [fst snd] in *.
  destruct x as [v|e]; symmetry in E.
  - edestruct (IH H') as (ms' & A & B). eexists. split; [eapply BsRead; eauto|]. rewrite B, <- app_assoc. reflexivity.
  - destruct skip.
    + edestruct (IH H') as (ms' & A & B). eexists. split; [eapply BsSkipped; eauto|].
      rewrite B, <- !app_assoc. reflexivity.
    + exists ms. split; [eapply BsStopped; eauto | reflexivity].
Qed.
Lemma build_log_says w c r skip : registered c r -> build_says w skip r (snd (build_value_log w c skip)).
Proof.
  intros R. unfold build_value_log. pose proof R as (E & _). rewrite E.
  destruct (build_loop_says w (layers c) skip r) with (acc := new_map) (log := @nil message) as (ms & A & B).
  { intros n l I. rewrite (registered_get c r n R). apply In_mget; auto.
    apply R. }
  rewrite B. exact A.
Qed.
Lemma build_says_fun w skip r ms : build_says w skip r ms -> forall ms', build_says w skip r ms' -> ms = ms'.
Proof.
  induction 1 as [|n l r v ms rest E L B IH|n l r e ms rest E K L B IH|n l r e ms E K L]; intros ms' H.
  - now inversion H.
  - inversion H; subst; try congruence. f_equal; eauto using layer_says_fun.
  - inversion H; subst; try congruence.
    replace e0 with e by congruence. f_equal; [eauto using layer_says_fun | f_equal; eauto].
  - inversion H; subst; try congruence. eauto using layer_says_fun.
Qed.

(** ** Warnings *)
Lemma warn_dec m : level_of m = Warn \/ level_of m <> Warn.
Proof. destruct m; cbn; auto; right; discriminate. Qed.
Lemma warnings_total l : exists ws, warnings l ws.
Proof.
  induction l as [|m l [ws IH]]; [exists []; constructor|].
  destruct (warn_dec m); [exists (m :: ws); now apply WnKeep | exists ws; now apply WnDrop].
Qed.
Lemma warnings_fun l ws : warnings l ws -> forall ws', warnings l ws' -> ws = ws'.
Proof.
  induction 1 as [|m l ws K W IH|m l ws K W IH]; intros ws' H; inversion H; subst; auto; try contradiction.
  f_equal; auto.
Qed.
Lemma warnings_app a b wa wb : warnings a wa -> warnings b wb -> warnings (a ++ b) (wa ++ wb).
Proof. induction 1; intros; cbn; auto; [apply WnKeep | apply WnDrop]; auto. Qed.
Lemma warnings_quiet l : (forall m, In m l -> level_of m <> Warn) -> warnings l [].
Proof.
  induction l as [|m l IH]; intros H; [constructor|]. apply WnDrop; [apply H; now left|].
  apply IH. intros; apply H; now right.
Qed.
Lemma warnings_In l ws : warnings l ws -> forall m, In m ws <-> In m l /\ level_of m = Warn.
Proof.
  induction 1 as [|m l ws K W IH|m l ws K W IH]; intros x.
  - cbn; tauto.
  - cbn. rewrite IH. intuition (subst; auto).
  - cbn. rewrite IH. intuition (subst; auto; contradiction).
Qed.
Lemma env_says_quiet p env ms : env_says p env ms -> forall m, In m ms -> level_of m <> Warn.
Proof.
  induction 1; intros m I; [destruct I | destruct I as [<-|I]; [discriminate | auto] | destruct I as [<-|I]; [discriminate | auto] | auto].
Qed.
Lemma layer_says_quiet w l ms : layer_says w l ms -> forall m, In m ms -> level_of m <> Warn.
Proof.
  destruct 1; intros m I; try (destruct I; fail).
  - destruct I as [<-|I]; [discriminate|]. eapply env_says_quiet; eauto.
  - destruct I as [<-|[]]. discriminate.
Qed.
Lemma failing_fun w r ws : failing w r ws -> forall ws', failing w r ws' -> ws = ws'.
Proof.
  induction 1 as [|n l r v ws E F IH|n l r e ws E F IH]; intros ws' H; inversion H; subst; auto; try congruence.
  replace e0 with e by congruence. f_equal; auto.
Qed.
Lemma failing_total w r : exists ws, failing w r ws.
Proof.
  induction r as [|[n l] r [ws IH]]; [exists []; constructor|].
  destruct (layer_read w l) eqn:E; [exists ws; eapply FaOk; eauto | exists (MsgSkipped n e :: ws); apply FaErr; auto].
Qed.
Lemma failing_In w r ws : failing w r ws -> forall m, In m ws <-> exists n l e, In (n, l) r /\ layer_read w l = Err e /\ m = MsgSkipped n e.
Proof.
  induction 1 as [|n l r v ws E F IH|n l r e ws E F IH]; intros m.
  - split; [intros [] | intros (? & ? & ? & [] & _)].
  - rewrite IH. split.
    + intros (n' & l' & e & I & R). exists n', l', e. split; [now right | auto].
    + intros (n' & l' & e & [I|I] & R & Q); [injection I as <- <-; congruence | eauto 6].
  - cbn [In]. rewrite IH. split.
    + intros [<-|(n' & l' & e' & I & R)]; [exists n, l, e; split; [now left | auto] | exists n', l', e'; split; [now right | auto]].
    + intros (n' & l' & e' & [I|I] & R & Q); [left; injection I as <- <-; congruence | right; eauto 6].
Qed.
Lemma build_warnings w skip r ms : build_says w skip r ms ->
  (skip = true -> forall ws, failing w r ws -> warnings ms ws) /\ (skip = false -> warnings ms []).
Proof.
  induction 1 as [|n l r v ms rest E L B [IH1 IH2]|n l r e ms rest E K L B [IH1 IH2]|n l r e ms E K L].
  - split; [intros _ ws H; inversion H | intros _]; constructor.
  - pose proof (warnings_quiet ms (layer_says_quiet _ _ _ L)) as Q. split.
    + intros S ws H. inversion H; subst; [|congruence]. apply (warnings_app ms rest [] ws); auto.
    + intros S. apply (warnings_app ms rest [] []); auto.
  - pose proof (warnings_quiet ms (layer_says_quiet _ _ _ L)) as Q. split; [|congruence].
    intros S ws H. inversion H; subst; [congruence|]. apply (warnings_app ms _ [] _); auto.
    replace e0 with e by congruence. apply WnKeep; auto.
  - split; [congruence|]. intros _. apply warnings_quiet. eapply layer_says_quiet; eauto.
Qed.

(** ** Starts *)
Lemma unresolved_log pf ds : forall f log, exists us, unresolved pf ds us
  /\ snd (fold_left (finder_with_os_dir_log pf) ds (f, log)) = log ++ us.
Proof.
  induction ds as [|d ds IH]; intros f log.
  { exists []. rewrite app_nil_r. split; [constructor | reflexivity]. }
  cbn [fold_left]. unfold finder_with_os_dir_log at 2. cbn [fst snd].
  destruct (to_path_buf pf d) as [p|] eqn:E.
  - edestruct IH as (us & A & B). exists us. split; [|exact B]. apply (UnKeep _ _ p); [now apply resolvable_iff | exact A].
  - edestruct IH as (us & A & B). exists (MsgUnresolved d :: us). split; [|rewrite B, <- app_assoc; reflexivity].
    apply UnSay; auto. intros p H. apply resolvable_iff in H. congruence.
Qed.
Lemma unresolved_In pf ds us : unresolved pf ds us -> forall m, In m us <-> exists d, In d ds /\ (forall p, ~ resolvable pf d p) /\ m = MsgUnresolved d.
Proof.
  induction 1 as [|d p ds ms R U IH|d ds ms R U IH]; intros m.
  - split; [intros [] | intros (? & [] & _)].
  - rewrite IH. split.
    + intros (x & I & H). exists x. split; [now right | auto].
    + intros (x & [<-|I] & H & Q); [now apply H in R | eauto].
  - cbn [In]. rewrite IH. split.
    + intros [<-|(x & I & H)]; [exists d; split; [now left | auto] | exists x; split; [now right | auto]].
    + intros (x & [<-|I] & H & Q); [auto | eauto 6].
Qed.
Lemma unresolved_fun pf ds us : unresolved pf ds us -> forall us', unresolved pf ds us' -> us = us'.
Proof.
  induction 1 as [|d p ds ms R U IH|d ds ms R U IH]; intros us' H; inversion H; subst; auto.
  - now destruct (H2 p).
  - now destruct (R p).
  - f_equal; auto.
Qed.
Lemma taken_log c h r n l : keeps_first h r -> registered c r -> taken_says h n (snd (push_layer_log c n l)).
Proof.
  intros K R. unfold push_layer_log. pose proof (keeps_first_names _ _ K) as [_ I].
  destruct (mhas n (layers c)) eqn:E; cbn [snd].
  - apply TkOld. apply I. apply (registered_names c r n R). now apply mhas_true.
  - apply TkNew. intros H. apply I, (registered_names c r n R), mhas_true in H. congruence.
Qed.
Lemma taken_fun h n a b : taken_says h n a -> taken_says h n b -> a = b.
Proof. destruct 1; inversion 1; auto; contradiction. Qed.
Lemma clause_nowhere w fname ls : clause_candidates w fname ls [] -> resolved (w_platform w) (ls_dirs ls) [].
Proof.
  intros (ds & cs & R & C & E). destruct cs; [|discriminate]. apply candidates_length in C. cbn in C.
  destruct ds; [auto | cbn in C; lia].
Qed.
Lemma write_log w l v w' res log2 n : layer_write_log w l v = ((w', res), log2) ->
  layer_write w l v = (w', res) /\ write_says n l res (log2 ++ match res with Ok _ => [] | Err e => [MsgNotWritten n e] end).
Proof.
  unfold layer_write_log. intros E. injection E as E <-. split; auto.
  exists (match l with LFile _ p => [MsgWriting p] | _ => [] end), (match res with Ok _ => [] | Err e => [MsgNotWritten n e] end).
  repeat split; destruct l, res; auto.
Qed.

Lemma run_layers_log_spec tc fname dv cs : forall h r c w log, keeps_first h r -> registered c r ->
  exists h' r' c' w' ms, run_layers_log tc fname dv (c, w) cs log = Done ((c', w'), log ++ ms)
    /\ start_says tc fname dv h w cs ms h' w' /\ keeps_first h' r' /\ registered c' r'.
Proof.
  induction cs as [|ls cs IH]; intros h r c w log K R.
  { exists h, r, c, w, []. rewrite app_nil_r. split; [reflexivity|]. split; [constructor|]. auto. }
  cbn [run_layers_log]. unfold run_layer_log.
  pose proof (layer_finder_log_fst w fname ls) as EF.
  destruct (unresolved_log (w_platform w) (ls_dirs ls) (finder_with_supported (finder_new fname)) []) as (us & U & EU).
  change (snd (layer_finder_log w fname ls) = us) in EU.
  destruct (layer_finder_log w fname ls) as [finder flog]. cbn [fst snd] in EF, EU. subst finder flog.
  destruct (clause_total w fname ls) as [ps C].
  destruct (clause_search _ _ _ _ C) as [S0 S1].
  assert (CASE : ps = [] \/ exists p, chosen w ps p).
  { destruct ps; [auto | right; apply chosen_total; discriminate]. }
  destruct CASE as [->|[p Ch]].
  - rewrite (S0 eq_refl). cbn [obind fst snd].
    destruct (IH h r c w (log ++ us ++ [MsgNoFile NoFoldersDefined]) K R) as (h' & r' & c' & w' & ms & E & M & K' & R').
    exists h', r', c', w', (us ++ MsgNoFile NoFoldersDefined :: ms). split; [rewrite E, <- !app_assoc; reflexivity|].
    split; [|auto]. apply SsNowhere; auto. eapply clause_nowhere; eauto.
  - destruct (S1 p Ch) as (fr & -> & ->).
    pose proof (add_file_layer_log_fst tc c (ls_name ls) p) as EA.
    destruct (has_ext_dec p (lit "toml")) as [X|X].
    + rewrite (add_file_accepts tc c (ls_name ls) p X) in EA.
      pose proof (taken_log c h r (ls_name ls) (LFile (toml_handler tc) p) K R) as T.
      set (lg := snd (push_layer_log c (ls_name ls) (LFile (toml_handler tc) p))) in *.
      assert (EL : snd (add_file_layer_log tc c (ls_name ls) p) = lg).
      { unfold add_file_layer_log. assert (EX : ext_match_path ExtToml p = true) by (apply ext_match_toml; auto).
        rewrite EX. subst lg. destruct (push_layer_log c (ls_name ls) (file_layer_new (toml_handler tc) p)) eqn:Q.
        unfold file_layer_new in Q. now rewrite Q. }
      destruct (add_file_layer_log tc c (ls_name ls) p) as [[cfg' res] log1]. cbn [fst snd] in EA, EL. subst log1.
      injection EA as -> ->.
      assert (Us : uses w fname ls p) by (exists ps; auto).
      destruct (push_keeps c h r (ls_name ls) (LFile (toml_handler tc) p) K R) as (r1 & K1 & R1).
      set (c1 := push_layer c (ls_name ls) (LFile (toml_handler tc) p)) in *.
      assert (SKIP : ~ (ls_init ls = Some true /\ missing w p) ->
        exists h' r' c' w' ms, obind (Done ((c1, w), us ++ lg)) (fun x => run_layers_log tc fname dv (fst x) cs (log ++ snd x)) = Done ((c', w'), log ++ ms)
          /\ start_says tc fname dv h w (ls :: cs) ms h' w' /\ keeps_first h' r' /\ registered c' r').
      { intros N. cbn [obind fst snd].
        destruct (IH _ r1 c1 w (log ++ us ++ lg) K1 R1) as (h' & r' & c' & w' & ms & E & M & K' & R').
        exists h', r', c', w', (us ++ lg ++ ms). split; [rewrite E, <- !app_assoc; reflexivity|].
        split; [|auto]. eapply SsAdd; eauto. }
      destruct (ls_init ls) as [init|] eqn:EI; [|apply SKIP; intros [? _]; discriminate].
      cbn [andb]. destruct (negb (fs_exists w p) && init) eqn:EB; [|].
      * apply andb_true_iff in EB as [EB ->]. apply negb_true_iff in EB.
        assert (Mi : missing w p) by now apply missing_exists.
        destruct (mget (ls_name ls) r1) as [l|] eqn:G.
        -- unfold get_layer. rewrite (registered_get c1 r1 _ R1), G.
           destruct (layer_write_log w l dv) as [[w1 res] log2] eqn:W.
           destruct (write_log _ _ _ _ _ _ (ls_name ls) W) as [W1 WS]. cbn [fst snd obind].
           set (xs := log2 ++ _) in WS.
           destruct (IH _ r1 c1 w1 (log ++ us ++ lg ++ xs) K1 R1) as (h' & r' & c' & w' & ms & E & M & K' & R').
           exists h', r', c', w', (us ++ lg ++ xs ++ ms). split; [fold xs; rewrite E, <- !app_assoc; reflexivity|].
           split; [|auto]. eapply SsInit; eauto. now apply (first_named_get _ r1).
        -- exfalso. apply (keeps_first_none _ _ _ K1) in G. apply G. rewrite map_app. apply in_or_app; right; left; auto.
      * apply SKIP. intros [EI' Mi]. injection EI' as ->. apply missing_exists in Mi. rewrite Mi in EB. discriminate.
    + destruct (add_file_refuses tc c (ls_name ls) p X) as (e & EQ & _). rewrite EQ in EA.
      assert (EL : snd (add_file_layer_log tc c (ls_name ls) p) = []).
      { unfold add_file_layer_log. destruct (ext_match_path ExtToml p) eqn:EX; [|reflexivity].
        apply ext_match_toml in EX. contradiction. }
      destruct (add_file_layer_log tc c (ls_name ls) p) as [[cfg' res] log1]. cbn [fst snd] in EA, EL. subst log1.
      injection EA as -> ->. cbn [andb]. rewrite app_nil_r.
      assert (Q : forall A : (config * world) * list message -> outcome ((config * world) * list message) finder_error,
        obind match ls_init ls with Some _ => Done ((c, w), us) | None => Done ((c, w), us) end A = A ((c, w), us)) by (intros; destruct (ls_init ls); auto).
      rewrite Q. cbn [fst snd].
      destruct (IH h r c w (log ++ us) K R) as (h' & r' & c' & w' & ms & E & M & K' & R').
      exists h', r', c', w', (us ++ ms). split; [rewrite E, <- !app_assoc; reflexivity|].
      split; [|auto]. eapply SsRefused; eauto.
Qed.
Lemma create_config_log_spec tc ms w : exists dv h r cfg w' log,
  value_map_macro (ms_default ms) = Done dv
  /\ create_config_log tc ms w = Done ((cfg, w'), log)
  /\ macro_says tc ms dv w log h w' /\ keeps_first (h ++ env_registration ms) r /\ registered cfg r.
Proof.
  destruct (macro_default ms) as (dv & E & D). unfold create_config_log. rewrite E.
  assert (K0 : keeps_first [(lit "default", LMemory dv)] [(lit "default", LMemory dv)])
    by (apply (KeepNew [] []); [constructor | cbn; tauto]).
  assert (R0 : registered (add_memory_layer config_new (lit "default") dv) [(lit "default", LMemory dv)]).
  { apply (proj1 (registered_push config_new [] (lit "default") (LMemory dv) registered_new)). cbn; tauto. }
  change (push_layer_log config_new (lit "default") (mem_layer_new dv))
    with (add_memory_layer config_new (lit "default") dv, @nil message). cbv beta iota.
  destruct (run_layers_log_spec tc (ms_file_name ms) dv (ms_layers ms) _ _ _ w [] K0 R0) as (h & r & c & w' & m & Ru & M & K & R).
  rewrite Ru. cbn [obind fst snd app]. unfold env_registration, macro_says. destruct (ms_env ms) as [prefix|].
  - destruct (push_keeps c h r (lit "environment") (env_layer_new prefix) K R) as (r' & K' & R').
    pose proof (push_layer_log_fst c (lit "environment") (env_layer_new prefix)) as EP.
    pose proof (taken_log c h r (lit "environment") (env_layer_new prefix) K R) as T.
    destruct (push_layer_log c (lit "environment") (env_layer_new prefix)) as [c' ts]. cbn [fst snd] in *. subst c'.
    exists dv, h, r', (push_layer c (lit "environment") (env_layer_new prefix)), w', (m ++ ts).
    split; [auto|]. split; [reflexivity|]. split; [exists m, ts; auto | auto].
  - exists dv, h, r, c, w', m. rewrite app_nil_r.
    split; [auto|]. split; [reflexivity|]. split; [exists m, []; rewrite app_nil_r; auto | auto].
Qed.
Lemma run_layers_log_fst tc fname dv cs : forall st log,
  match run_layers_log tc fname dv st cs log with
  | Done (st', _) => run_layers tc fname dv st cs = Done st'
  | Fail e => run_layers tc fname dv st cs = Fail e
  | Panic => run_layers tc fname dv st cs = Panic
  end.
Proof.
  induction cs as [|ls cs IH]; intros [c w] log; [reflexivity|]. cbn [run_layers_log run_layers].
  unfold run_layer_log, run_layer. pose proof (layer_finder_log_fst w fname ls) as EF.
  destruct (layer_finder_log w fname ls) as [finder flog]. cbn [fst] in EF. subst finder.
  destruct (find_first _ _ _) as [fr|e|]; cbn [obind fst snd]; try apply IH; auto.
  pose proof (add_file_layer_log_fst tc c (ls_name ls) (fr_path fr)) as EA.
  destruct (add_file_layer_log tc c (ls_name ls) (fr_path fr)) as [[c' r] lg]. cbn [fst] in EA. rewrite <- EA.
  destruct (ls_init ls) as [b|]; [|cbn [obind fst snd]; apply IH].
  destruct (_ && _ && b); [|cbn [obind fst snd]; apply IH].
  destruct (get_layer c' (ls_name ls)) as [l|]; [|cbn [obind fst snd]; apply IH].
  unfold layer_write_log. destruct (layer_write w l dv) as [w1 res]. cbn [obind fst snd]. apply IH.
Qed.
Lemma create_config_log_fst tc ms w :
  match create_config_log tc ms w with
  | Done (st, _) => create_config tc ms w = Done st
  | Fail e => create_config tc ms w = Fail e
  | Panic => create_config tc ms w = Panic
  end.
Proof.
  unfold create_config_log, create_config. destruct (value_map_macro (ms_default ms)) as [dv|e|]; auto.
  pose proof (push_layer_log_fst config_new (lit "default") (mem_layer_new dv)) as EP.
  destruct (push_layer_log config_new (lit "default") (mem_layer_new dv)) as [c0 l0]. cbn [fst] in EP.
  change (push_layer config_new (lit "default") (mem_layer_new dv)) with (add_memory_layer config_new (lit "default") dv) in EP. rewrite <- EP.
  pose proof (run_layers_log_fst tc (ms_file_name ms) dv (ms_layers ms) (c0, w) l0) as H.
  destruct (run_layers_log tc (ms_file_name ms) dv (c0, w) (ms_layers ms) l0) as [[[c w1] lg]|e|]; rewrite H; [|reflexivity..].
  cbn [obind fst snd]. destruct (ms_env ms) as [p|]; [|reflexivity].
  pose proof (push_layer_log_fst c (lit "environment") (env_layer_new p)) as EQ.
  destruct (push_layer_log c (lit "environment") (env_layer_new p)) as [c2 l2]. cbn [fst] in EQ. subst c2. reflexivity.
Qed.
Lemma create_config_log_run tc ms w cfg w' log dv : create_config_log tc ms w = Done ((cfg, w'), log) ->
  value_map_macro (ms_default ms) = Done dv ->
  exists h r, macro_says tc ms dv w log h w' /\ keeps_first (h ++ env_registration ms) r /\ registered cfg r.
Proof.
  intros E V. destruct (create_config_log_spec tc ms w) as (dv' & h & r & cfg' & w1 & log' & V' & E' & M & K & R).
  assert (dv' = dv) by congruence. subst dv'.
  rewrite E in E'. injection E' as <- <- <-. eauto.
Qed.

(** ** What a run's records say about the run *)
Lemma refused_not_used w fname ls ps p : clause_candidates w fname ls ps -> chosen w ps p -> ~ has_extension p (lit "toml") ->
  forall q, ~ uses w fname ls q.
Proof.
  intros C Ch X q (ps' & C' & Ch' & X'). rewrite (clause_fun _ _ _ _ _ C' C) in Ch'.
  rewrite (chosen_fun _ _ _ _ Ch' Ch) in X'. contradiction.
Qed.
Lemma nowhere_not_used w fname ls : resolved (w_platform w) (ls_dirs ls) [] -> forall q, ~ uses w fname ls q.
Proof.
  intros R q (ps & (ds & cs & R' & C & ->) & Ch & _). rewrite (resolved_fun _ _ _ _ R' R) in C.
  apply candidates_length in C. cbn in C. destruct cs; [|discriminate]. now apply chosen_In in Ch.
Qed.
Lemma start_says_run tc fname dv h w cs ms h' w' : start_says tc fname dv h w cs ms h' w' -> macro_run tc fname dv h w cs h' w'.
Proof.
  induction 1.
  - constructor.
  - apply RunSkip; auto. now apply nowhere_not_used.
  - apply RunSkip; auto. eapply refused_not_used; eauto.
  - eapply RunAdd; eauto.
  - eapply RunInit; eauto.
Qed.
Lemma write_says_fun n l r a b : write_says n l r a -> write_says n l r b -> a = b.
Proof.
  intros (a1 & a2 & -> & A1 & A2) (b1 & b2 & -> & B1 & B2). f_equal; [destruct l; congruence | destruct r; congruence].
Qed.
Lemma start_says_fun tc fname dv h w cs m1 h1 w1 : start_says tc fname dv h w cs m1 h1 w1 ->
  forall m2 h2 w2, start_says tc fname dv h w cs m2 h2 w2 -> m1 = m2.
Proof.
  induction 1 as [h w|h w ls cs us ms h' w' Rn U S IH|h w ls cs ps p us ms h' w' C Ch X U S IH
    |h w ls p cs us ts ms h' w' Us N U T S IH|h w ls p l wm r cs us ts xs ms h' w' Us EI Mi F E U T W S IH]; intros m2 h2 w2 H2;
    inversion H2 as [|? ? ? ? us2 ms2 ? ? Rn2 U2 S2|? ? ? ? ps2 p2 us2 ms2 ? ? C2 Ch2 X2 U2 S2
    |? ? ? p2 ? us2 ts2 ms2 ? ? Us2 N2 U2 T2 S2|? ? ? p2 l2 wm2 r2 ? us2 ts2 xs2 ms2 ? ? Us2 EI2 Mi2 F2 E2 U2 T2 W2 S2]; subst;
    try (now destruct (nowhere_not_used _ fname _ Rn _ Us2)); try (now destruct (nowhere_not_used _ fname _ Rn2 _ Us));
    try (now destruct (refused_not_used _ _ _ _ _ C Ch X _ Us2)); try (now destruct (refused_not_used _ _ _ _ _ C2 Ch2 X2 _ Us)).
  - auto.
  - rewrite (unresolved_fun _ _ _ U _ U2). do 2 f_equal. eauto.
  - exfalso. destruct C2 as (ds & cc & R' & C & ->). rewrite (resolved_fun _ _ _ _ R' Rn) in C.
    apply candidates_length in C. cbn in C. destruct cc; [|discriminate]. now apply chosen_In in Ch2.
  - exfalso. destruct C as (ds & cc & R' & C & ->). rewrite (resolved_fun _ _ _ _ R' Rn2) in C.
    apply candidates_length in C. cbn in C. destruct cc; [|discriminate]. now apply chosen_In in Ch.
  - rewrite (unresolved_fun _ _ _ U _ U2). f_equal. eauto.
  - assert (p = p2) by exact (uses_fun _ _ _ _ _ Us Us2). subst p2.
    rewrite (unresolved_fun _ _ _ U _ U2), (taken_fun _ _ _ _ T T2). do 2 f_equal. eauto.
  - assert (p = p2) by exact (uses_fun _ _ _ _ _ Us Us2). subst p2. tauto.
  - assert (p = p2) by exact (uses_fun _ _ _ _ _ Us Us2). subst p2. tauto.
  - assert (p = p2) by exact (uses_fun _ _ _ _ _ Us Us2). subst p2.
    assert (l = l2) by exact (first_named_fun _ _ _ _ F F2). subst l2. rewrite E in E2. injection E2 as <- <-.
    rewrite (unresolved_fun _ _ _ U _ U2), (taken_fun _ _ _ _ T T2), (write_says_fun _ _ _ _ _ W W2). do 3 f_equal. eauto.
Qed.

(** ** Quiet starts *)
Lemma warnings_nil_app a b : warnings (a ++ b) [] -> warnings a [] /\ warnings b [].
Proof.
  induction a as [|m a IH]; intros H; [split; [constructor | exact H]|].
  cbn in H. inversion H; subst. destruct IH; auto. split; auto. now apply WnDrop.
Qed.
Lemma warnings_nil l : warnings l [] <-> forall m, In m l -> level_of m <> Warn.
Proof.
  split; [|apply warnings_quiet]. intros H m I W. now apply (proj2 (warnings_In _ _ H m)); auto.
Qed.
Lemma unresolved_quiet pf ds us : unresolved pf ds us -> warnings us [] -> forall d, In d ds -> exists p, resolvable pf d p.
Proof.
  intros U W d I. destruct (to_path_buf pf d) as [p|] eqn:E; [exists p; now apply resolvable_iff|].
  exfalso. apply (proj1 (warnings_nil us) W (MsgUnresolved d)); [|reflexivity].
  apply (unresolved_In _ _ _ U). exists d. split; auto. split; auto. intros p H. apply resolvable_iff in H. congruence.
Qed.
Lemma history_kept tc fname dv h w cs h' w' : macro_run tc fname dv h w cs h' w' -> exists more, h' = h ++ more.
Proof.
  induction 1 as [h w|h w ls cs h' w' N M IH|h w ls p cs h' w' U N M [more ->]|h w ls p l w1 r cs h' w' U EI Mi F E M [more ->]].
  - exists []. now rewrite app_nil_r.
  - auto.
  - rewrite <- app_assoc. eauto.
  - rewrite <- app_assoc. eauto.
Qed.
Lemma quiet_run tc fname dv h w cs ms h' w' : start_says tc fname dv h w cs ms h' w' -> warnings ms [] ->
  NoDup (map fst h ++ map ls_name cs) -> forall ls, In ls cs ->
  (forall d, In d (ls_dirs ls) -> exists p, resolvable (w_platform w) d p) /\ ls_dirs ls <> []
  /\ forall ps, clause_candidates w fname ls ps -> (forall p, In p ps -> has_extension p (lit "toml")) ->
     (exists p, In p ps /\ In (ls_name ls, LFile (toml_handler tc) p) h')
     /\ (ls_init ls = Some true -> exists p, In p ps /\ ~ missing w' p).
Proof.
  induction 1 as [h w|h w ls cs us ms h' w' Rn U S IH|h w ls cs ps p us ms h' w' C Ch X U S IH
    |h w ls p cs us ts ms h' w' Us N U T S IH|h w ls p l wm r cs us ts xs ms h' w' Us EI Mi F E U T W S IH]; intros Q D x I.
  - destruct I.
  - exfalso. apply warnings_nil_app in Q as [_ Q]. inversion Q; subst. now apply H1.
  - apply warnings_nil_app in Q as [Qu Q]. cbn [map] in D. pose proof (proj1 (NoDup_remove _ _ _ D)) as D'.
    destruct I as [<-|I]; [|apply IH; auto].
    split; [eapply unresolved_quiet; eauto|]. split.
    + intros E. destruct C as (ds & cc & R' & C & ->). rewrite E in R'. inversion R'; subst.
      apply candidates_length in C. cbn in C. destruct cc; [|discriminate]. now apply chosen_In in Ch.
    + intros ps2 C2 A. exfalso. apply X, A. rewrite (clause_fun _ _ _ _ _ C2 C). eapply chosen_In; eauto.
  - apply warnings_nil_app in Q as [Qu Q]. apply warnings_nil_app in Q as [Qt Q]. cbn [map] in D.
    assert (D' : NoDup (map fst (h ++ [(ls_name ls, LFile (toml_handler tc) p)]) ++ map ls_name cs)).
    { rewrite map_app. cbn [map fst]. now apply NoDup_snoc_assoc. }
    destruct I as [<-|I]; [|apply IH; auto].
    destruct Us as (ps & C & Ch & X).
    split; [eapply unresolved_quiet; eauto|]. split.
    + intros E. destruct C as (ds & cc & R' & C & ->). rewrite E in R'. inversion R'; subst.
      apply candidates_length in C. cbn in C. destruct cc; [|discriminate]. now apply chosen_In in Ch.
    + intros ps2 C2 A. rewrite (clause_fun _ _ _ _ _ C2 C) in *. apply start_says_run in S. split.
      * exists p. split; [eapply chosen_In; eauto|]. destruct (history_kept _ _ _ _ _ _ _ _ S) as [more ->].
        apply in_or_app. left. apply in_or_app. right. now left.
      * intros EI. exists p. split; [eapply chosen_In; eauto|]. intros Mi. apply N. split; auto.
        exact (run_monotone _ _ _ _ _ _ _ _ S D' p Mi).
  - apply warnings_nil_app in Q as [Qu Q]. apply warnings_nil_app in Q as [Qt Q]. apply warnings_nil_app in Q as [Qx Q]. cbn [map] in D.
    assert (D' : NoDup (map fst (h ++ [(ls_name ls, LFile (toml_handler tc) p)]) ++ map ls_name cs)).
    { rewrite map_app. cbn [map fst]. now apply NoDup_snoc_assoc. }
    assert (NI : ~ In (ls_name ls) (map fst h)).
    { intros I'. apply NoDup_remove_2 in D. apply D. apply in_or_app; auto. }
    apply first_named_new in F; auto. subst l.
    pose proof (file_write_prefix _ _ _ _ _ _ E) as [SB _].
    destruct (same_but_system _ _ _ SB) as (_ & _ & PF & _).
    destruct I as [<-|I].
    + destruct Us as (ps & C & Ch & X).
      split; [eapply unresolved_quiet; eauto|]. split.
      * intros E0. destruct C as (ds & cc & R' & C & ->). rewrite E0 in R'. inversion R'; subst.
        apply candidates_length in C. cbn in C. destruct cc; [|discriminate]. now apply chosen_In in Ch.
      * intros ps2 C2 A. rewrite (clause_fun _ _ _ _ _ C2 C) in *. apply start_says_run in S. split.
        -- exists p. split; [eapply chosen_In; eauto|]. destruct (history_kept _ _ _ _ _ _ _ _ S) as [more ->].
           apply in_or_app. left. apply in_or_app. right. now left.
        -- intros _. exists p. split; [eapply chosen_In; eauto|]. intros Mw.
           apply (run_monotone _ _ _ _ _ _ _ _ S D' p) in Mw.
           destruct W as (a & b & -> & _ & Wb). destruct r as [[]|e].
           ++ apply file_write_effect in E as [_ (s' & _ & Fw)]. specialize (Fw p eq_refl). unfold missing in Mw. congruence.
           ++ subst b. apply warnings_nil_app in Qx as [_ Qx]. inversion Qx; subst. now apply H1.
    + destruct (IH Q D' x I) as (A1 & A2 & A3). rewrite PF in A1. split; auto. split; auto.
      intros ps C A. apply A3; auto. eapply clause_platform; eauto.
Qed.

(** ** Values are not logged *)
Lemma env_says_values p env env' ms ms' : p <> [] -> same_variables p env env' -> env_says p env ms -> env_says p env' ms' -> ms = ms'.
Proof.
  intros N F. revert ms ms'. induction F as [|kv kv' env env' [E H] F IH]; intros ms ms' S S'.
  { inversion S; subst. now inversion S'. }
  inversion S as [|? ? ? T1 S1|? n1 t1 k1 ? ? U1 Tr1 St1 T1 S1|? n1 t1 ? ? U1 Tr1 O1 S1]; subst.
  - inversion S' as [|? ? ? T2 S2|? n2 t2 k2 ? ? U2 Tr2 St2 T2 S2|? n2 t2 ? ? U2 Tr2 O2 S2]; subst; rewrite <- E in *.
    + f_equal; auto. + now apply T1 in U2. + now apply T1 in U2.
  - exfalso. apply strips_iff in St1 as [B _]; auto. destruct (H _ _ U1 Tr1 B) as [[s X] _]. now apply T1 in X.
  - inversion S' as [|? ? ? T2 S2|? n2 t2 k2 ? ? U2 Tr2 St2 T2 S2|? n2 t2 ? ? U2 Tr2 O2 S2]; subst; rewrite <- E in *; auto.
    + now apply T2 in U1.
    + exfalso. apply strips_iff in St2 as [B _]; auto. destruct (H _ _ U2 Tr2 B) as [_ [s X]]. now apply T2 in X.
Qed.
Lemma layer_says_values tc w w' l l' ms ms' : same_source tc w w' l l' -> layer_says w l ms -> layer_says w' l' ms' -> ms = ms'.
Proof.
  intros [v v'|p F|p E] A B; inversion A; subst; inversion B; subst; auto; try contradiction; try tauto.
  f_equal. eapply env_says_values; eauto.
Qed.
Lemma build_says_values tc w w' skip skip' r r' ms ms' :
  Forall2 (fun a b => fst a = fst b /\ same_source tc w w' (snd a) (snd b)) r r' ->
  (forall n l, In (n, l) r -> exists v, layer_read w l = Ok v) -> (forall n l, In (n, l) r' -> exists v, layer_read w' l = Ok v) ->
  build_says w skip r ms -> build_says w' skip' r' ms' -> ms = ms'.
Proof.
  intros F. revert ms ms'. induction F as [|[n l] [n' l'] r r' [En Sr] F IH]; intros ms ms' A A' B B'.
  { inversion B; subst. now inversion B'. }
  destruct (A n l (or_introl eq_refl)) as [v E]. destruct (A' n' l' (or_introl eq_refl)) as [v' E'].
  inversion B; subst; try congruence. inversion B'; subst; try congruence.
  f_equal; [eapply layer_says_values; eauto|]. apply IH; auto; intros; [eapply A | eapply A']; right; eauto.
Qed.

(** Two histories of one start: the same names, the same files. *)
Definition same_kind (tc : codec) (a b : layer) : Prop :=
  (exists v v', a = LMemory v /\ b = LMemory v') \/ exists p, a = LFile (toml_handler tc) p /\ b = LFile (toml_handler tc) p.
Definition kin (tc : codec) (h h' : list (str * layer)) : Prop := Forall2 (fun a b => fst a = fst b /\ same_kind tc (snd a) (snd b)) h h'.
Lemma kin_names tc h h' : kin tc h h' -> map fst h = map fst h'.
Proof. induction 1 as [|a b h h' [E _] F IH]; cbn; congruence. Qed.
Lemma kin_named tc h h' n l l' : kin tc h h' -> first_named h n l -> first_named h' n l' -> same_kind tc l l'.
Proof.
  intros K (b & a & E & Nb) (b' & a' & E' & Nb').
  revert h h' K E E' Nb Nb'. revert b'. induction b as [|x b IH]; intros [|x' b'] h h' K E E' Nb Nb'; subst; cbn in K; inversion K; subst.
  - destruct H2 as [_ Kd]. exact Kd.
  - destruct H2 as [En _]. cbn in En. exfalso. apply Nb'. left. auto.
  - destruct H2 as [En _]. cbn in En. exfalso. apply Nb. left. auto.
  - eapply (IH b' _ _ H4 eq_refl eq_refl); intros I; [apply Nb | apply Nb']; now right.
Qed.
Lemma kin_snoc tc h h' n p : kin tc h h' -> kin tc (h ++ [(n, LFile (toml_handler tc) p)]) (h' ++ [(n, LFile (toml_handler tc) p)]).
Proof. intros K. apply Forall2_app; auto. constructor; [|constructor]. split; [reflexivity|]. right. exists p. split; reflexivity. Qed.
Lemma chosen_alike w w' ps p : alike_worlds w w' -> chosen w ps p -> chosen w' ps p.
Proof.
  intros (_ & _ & M) [b q a Hb Hq|q rest H].
  - apply ChosenExisting; [intros x I; now apply M, Hb | now rewrite <- M].
  - apply ChosenFirst. intros x I. now apply M, H.
Qed.
Lemma uses_alike w w' fname ls p : alike_worlds w w' -> uses w fname ls p -> uses w' fname ls p.
Proof.
  intros A (ps & C & Ch & X). exists ps. split; [|split; auto; eapply chosen_alike; eauto].
  eapply clause_platform; [|exact C]. symmetry. apply A.
Qed.
Lemma written_alike tc w w' p v v' w1 w1' : alike_worlds w w' -> layer_write w (LFile (toml_handler tc) p) v = (w1, Ok tt) ->
  layer_write w' (LFile (toml_handler tc) p) v' = (w1', Ok tt) -> alike_worlds w1 w1'.
Proof.
  intros (P & T & M) E E'.
  apply file_write_effect in E as [(Fr & T1 & _ & P1 & _) (s & _ & Fw)].
  apply file_write_effect in E' as [(Fr' & T1' & _ & P1' & _) (s' & _ & Fw')].
  split; [congruence|]. split; [congruence|]. intros q. unfold missing in *.
  destruct (same_file_dec w p q) as [Sf|Sf].
  - rewrite (Fw q Sf). assert (Sf' : same_file w' p q) by (unfold same_file in *; now rewrite <- T).
    rewrite (Fw' q Sf'). split; discriminate.
  - assert (Sf' : ~ same_file w' p q) by (unfold same_file in *; now rewrite <- T).
    rewrite (Fr q Sf), (Fr' q Sf'). apply M.
Qed.
Definition unwritten (m : message) : Prop := exists n e, m = MsgNotWritten n e.
Lemma start_says_values tc fname dv dv' h w cs ms h1 w1 : start_says tc fname dv h w cs ms h1 w1 ->
  forall h' w' ms' h1' w1', start_says tc fname dv' h' w' cs ms' h1' w1' -> alike_worlds w w' -> kin tc h h' ->
  (forall m, In m ms -> ~ unwritten m) -> (forall m, In m ms' -> ~ unwritten m) -> ms = ms' /\ kin tc h1 h1'.
Proof.
  induction 1 as [h w|h w ls cs us ms h1 w1 Rn U S IH|h w ls cs ps p us ms h1 w1 C Ch X U S IH
    |h w ls p cs us ts ms h1 w1 Us N U T S IH|h w ls p l wm r cs us ts xs ms h1 w1 Us EI Mi F E U T W S IH]; intros h' w' m2 h2 w2 H2 A K Q Q';
    inversion H2 as [|? ? ? ? us2 ms2 ? ? Rn2 U2 S2|? ? ? ? ps2 p2 us2 ms2 ? ? C2 Ch2 X2 U2 S2
    |? ? ? p2 ? us2 ts2 ms2 ? ? Us2 N2 U2 T2 S2|? ? ? p2 l2 wm2 r2 ? us2 ts2 xs2 ms2 ? ? Us2 EI2 Mi2 F2 E2 U2 T2 W2 S2]; subst;
    pose proof A as (Pf & Tg & Mm); try rewrite <- Pf in *;
    try (apply (uses_alike w' w) in Us2; [|destruct A as (A1 & A2 & A3); repeat split; auto; apply A3]);
    try (apply (chosen_alike w' w) in Ch2; [|destruct A as (A1 & A2 & A3); repeat split; auto; apply A3]);
    try (apply (clause_platform w' w) in C2; [|auto]);
    try (now destruct (nowhere_not_used _ fname _ Rn _ Us2)); try (now destruct (nowhere_not_used _ fname _ Rn2 _ Us));
    try (now destruct (refused_not_used _ _ _ _ _ C Ch X _ Us2)); try (now destruct (refused_not_used _ _ _ _ _ C2 Ch2 X2 _ Us)).
  - auto.
  - rewrite (unresolved_fun _ _ _ U _ U2).
    destruct (IH _ _ _ _ _ S2 A K) as [-> Kn]; auto; intros m I; [apply Q | apply Q']; apply in_or_app; right; now right.
  - exfalso. destruct C2 as (ds & cc & R' & C & ->). rewrite (resolved_fun _ _ _ _ R' Rn) in C.
    apply candidates_length in C. cbn in C. destruct cc; [|discriminate]. now apply chosen_In in Ch2.
  - exfalso. destruct C as (ds & cc & R' & C & ->). rewrite (resolved_fun _ _ _ _ R' Rn2) in C.
    apply candidates_length in C. cbn in C. destruct cc; [|discriminate]. now apply chosen_In in Ch.
  - rewrite (unresolved_fun _ _ _ U _ U2).
    destruct (IH _ _ _ _ _ S2 A K) as [-> Kn]; auto; intros m I; [apply Q | apply Q']; apply in_or_app; now right.
  - assert (p = p2) by exact (uses_fun _ _ _ _ _ Us Us2). subst p2.
    assert (TS : ts = ts2) by (destruct T, T2; auto; rewrite (kin_names _ _ _ K) in *; contradiction).
    rewrite (unresolved_fun _ _ _ U _ U2), TS.
    destruct (IH _ _ _ _ _ S2 A (kin_snoc _ _ _ _ _ K)) as [-> Kn]; auto; intros m I; [apply Q | apply Q'];
      apply in_or_app; right; apply in_or_app; now right.
  - assert (p = p2) by exact (uses_fun _ _ _ _ _ Us Us2). subst p2. exfalso. apply N. split; auto. now apply Mm.
  - assert (p = p2) by exact (uses_fun _ _ _ _ _ Us Us2). subst p2. exfalso. apply N2. split; auto. now apply Mm.
  - assert (p = p2) by exact (uses_fun _ _ _ _ _ Us Us2). subst p2.
    assert (TS : ts = ts2) by (destruct T, T2; auto; rewrite (kin_names _ _ _ K) in *; contradiction).
    pose proof (kin_snoc _ _ _ (ls_name ls) p K) as K1.
    pose proof (kin_named _ _ _ _ _ _ K1 F F2) as KL.
    assert (RO : r = Ok tt).
    { destruct r as [[]|e]; auto. exfalso. destruct W as (a & b & -> & _ & ->). apply (Q (MsgNotWritten (ls_name ls) e)); [|eexists; eauto].
      apply in_or_app; right; apply in_or_app; right; apply in_or_app; left; apply in_or_app; right; now left. }
    assert (RO2 : r2 = Ok tt).
    { destruct r2 as [[]|e]; auto. exfalso. destruct W2 as (a & b & -> & _ & ->). apply (Q' (MsgNotWritten (ls_name ls) e)); [|eexists; eauto].
      apply in_or_app; right; apply in_or_app; right; apply in_or_app; left; apply in_or_app; right; now left. }
    subst r r2. destruct KL as [(v & v' & -> & ->)|(q & -> & ->)]; [discriminate E|].
    assert (XS : xs = xs2) by exact (write_says_fun _ _ _ _ _ W W2). subst xs2.
    rewrite (unresolved_fun _ _ _ U _ U2), TS.
    destruct (IH _ _ _ _ _ S2 (written_alike _ _ _ _ _ _ _ _ A E E2) K1) as [-> Kn]; auto; intros m I; [apply Q | apply Q'];
      apply in_or_app; right; apply in_or_app; right; apply in_or_app; now right.
Qed.
