(** [create_config!] followed by a build. *)
From Coq Require Import ZArith Bool String Permutation.
From Coq Require Import List.
Import ListNotations.
From Verif.Model Require Import Text Num Flt Value Merge Paths Finder World Layers Config Macro.
From Verif.Spec Require Import Spec MergeSpec ConfigSpec EnvSpec FinderSpec PathSpec MacroSpec ReadsSpec StartSpec.
From Verif.Proofs Require Import Basics Containers Merge ConfigBuild Utf8 Env Files MacroProofs Reads.

Definition as_file (tc : codec) (np : str * path) : str * layer := (fst np, LFile (toml_handler tc) (snd np)).

(** ** The default map is a proper Value *)
Lemma minsert_In_inv (k : str) (x : value) m k' x' : In (k', x') (minsert k x m) -> (k' = k /\ x' = x) \/ In (k', x') m.
Proof.
  induction m as [|[k1 x1] m IH]; cbn.
  - intros [E|[]]; injection E as <- <-; auto.
  - destruct (str_eqb k k1) eqn:E.
    + apply str_eqb_eq in E. intros [X|X]; [injection X as <- <-; auto | right; right; auto].
    + intros [X|X]; [right; left; auto | destruct (IH X); auto].
Qed.
Lemma minsert_wf k x m : wf (VMap m) -> is_text k = true -> wf x -> wf (VMap (minsert k x m)).
Proof.
  rewrite !wf_map. intros [D W] T X. split; [now apply minsert_nodup|].
  intros k' x' I. apply minsert_In_inv in I as [[-> ->]|I]; auto.
Qed.
Lemma value_map_wf kvs : (forall k x, In (k, x) kvs -> is_text k = true /\ wf x) ->
  forall v0 v, wf v0 -> value_map_loop v0 kvs = Done v -> wf v.
Proof.
  induction kvs as [|[k x] kvs IH]; intros H v0 v W E; cbn in E; [injection E as <-; auto|].
  destruct (H k x (or_introl eq_refl)) as [T X].
  destruct v0; cbn in E; try discriminate.
  eapply IH; [intros; apply H; right; auto | | exact E]. now apply minsert_wf.
Qed.

(** ** What a layer contributes *)
Definition exactly (tc : codec) (w : world) (l : layer) (ms : list value) : Prop :=
  contributes tc w l ms /\ (forall v, In v ms -> mapv v /\ wf v)
  /\ forall acc, (match layer_read w l with Ok v => v_merge acc v | Err _ => acc end) = fold_left v_merge ms acc.

Lemma exactly_memory tc w v : mapv v -> wf v -> exactly tc w (LMemory v) [v].
Proof. intros M W. split; [now constructor|]. split; [intros ? [<-|[]]; auto | reflexivity]. Qed.
Lemma exactly_file tc w p : proper_codec tc -> exists ms, exactly tc w (LFile (toml_handler tc) p) ms.
Proof.
  intros P. pose proof (proj1 (file_answer_iff tc w p _) eq_refl) as A. unfold exactly.
  destruct (layer_read w (LFile (toml_handler tc) p)) as [v|e] eqn:E.
  - destruct (mapv_dec v) as [M|N].
    + exists [v]. split; [econstructor; eauto|]. split; [|reflexivity]. intros x [<-|[]]. split; auto.
      inversion A; subst; [cbn; repeat constructor | eauto].
    + exists []. split; [eapply ConFileOther; eauto|]. split; [intros ? []|]. intros acc. apply v_merge_noop. tauto.
  - exists []. split; [eapply ConFileError; eauto|]. split; [intros ? []|]. reflexivity.
Qed.
Lemma exactly_env tc w prefix : exists ms, exactly tc w (env_layer_new prefix) ms.
Proof.
  destruct (trim prefix) as [|c p] eqn:T0; assert (T := proj2 (trimmed_iff _ _) T0).
  - exists []. split; [now constructor|]. split; [intros ? []|]. intros acc.
    destruct (env_layer_blank w prefix VNone T) as [-> _]. reflexivity.
  - destruct (env_layer_read w prefix (c :: p) T) as (v & E & M & W & H); [discriminate|].
    exists [v]. split; [econstructor; eauto; discriminate|]. split; [intros ? [<-|[]]; auto|].
    intros acc. now rewrite E.
Qed.

Lemma build_contributions tc w ls mm : Forall2 (exactly tc w) ls mm ->
  forall acc, build_list w true acc ls = Ok (fold_left v_merge (concat mm) acc).
Proof.
  induction 1 as [|l ms ls mm (C & W & X) F IH]; intros acc; cbn; auto.
  rewrite fold_left_app, <- X. destruct (layer_read w l); apply IH.
Qed.
Lemma exactly_proper tc w ls mm : Forall2 (exactly tc w) ls mm -> forall v, In v (concat mm) -> mapv v /\ wf v.
Proof.
  induction 1 as [|l ms ls mm (C & W & X) F IH]; intros v I; cbn in I; [tauto|].
  apply in_app_or in I as [I|I]; auto.
Qed.
Lemma strict_build_list w ls : forall acc, (exists v, build_list w false acc ls = Ok v) <-> (forall l e, In l ls -> layer_read w l <> Err e).
Proof.
  induction ls as [|l ls IH]; intros acc; cbn.
  - split; eauto.
  - destruct (layer_read w l) as [v|e] eqn:E.
    + rewrite IH. split; intros H; [intros l' e [<-|I]; [congruence | auto] | auto].
    + split; [intros [? ?]; discriminate | intros H; destruct (H l e (or_introl eq_refl) E)].
Qed.
Lemma strict_is_lenient w ls : forall acc v, build_list w false acc ls = Ok v -> build_list w true acc ls = Ok v.
Proof. induction ls as [|l ls IH]; intros acc v; cbn; auto. destruct (layer_read w l); auto; discriminate. Qed.

(** ** The registered layers *)
Lemma run_files tc fname dv h w cs h' w' : macro_run tc fname dv h w cs h' w' -> exists fs, h' = h ++ map (as_file tc) fs.
Proof.
  induction 1 as [h w|h w ls cs h' w' N R IH|h w ls p cs h' w' U N R IH|h w ls p l w1 r cs h' w' U I M F L R IH].
  - exists []. cbn. now rewrite app_nil_r.
  - auto.
  - destruct IH as [fs ->]. exists ((ls_name ls, p) :: fs). cbn. now rewrite <- app_assoc.
  - destruct IH as [fs ->]. exists ((ls_name ls, p) :: fs). cbn. now rewrite <- app_assoc.
Qed.
Lemma keeps_first_all {A} (h r : list (str * A)) : keeps_first h r -> NoDup (map fst h) -> r = h.
Proof.
  induction 1 as [|h r n l K IH N|h r n l K IH N]; auto; rewrite map_app; cbn; intros D.
  - f_equal. apply IH. now apply nodup_app_l in D.
  - exfalso. apply NoDup_remove_2 in D. rewrite app_nil_r in D. auto.
Qed.

Lemma start_layers tc ms w : distinct_start ms -> exists dv cfg w' fs,
  value_map_macro (ms_default ms) = Done dv /\ default_map ms dv /\ create_config tc ms w = Done (cfg, w')
  /\ macro_run tc (ms_file_name ms) dv [(lit "default", LMemory dv)] w (ms_layers ms)
       ((lit "default", LMemory dv) :: map (as_file tc) fs) w'
  /\ registered cfg ((lit "default", LMemory dv) :: map (as_file tc) fs ++ env_registration ms).
Proof.
  intros D. destruct (create_config_spec tc ms w) as (dv & h & r & cfg & w' & V & M & E & R & K & G).
  destruct (run_files _ _ _ _ _ _ _ _ R) as [fs Eh]. cbn [app] in Eh.
  exists dv, cfg, w', fs. split; auto. split; auto. split; auto. split; [now rewrite <- Eh|].
  replace ((lit "default", LMemory dv) :: map (as_file tc) fs ++ env_registration ms) with (h ++ env_registration ms) by now rewrite Eh.
  rewrite <- (keeps_first_all _ _ K); auto.
  unfold distinct_start in D.
  assert (D1 : NoDup (map fst h)).
  { pose proof R as R'. rewrite <- (app_nil_r (ms_layers ms)) in R'.
    assert (X : NoDup (map fst [(lit "default", LMemory dv)] ++ map ls_name (ms_layers ms ++ []))).
    { rewrite app_nil_r. cbn. inversion D; subst. inversion H2; subst. constructor; auto. intros X; apply H1; right; auto. }
    pose proof (run_nodup tc _ dv (ms_layers ms) [] _ _ h w' R X) as [Y _]. now rewrite app_nil_r in Y. }
  unfold env_registration. destruct (ms_env ms) as [prefix|]; [|now rewrite app_nil_r].
  rewrite map_app. cbn. apply NoDup_snoc; auto.
  intros X. destruct (run_new_names _ _ _ _ _ _ _ _ R _ X) as [[Y|[]]|Y]; [discriminate Y|].
  inversion D; subst. inversion H2; subst. auto.
Qed.

(** ** The effective value *)
Definition start_list (tc : codec) (ms : macro_spec) (dv : value) (fs : list (str * path)) : list layer :=
  LMemory dv :: map (fun np => LFile (toml_handler tc) (snd np)) fs ++ map snd (env_registration ms).

Lemma exactly_files tc w fs : proper_codec tc ->
  exists mm, Forall2 (exactly tc w) (map (fun np : str * path => LFile (toml_handler tc) (snd np)) fs) mm.
Proof.
  intros P. induction fs as [|f fs [mm F]]; [exists []; constructor|].
  destruct (exactly_file tc w (snd f) P) as [ms E]. exists (ms :: mm). now constructor.
Qed.
Lemma exactly_envs tc w ms : exists mm, Forall2 (exactly tc w) (map snd (env_registration ms)) mm.
Proof.
  unfold env_registration. destruct (ms_env ms) as [prefix|]; [|exists []; constructor].
  destruct (exactly_env tc w prefix) as [m E]. exists [m]. constructor; [exact E | constructor].
Qed.

Lemma start_build tc ms w : distinct_start ms -> proper_defaults ms -> proper_codec tc ->
  exists dv cfg w' fs fm em,
  value_map_macro (ms_default ms) = Done dv /\ default_map ms dv /\ wf dv /\ create_config tc ms w = Done (cfg, w')
  /\ macro_run tc (ms_file_name ms) dv [(lit "default", LMemory dv)] w (ms_layers ms)
       ((lit "default", LMemory dv) :: map (as_file tc) fs) w'
  /\ w_env w' = w_env w
  /\ registered cfg ((lit "default", LMemory dv) :: map (as_file tc) fs ++ env_registration ms)
  /\ Forall2 (exactly tc w') (map (fun np => LFile (toml_handler tc) (snd np)) fs) fm
  /\ Forall2 (exactly tc w') (map snd (env_registration ms)) em
  /\ build_value w' cfg true = Ok (merge_all (dv :: concat fm ++ concat em))
  /\ (forall v, In v (dv :: concat fm ++ concat em) -> mapv v /\ wf v).
Proof.
  intros D P C. destruct (start_layers tc ms w D) as (dv & cfg & w' & fs & V & M & E & R & G).
  destruct (exactly_files tc w' fs C) as [fm F]. destruct (exactly_envs tc w' ms) as [em X].
  exists dv, cfg, w', fs, fm, em. assert (W : wf dv).
  { eapply value_map_wf; [exact P | | exact V]. cbn. repeat constructor. }
  assert (Md : mapv dv) by apply M.
  assert (A : Forall2 (exactly tc w') (start_list tc ms dv fs) ([dv] :: fm ++ em)).
  { constructor; [now apply exactly_memory | now apply Forall2_app]. }
  split; [auto|]. split; [auto|]. split; [auto|]. split; [auto|]. split; [auto|].
  split.
  { destruct (run_content _ _ _ _ _ _ _ _ R) as (_ & (_ & -> & _) & _); auto.
    intros n l [I|[]]. injection I as <- <-. left; eauto. }
  split; [auto|]. split; [auto|]. split; [auto|]. split.
  - rewrite (build_value_list w' cfg _ true G). rewrite <- concat_app.
    change (dv :: concat (fm ++ em)) with (concat ([dv] :: fm ++ em)). unfold merge_all.
    rewrite <- (build_contributions tc w' _ _ A). f_equal. unfold start_list. cbn [map snd].
    f_equal. rewrite map_app, map_map. reflexivity.
  - rewrite <- concat_app. exact (exactly_proper tc w' _ _ A).
Qed.

Lemma last_word ms k x a m b : (forall v, In v ms -> mapv v /\ uniq v) -> ms = a ++ m :: b ->
  holds m k x -> ~ mapv x -> (forall v, In v b -> lacks v k) -> holds (merge_all ms) k x.
Proof.
  intros W -> H N L. destruct (defs_total k a) as [c Da].
  assert (Db : defs k b []).
  { clear - L. induction b as [|v b IH]; [constructor|]. apply DefsLack; [apply L; left; auto|]. apply IH. intros; apply L; right; auto. }
  assert (De : defs k (a ++ m :: b) (c ++ [x])).
  { clear - Da Db H. induction Da; cbn; [now apply DefsHave | now apply DefsHave | now apply DefsLack]. }
  destruct (merge_all_key _ k W _ De) as (_ & G & _). eapply G; eauto.
Qed.
Lemma only_word ms k m b : (forall v, In v ms -> mapv v /\ uniq v) -> ms = m :: b ->
  (forall v, In v b -> lacks v k) -> forall x, holds (merge_all ms) k x <-> holds m k x.
Proof.
  intros W -> L. assert (Db : defs k b []).
  { clear - L. induction b as [|v b IH]; [constructor|]. apply DefsLack; [apply L; left; auto|]. apply IH. intros; apply L; right; auto. }
  assert (U : uniq (merge_all (m :: b))) by (apply merge_all_uniq; intros; now apply W).
  assert (Um : uniq m) by (apply W; left; auto).
  assert (Key : forall x, holds m k x -> holds (merge_all (m :: b)) k x).
  { intros x H. destruct (merge_all_key _ k W [x]) as (_ & G1 & G2); [now apply DefsHave|].
    destruct (mapv_dec x) as [Mx|Nx]; [|now apply (G1 [])].
    assert (Ux : uniq x) by (apply (at_path_uniq m [k]); auto; econstructor; eauto; constructor).
    rewrite <- (v_merge_empty_l_eq x Ux Mx). apply (G2 [] x [x]); auto. apply TrailAll. intros ? [<-|[]]; auto. }
  intros x; split; auto. intros H. destruct (holds_or_lacks m k) as [[y Hy]|N].
  - pose proof (Key y Hy) as H'. enough (x = y) as -> by auto.
    exact (at_path_fun (merge_all (m :: b)) [k] x y U (AtKey _ _ _ _ _ H (AtHere _)) (AtKey _ _ _ _ _ H' (AtHere _))).
  - destruct (merge_all_key _ k W []) as (G & _); [now apply DefsLack|]. destruct (G eq_refl x H).
Qed.

Lemma file_answer_fun tc w p x y : file_answer tc w p x -> file_answer tc w p y -> x = y.
Proof. intros A B. apply file_answer_iff in A, B. congruence. Qed.
Lemma exactly_file_map tc w p ms m : exactly tc w (LFile (toml_handler tc) p) ms -> file_answer tc w p (Ok m) -> mapv m -> ms = [m].
Proof.
  intros (C & _) A M. inversion C; subst; try discriminate.
  - pose proof (file_answer_fun _ _ _ _ _ A H0) as E. now injection E as ->.
  - pose proof (file_answer_fun _ _ _ _ _ A H0) as E. injection E as ->. tauto.
  - pose proof (file_answer_fun _ _ _ _ _ A H0) as E. discriminate.
Qed.
Lemma exactly_file_lacks tc w p ms k : exactly tc w (LFile (toml_handler tc) p) ms ->
  (forall m, file_answer tc w p (Ok m) -> lacks m k) -> forall v, In v ms -> lacks v k.
Proof.
  intros (C & _) L v I. inversion C; subst; try discriminate; try (now destruct I).
  destruct I as [<-|[]]. now apply L.
Qed.
Lemma exactly_files_lack tc w fs fm k :
  Forall2 (exactly tc w) (map (fun np : str * path => LFile (toml_handler tc) (snd np)) fs) fm ->
  (forall n p m, In (n, p) fs -> file_answer tc w p (Ok m) -> lacks m k) -> forall v, In v (concat fm) -> lacks v k.
Proof.
  revert fm; induction fs as [|[n p] fs IH]; intros fm F L v I; inversion F; subst; [destruct I|].
  cbn in I. apply in_app_or in I as [I|I].
  - eapply exactly_file_lacks; eauto. intros m. apply (L n). left; auto.
  - eapply IH; eauto. intros n' p' m' I'. apply (L n'). right; auto.
Qed.
Lemma exactly_env_lacks tc ms w em k : Forall2 (exactly tc w) (map snd (env_registration ms)) em ->
  (forall s, ~ env_gives ms w k s) -> forall v, In v (concat em) -> lacks v k.
Proof.
  unfold env_registration, env_gives. destruct (ms_env ms) as [prefix|]; intros F N v I; inversion F; subst; [|destruct I].
  inversion H3; subst. cbn in I. rewrite app_nil_r in I. destruct H1 as (C & _).
  cbn [snd] in C. remember (env_layer_new prefix) as l eqn:El.
  destruct C as [|p v0 A M|p v0 A M|p e A|prefix' p v0 T Np M H|prefix' T]; try discriminate; try (now destruct I).
  destruct I as [<-|[]]. intros x Hx. apply H in Hx as (s & L & ->).
  apply trimmed_iff in T. unfold env_layer_new in El. injection El as El. 
  apply (N s). exists prefix, p. split; auto. split; [|auto]. apply trimmed_iff. congruence.
Qed.

Lemma exactly_contributes tc w ls mm : Forall2 (exactly tc w) ls mm -> Forall2 (contributes tc w) ls mm.
Proof. induction 1 as [|l ms ls mm (C & _) F IH]; constructor; auto. Qed.

Lemma start_value tc ms w : distinct_start ms -> proper_defaults ms -> proper_codec tc ->
  exists dv cfg w' fs mm v,
    value_map_macro (ms_default ms) = Done dv /\ default_map ms dv /\ create_config tc ms w = Done (cfg, w')
    /\ file_layers tc ms w w' fs
    /\ Forall2 (contributes tc w') (LMemory dv :: map (fun np => LFile (toml_handler tc) (snd np)) fs ++ map snd (env_registration ms)) mm
    /\ build_value w' cfg true = Ok v /\ mapv v /\ wf v
    /\ (forall p f, sees v p f <-> resolves (concat mm) p f)
    /\ (forall v', build_value w' cfg false = Ok v' -> v' = v)
    /\ ((exists v', build_value w' cfg false = Ok v') <->
        (forall n p e, In (n, p) fs -> ~ file_answer tc w' p (Err e))
        /\ (forall prefix, ms_env ms = Some prefix -> ~ trimmed prefix [])).
Proof.
  intros D P C. destruct (start_build tc ms w D P C) as (dv & cfg & w' & fs & fm & em & V & M & W & E & R & En & G & F & X & B & Pr).
  exists dv, cfg, w', fs, ([dv] :: fm ++ em), (merge_all (dv :: concat fm ++ concat em)).
  split; [auto|]. split; [auto|]. split; [auto|]. split; [exists dv; auto|]. split.
  { constructor; [constructor; apply M|]. apply Forall2_app; apply exactly_contributes; auto. }
  split; [auto|]. split; [apply merge_all_mapv|]. split.
  { apply fold_merge_wf; [cbn; repeat constructor|]. intros v I. now apply Pr. }
  split.
  { intros p f. cbn [concat]. rewrite concat_app. apply sees_iff_resolves. intros v I. destruct (Pr v I). split; auto. now apply wf_uniq. }
  rewrite (build_value_list w' cfg _ false G). split.
  { intros v' S. apply strict_is_lenient in S. rewrite (build_value_list w' cfg _ true G) in B. congruence. }
  rewrite strict_build_list. cbn [map snd]. rewrite map_app, map_map. cbn [as_file snd]. split.
  - intros N. split.
    + intros n p e I A. apply file_answer_iff in A. eapply N; [|exact A]. right. apply in_or_app. left.
      apply in_map_iff. exists (n, p). auto.
    + intros prefix Ee T. destruct (env_layer_blank w' prefix VNone T) as [Z _]. eapply N; [|exact Z].
      right. apply in_or_app. right. unfold env_registration. rewrite Ee. left; reflexivity.
  - intros [N1 N2] l e [<-|I]; [discriminate|]. apply in_app_or in I as [I|I].
    + apply in_map_iff in I as ([n p] & <- & I). intros A. apply file_answer_iff in A. eapply N1; eauto.
    + unfold env_registration in I. destruct (ms_env ms) as [prefix|]; [|destruct I]. destruct I as [<-|[]].
      destruct (trim prefix) as [|c p] eqn:T0; assert (T := proj2 (trimmed_iff _ _) T0); [destruct (N2 prefix eq_refl T)|].
      destruct (env_layer_read w' prefix (c :: p) T) as (v & Z & _); [discriminate|]. cbn [snd]. congruence.
Qed.

Section Keys.
  Context (tc : codec) (ms : macro_spec) (w : world) (cfg : config) (w' : world) (fs : list (str * path)) (v : value).
  Context (D : distinct_start ms) (P : proper_defaults ms) (C : proper_codec tc).
  Context (E : create_config tc ms w = Done (cfg, w')) (Fl : file_layers tc ms w w' fs) (B : build_value w' cfg true = Ok v).

  Lemma start_keys : exists dv fm em, default_map ms dv /\ w_env w' = w_env w
    /\ Forall2 (exactly tc w') (map (fun np => LFile (toml_handler tc) (snd np)) fs) fm
    /\ Forall2 (exactly tc w') (map snd (env_registration ms)) em
    /\ v = merge_all (dv :: concat fm ++ concat em)
    /\ (forall x, In x (dv :: concat fm ++ concat em) -> mapv x /\ uniq x).
  Proof.
    destruct (start_build tc ms w D P C) as (dv & cfg' & w'' & fs' & fm & em & V & M & W & E' & R & En & G & F & X & B' & Pr).
    rewrite E in E'. injection E' as <- <-. destruct Fl as (dv' & V' & R'). rewrite V in V'. injection V' as <-.
    destruct (macro_run_fun _ _ _ _ _ _ _ _ R _ _ R') as [Eh _]. injection Eh as Eh.
    assert (fs' = fs) as ->.
    { clear - Eh. revert fs Eh. induction fs' as [|[n p] f IH]; intros [|[n' p'] f'] Eh; try discriminate; auto.
      cbn in Eh. injection Eh as -> -> Eh. f_equal. now apply IH. }
    exists dv, fm, em. split; auto. split; auto. split; auto. split; auto. split; [congruence|].
    intros x I. destruct (Pr x I). split; auto. now apply wf_uniq.
  Qed.

  Lemma start_env_wins k s : env_gives ms w k s -> holds v k (VStr s).
  Proof.
    destruct start_keys as (dv & fm & em & M & En & F & X & -> & Pr). intros (prefix & p & Ee & T & Np & L).
    unfold env_registration in X. rewrite Ee in X. inversion X; subst. inversion H3; subst. destruct H1 as (Cb & _).
    cbn [snd] in Cb. remember (env_layer_new prefix) as l eqn:El.
    destruct Cb as [|q v0 A Mv|q v0 A Mv|q e A|prefix' q v0 T' Nq Mv H|prefix' T']; try discriminate;
      unfold env_layer_new in El; injection El as El; apply trimmed_iff in T, T'; [|congruence].
    assert (q = p) as -> by congruence.
    apply (last_word _ k (VStr s) (dv :: concat fm) v0 []); auto.
    - apply H. exists s. split; auto. now rewrite En.
    - intros [? ?]; discriminate.
    - intros ? [].
  Qed.
  Lemma not_given k : (forall s, ~ env_gives ms w k s) -> w_env w' = w_env w -> forall s, ~ env_gives ms w' k s.
  Proof. intros N En s (prefix & p & Ee & T & Np & L). apply (N s). exists prefix, p. rewrite En in L. auto. Qed.
  Lemma start_last_file k f1 n p f2 m x : (forall s, ~ env_gives ms w k s) ->
    fs = f1 ++ (n, p) :: f2 -> file_answer tc w' p (Ok m) -> holds m k x -> ~ mapv x ->
    (forall n' p' m', In (n', p') f2 -> file_answer tc w' p' (Ok m') -> lacks m' k) ->
    holds v k x.
  Proof.
    destruct start_keys as (dv & fm & em & M & En & F & X & -> & Pr). intros N Ef A H Nx L.
    rewrite Ef, map_app in F. apply Forall2_app_inv_l in F as (fm1 & fm2' & F1 & F2 & Em).
    cbn [map snd] in F2. inversion F2; subst.
    assert (Mm : mapv m) by (destruct H as (mm & -> & _); eexists; reflexivity).
    assert (y = [m]) as -> by (eapply exactly_file_map; eauto).
    rewrite concat_app in *. cbn [concat app] in *.
    apply (last_word _ k x (dv :: concat fm1) m (concat l' ++ concat em)); auto.
    - cbn. now rewrite <- app_assoc.
    - intros u I. apply in_app_or in I as [I|I]; [eapply exactly_files_lack; eauto|].
      eapply exactly_env_lacks; eauto. now apply not_given.
  Qed.
  Lemma start_default k : (forall s, ~ env_gives ms w k s) ->
    (forall n p m, In (n, p) fs -> file_answer tc w' p (Ok m) -> lacks m k) ->
    forall x, holds v k x <-> last_binding (ms_default ms) k x.
  Proof.
    destruct start_keys as (dv & fm & em & M & En & F & X & -> & Pr). intros N L x.
    rewrite <- (proj2 M). apply (only_word _ k dv (concat fm ++ concat em)); auto.
    intros u I. apply in_app_or in I as [I|I]; [eapply exactly_files_lack; eauto|].
    eapply exactly_env_lacks; eauto. now apply not_given.
  Qed.
End Keys.
