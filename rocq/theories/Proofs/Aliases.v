(** Proofs about several paths that lead to one file (C103). *)
From Coq Require Import ZArith Bool String Lia List.
Import ListNotations.
From Verif.Model Require Import Text Value Merge Paths Finder World Layers Config Macro Concurrent.
From Verif.Spec Require Import Spec ConfigSpec EnvSpec PathSpec MacroSpec ConcurrentSpec AliasSpec.
From Verif.Proofs Require Import Basics Merge ConfigBuild Files MacroProofs EndToEnd ConcurrentProofs.

Lemma alias_reads tc w p q : same_file w p q -> w_can_read w p = w_can_read w q ->
  layer_read w (LFile (toml_handler tc) p) = layer_read w (LFile (toml_handler tc) q)
  /\ layer_has_value w (LFile (toml_handler tc) p) = layer_has_value w (LFile (toml_handler tc) q).
Proof.
  intros S R. cbn. unfold toml_read, fs_exists, fs_read_to_string. rewrite (same_file_fs w p q S), R. auto.
Qed.
Lemma writes_target tc w h w' : writes w h w' -> (forall l v, In (l, v) h -> built_in tc l) ->
  w_target w' = w_target w /\ w_can_read w' = w_can_read w.
Proof.
  induction 1 as [w|w l v r w1 h w2 E H IH]; intros B; auto.
  destruct IH as [-> ->]; [intros; apply (B l0 v0); now right|].
  destruct (built_in_write tc w l v w1 r) as [->|(p & -> & S)]; auto; [apply (B l v); left; auto|].
  destruct S as (_ & -> & _ & _ & -> & _). auto.
Qed.
Lemma alias_stays tc w h w' p q : writes w h w' -> (forall l v, In (l, v) h -> built_in tc l) ->
  same_file w p q -> w_can_read w p = w_can_read w q ->
  same_file w' p q
  /\ layer_read w' (LFile (toml_handler tc) p) = layer_read w' (LFile (toml_handler tc) q)
  /\ layer_has_value w' (LFile (toml_handler tc) p) = layer_has_value w' (LFile (toml_handler tc) q).
Proof.
  intros H B S R. destruct (writes_target tc w h w' H B) as [T C].
  assert (S' : same_file w' p q) by (unfold same_file; now rewrite T). split; auto.
  apply alias_reads; auto. now rewrite C.
Qed.

Lemma write_everywhere tc w w' c c' p r r' v s v' skip :
  registered c r -> registered c' r' -> Forall2 (with_new_value tc w p v') r r' ->
  layer_write w (LFile (toml_handler tc) p) v = (w', Ok tt) ->
  toml_to_string tc v = Ok s -> is_text s = true -> toml_from_str tc s = Ok v' ->
  build_value w' c skip = build_value w c' skip.
Proof.
  intros R R' F E S T P. rewrite (build_value_list w' c _ skip R), (build_value_list w c' _ skip R').
  assert (Sb := proj1 (file_write_effect tc w p v w' _ E)).
  apply build_list_replace. clear R R'. induction F as [|x y r r' N F IH]; cbn [map]; constructor; auto.
  destruct N as [n q Sq Cq|n l B N]; cbn [snd].
  - destruct (read_after_write tc w p v w' s v' E S T P q Sq Cq [] w') as [X _]; [constructor | intros ? ? [] | intros ? ? [] | exact X].
  - eapply read_elsewhere; eauto.
Qed.

(** Two neighbouring layers on one file count once. *)
Lemma twice_the_same w c c' r1 n1 l1 n2 l2 r2 skip x :
  registered c (r1 ++ (n1, l1) :: (n2, l2) :: r2) -> registered c' (r1 ++ (n2, l2) :: r2) ->
  layer_read w l1 = x -> layer_read w l2 = x ->
  (forall n l v, In (n, l) (r1 ++ (n2, l2) :: r2) -> layer_read w l = Ok v -> uniq v) ->
  requiv (build_value w c skip) (build_value w c' skip).
Proof.
  intros R R' X1 X2 U. rewrite (build_value_list _ _ _ skip R), (build_value_list _ _ _ skip R').
  rewrite !map_app. cbn [map snd]. rewrite !build_list_app.
  assert (Ul : forall l v, In l (map snd (r1 ++ (n2, l2) :: r2)) -> layer_read w l = Ok v -> uniq v).
  { intros l v I. apply in_map_iff in I as ([n l0] & <- & I). exact (U n l0 v I). }
  assert (G : forall ls acc acc', (forall l v, In l ls -> layer_read w l = Ok v -> uniq v) -> uniq acc ->
    build_list w skip acc ls = Ok acc' -> uniq acc').
  { clear. induction ls as [|l ls IH]; intros acc acc' H Ua E; cbn in E; [injection E as <-; auto|].
    destruct (layer_read w l) as [v|e] eqn:L.
    - eapply (IH _ _ _ _ E). Unshelve. + intros; eapply H; [right|]; eauto. + apply v_merge_uniq; auto. apply (H l); auto. now left.
    - destruct skip; [|discriminate]. eapply IH; eauto. intros; eapply H; [right|]; eauto. }
  destruct (build_list w skip new_map (map snd r1)) as [acc|e] eqn:A; [|reflexivity].
  assert (Ua : uniq acc).
  { refine (G (map snd r1) new_map acc _ _ A).
    - intros l v I. apply Ul. rewrite map_app. apply in_or_app; auto.
    - apply UMap; [constructor | intros ? ? []]. }
  cbn [build_list]. rewrite X1, X2. destruct x as [v|e].
  - assert (Uv : uniq v).
    { apply (Ul l2); auto. rewrite map_app. apply in_or_app. right. now left. }
    apply (build_list_congr w w skip (map snd r2)).
    + intros l I. split; auto. intros y. apply Ul. rewrite map_app. apply in_or_app. right. now right.
    + now apply v_merge_twice. + apply v_merge_uniq; auto. now apply v_merge_uniq. + now apply v_merge_uniq.
  - destruct skip; [|reflexivity].
    apply (build_list_congr w w true (map snd r2)); auto using vequiv_refl.
    intros l I. split; auto. intros y. apply Ul. rewrite map_app. apply in_or_app. right. now right.
Qed.

(** ** Creation happens once per file *)
Lemma clauses_log others tc fname dv s cs s' : clauses others tc fname dv s cs s' ->
  exists new, r_log s' = r_log s ++ new
  /\ (forall p, never_remove others p -> ~ missing (r_world s) p -> forall e, In e new -> ~ missing (we_checked e) p)
  /\ (forall a e1 b e2 z p, new = a ++ e1 :: b ++ e2 :: z -> never_remove others p -> we_layer e1 = LFile (toml_handler tc) p ->
        we_after e1 = we_before e1 \/ ~ missing (we_checked e2) p).
Proof.
  induction 1 as [s|s ls s1 cs s' Ef Cl IH].
  - exists []. split; [now rewrite app_nil_r|]. split; [intros ? ? ? ? []|]. intros a e1 b e2 z p E. destruct a; discriminate.
  - destruct IH as (new & L & P & Q). destruct Ef as (k & [->|(p & ps & _ & _ & _ & _ & M & ->)]).
    + rewrite iter_log in L. exists new. split; auto. split; auto.
      intros q NR Pq. apply P; auto. now apply iter_present.
    + cbn [r_log wrote] in L. rewrite iter_log in L. rewrite <- app_assoc in L. eexists. split; [exact L|]. cbn [app].
      set (s2 := tick others (Nat.iter (S k) (tick others) s)) in *.
      split.
      * intros q NR Pq e [<-|I].
        -- cbn [we_checked event_of]. now apply (iter_present others q (S k)).
        -- refine (P q NR _ e I). cbn [r_world wrote we_after event_of]. apply write_keeps_present.
           exact (iter_present others q (S (S k)) NR s Pq).
      * intros a e1 b e2 z q E NR L1. destruct a as [|e0 a]; injection E as E0 E.
        -- subst e1. injection L1 as <-.
           destruct (layer_write (r_world s2) (LFile (toml_handler tc) p) dv) as [w' x] eqn:W.
           destruct (proj2 (file_write_prefix _ _ _ _ _ _ W)) as [->|(t & n & _ & F)].
           ++ left. change (fst (layer_write (r_world s2) (LFile (toml_handler tc) p) dv) = r_world s2). now rewrite W.
           ++ right. apply (P p NR); [|rewrite E; apply in_or_app; right; now left].
              change (~ missing (fst (layer_write (r_world s2) (LFile (toml_handler tc) p) dv)) p). rewrite W. cbn [fst].
              unfold missing. rewrite (F p eq_refl). discriminate.
        -- eapply Q; eauto.
Qed.
Lemma created_once others tc ms w dv cfg s a e1 b e2 z p q : distinct_names ms ->
  value_map_macro (ms_default ms) = Done dv -> c_create_config others tc ms (run_start w) = Done (cfg, s) ->
  r_log s = a ++ e1 :: b ++ e2 :: z ->
  we_layer e1 = LFile (toml_handler tc) p -> we_layer e2 = LFile (toml_handler tc) q ->
  never_remove others p -> never_redirect others p -> same_file (we_before e2) q p ->
  we_after e1 = we_before e1.
Proof.
  intros D V E L L1 L2 NR ND S.
  destruct (c_create_run others tc ms w dv D V) as (cfg' & s' & r & E' & _ & _ & C). rewrite E in E'. injection E' as <- <-.
  destruct (clauses_log _ _ _ _ _ _ _ C) as (new & N & _ & Q). cbn [run_start r_log app] in N. rewrite L in N.
  destruct (Q a e1 b e2 z p (eq_sym N) NR L1) as [|H]; auto.
  assert (I : In e2 (r_log s)) by (rewrite L; apply in_or_app; right; right; apply in_or_app; right; now left).
  destruct (clauses_honest _ _ _ _ _ _ _ C e2 I) as [[]|(p' & ls & n & A & _ & _ & M & B & _)].
  rewrite A in L2. injection L2 as ->. rewrite B in S. apply ND in S. destruct H.
  unfold missing in *. now rewrite <- (same_file_fs _ _ _ S).
Qed.
