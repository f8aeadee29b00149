(** First starts with TOML defaults (C99). *)
From Coq Require Import ZArith Bool String Lia Permutation.
From Coq Require Import List.
Import ListNotations.
From Verif.Model Require Import Text Num Flt Value Convert Serde Visitor Paths Finder World Merge Layers Config Macro Toml.
From Verif.Spec Require Import Spec Numerals MergeSpec ConfigSpec EnvSpec FinderSpec PathSpec MacroSpec StartSpec SerdeSpec FloatSpec ShapeSpec VisitorSpec TomlSpec.
From Verif.Proofs Require Import Basics Utf8 Merge ConfigBuild Env VisitorProofs FormatTrip Files MacroProofs StartProofs TomlProofs.

(** ** Merging keeps [same_numbers] *)
Definition sn_opt (drop : bool) (a b : option value) : Prop :=
  match a, b with
  | None, None => True
  | Some x, Some y => same_numbers drop x y
  | Some x, None => drop = true /\ x = VNone
  | None, Some _ => False
  end.
Lemma sn_map_lookup drop m n : NoDup (map fst m) -> NoDup (map fst n) ->
  (same_numbers drop (VMap m) (VMap n) <-> forall k, sn_opt drop (mget k m) (mget k n)).
Proof.
  intros Dm Dn. split.
  - intros H k. apply sn_map_l in H as (n' & E & F1 & F2). injection E as <-. destruct (mget k m) as [x|] eqn:Em.
    + apply mget_In in Em. destruct (F1 k x Em) as [(y & Hy & V)|(-> & -> & N)].
      * rewrite (In_mget k y n); auto.
      * rewrite (proj2 (mget_None k n) N). cbn. auto.
    + destruct (mget k n) as [y|] eqn:En; [|exact I]. apply mget_In in En. destruct (F2 k y En) as (x & Hx & _).
      rewrite (In_mget k x m) in Em; auto; discriminate.
  - intros H. constructor.
    + intros k x Hx. specialize (H k). rewrite (In_mget k x m) in H by auto. destruct (mget k n) as [y|] eqn:En; cbn in H.
      * left. exists y. split; auto. now apply mget_In.
      * right. destruct H. repeat split; auto. now apply mget_None.
    + intros k y Hy. specialize (H k). rewrite (In_mget k y n) in H by auto. destruct (mget k m) as [x|] eqn:Em; cbn in H; [|destruct H].
      exists x. split; auto. now apply mget_In.
Qed.
Lemma sn_is_map drop v v' : same_numbers drop v v' -> is_map v = is_map v'.
Proof. intros H. apply (sn_kinds _ _ _ H). Qed.
Lemma sn_nonmap drop v v' : same_numbers drop v v' -> ~ mapv v -> ~ mapv v'.
Proof. intros H N M. apply N. apply is_map_iff. rewrite (sn_is_map _ _ _ H). now apply is_map_iff. Qed.

Lemma sn_merge_both drop v : forall a b, uniq v -> uniq a -> uniq b ->
  same_numbers drop v a -> same_numbers drop v b -> same_numbers drop v (v_merge a b).
Proof.
  induction v as [v S|l IH|m IH] using value_ind'; intros a b Uv Ua Ub A B;
    try (rewrite v_merge_noop; [exact A|]; intros [M _]; revert M; apply (sn_nonmap _ _ _ A); intros [? E]; subst; cbn in *; try tauto; discriminate).
  pose proof A as A0. pose proof B as B0. apply sn_map_l in A0 as (na & -> & _). apply sn_map_l in B0 as (nb & -> & _).
  assert (Dv := proj1 (proj1 (uniq_map _) Uv)). assert (Da := proj1 (proj1 (uniq_map _) Ua)). assert (Db := proj1 (proj1 (uniq_map _) Ub)).
  rewrite v_merge_maps. apply sn_map_lookup; auto; [now apply merge_loop_nodup|]. intros k. rewrite merge_loop_get by auto.
  pose proof (proj1 (sn_map_lookup drop m na Dv Da) A k) as Ka. pose proof (proj1 (sn_map_lookup drop m nb Dv Db) B k) as Kb.
  destruct (mget k m) as [x|] eqn:Em; destruct (mget k na) as [y|] eqn:Ea; destruct (mget k nb) as [z|] eqn:Eb; cbn [combine sn_opt] in *; auto; try tauto.
  destruct (is_map y && is_map z); cbn [sn_opt]; auto.
  apply mget_In in Em, Ea, Eb. apply (IH k x Em); auto.
  - eapply (proj2 (proj1 (uniq_map _) Uv)); eauto.
  - eapply (proj2 (proj1 (uniq_map _) Ua)); eauto.
  - eapply (proj2 (proj1 (uniq_map _) Ub)); eauto.
Qed.

Lemma sn_merge_left drop a : forall a' b, uniq a -> uniq a' -> uniq b ->
  same_numbers drop a a' -> same_numbers drop (v_merge a b) (v_merge a' b).
Proof.
  induction a as [a S|l IH|m IH] using value_ind'; intros a' b Ua Ua' Ub A;
    try (rewrite !v_merge_noop; [exact A| |]; intros [M _]; revert M; [apply (sn_nonmap _ _ _ A)|]; intros [? E]; subst; cbn in *; try tauto; discriminate).
  pose proof A as A0. apply sn_map_l in A0 as (na & -> & _).
  destruct (mapv_dec b) as [[n ->]|Nb]; [|rewrite !v_merge_noop; auto; tauto].
  assert (Dv := proj1 (proj1 (uniq_map _) Ua)). assert (Da := proj1 (proj1 (uniq_map _) Ua')). assert (Db := proj1 (proj1 (uniq_map _) Ub)).
  rewrite !v_merge_maps. apply sn_map_lookup; try now apply merge_loop_nodup. intros k. rewrite !merge_loop_get by auto.
  pose proof (proj1 (sn_map_lookup drop m na Dv Da) A k) as Ka.
  destruct (mget k m) as [x|] eqn:Em; destruct (mget k na) as [y|] eqn:Ea; destruct (mget k n) as [z|] eqn:Eb; cbn [combine sn_opt] in *; auto; try tauto.
  - rewrite <- (sn_is_map _ _ _ Ka). destruct (is_map x && is_map z); cbn [sn_opt]; auto; [|apply sn_refl].
    apply mget_In in Em, Ea, Eb. apply (IH k x Em); auto.
    + eapply (proj2 (proj1 (uniq_map _) Ua)); eauto.
    + eapply (proj2 (proj1 (uniq_map _) Ua')); eauto.
    + eapply (proj2 (proj1 (uniq_map _) Ub)); eauto.
  - destruct Ka as [_ ->]. cbn. apply sn_refl.
  - apply sn_refl.
Qed.

(** ** Builds *)
Definition rsn {E} (a b : result value E) : Prop :=
  match a, b with
  | Ok x, Ok y => wf x /\ wf y /\ same_numbers true x y
  | Err e, Err e' => e = e'
  | _, _ => False
  end.
Lemma build_list_sn w w' skip ls :
  (forall l, In l ls -> layer_read w' l = layer_read w l /\ forall x, layer_read w l = Ok x -> wf x) ->
  forall acc acc', same_numbers true acc acc' -> wf acc -> wf acc' ->
  rsn (build_list w skip acc ls) (build_list w' skip acc' ls).
Proof.
  induction ls as [|l ls IH]; intros H acc acc' V U U'; cbn [build_list]; [cbn; auto|].
  destruct (H l (or_introl eq_refl)) as [-> Q].
  assert (H' : forall l, In l ls -> layer_read w' l = layer_read w l /\ forall x, layer_read w l = Ok x -> wf x)
    by (intros; apply H; now right).
  destruct (layer_read w l) as [v|e]; [|destruct skip; [auto | reflexivity]].
  specialize (Q v eq_refl). apply IH; auto using v_merge_wf. apply sn_merge_left; auto using wf_uniq.
Qed.

Lemma build_list_written tc w' skip dv dv' (r1 : list layer) : wf dv -> wf dv' -> same_numbers true dv dv' ->
  (forall l, In l r1 -> exists p, l = LFile (toml_handler tc) p /\ (layer_read w' l = Ok (VMap []) \/ layer_read w' l = Ok dv')) ->
  forall acc, wf acc -> same_numbers true dv acc -> exists acc', build_list w' skip acc r1 = Ok acc' /\ wf acc' /\ same_numbers true dv acc'.
Proof.
  intros U U' V. induction r1 as [|l r1 IH]; intros H acc Ua Va; cbn [build_list]; [eauto|].
  assert (H' : forall l, In l r1 -> exists p, l = LFile (toml_handler tc) p /\ (layer_read w' l = Ok (VMap []) \/ layer_read w' l = Ok dv'))
    by (intros; apply H; now right).
  destruct (H l (or_introl eq_refl)) as (p & _ & [->| ->]).
  - rewrite v_merge_empty_r. auto.
  - apply IH; auto using v_merge_wf. apply sn_merge_both; auto using wf_uniq.
Qed.

Lemma file_read_wf tc w p x : proper_codec tc -> layer_read w (LFile (toml_handler tc) p) = Ok x -> wf x.
Proof.
  intros T. cbn. destruct (negb (fs_exists w p)).
  - intros E. injection E as <-. apply wf_map. split; [constructor | intros k y []].
  - unfold toml_read. destruct (fs_read_to_string w p) as [t|]; [|discriminate].
    destruct (toml_from_str tc t) as [v|] eqn:E'; [|discriminate]. intros E. injection E as <-. eapply T; eauto.
Qed.
Lemma env_new_wf w prefix x : layer_read w (env_layer_new prefix) = Ok x -> wf x.
Proof.
  intros E. destruct (trim prefix) as [|c p] eqn:T0; assert (T := proj2 (trimmed_iff _ _) T0).
  - destruct (env_layer_blank w prefix VNone T) as [E' _]. congruence.
  - destruct (env_layer_read w prefix (c :: p) T) as (v & E' & _ & W & _); [discriminate|]. congruence.
Qed.

Lemma start_keeps tc ms w cfg w' dv s dv' r1 r2 skip :
  create_config tc ms w = Done (cfg, w') -> value_map_macro (ms_default ms) = Done dv -> wf dv ->
  toml_to_string tc dv = Ok s -> is_text s = true -> toml_from_str tc s = Ok dv' -> same_numbers true dv dv' ->
  proper_codec tc ->
  registered cfg ((lit "default", LMemory dv) :: r1 ++ r2) ->
  (forall n l, In (n, l) r1 -> exists p, l = LFile (toml_handler tc) p /\ missing w p
     /\ room_for w p s /\ w_can_read w p = true) ->
  (forall n l, In (n, l) r2 -> (exists prefix, l = env_layer_new prefix)
     \/ exists p, l = LFile (toml_handler tc) p /\ w_fs w' p = w_fs w p) ->
  rsn (build_value w cfg skip) (build_value w' cfg skip).
Proof.
  intros E V Wd TS TX TF VE TU R H1 H2.
  destruct (create_config_run _ _ _ _ _ _ E V) as (h & r & M & _).
  assert (P0 : plain tc [(lit "default", LMemory dv)]) by (intros n l [I|[]]; injection I as _ <-; eauto).
  destruct (run_content _ _ _ _ _ _ _ _ M P0) as (_ & (_ & Env & _ & Rd & _) & _ & B).
  assert (Wd' : wf dv') by (eapply TU; eauto).
  assert (Md : mapv dv).
  { destruct (Containers.value_map_spec (ms_default ms)) as (v0 & E0 & M0 & _). congruence. }
  rewrite !(build_value_list _ _ _ skip R). cbn [map snd build_list layer_read]. rewrite map_app.
  unfold new_map. rewrite (v_merge_empty_l_eq dv (wf_uniq _ Wd) Md), !build_list_app.
  assert (A : build_list w skip dv (map snd r1) = Ok dv).
  { clear - H1. induction r1 as [|[n l] r1 IH]; cbn [map build_list snd]; auto.
    destruct (H1 n l (or_introl eq_refl)) as (p & -> & Mp & _). unfold missing in Mp.
    cbn [layer_read]. unfold fs_exists. rewrite Mp. cbn [negb]. unfold new_map. rewrite v_merge_empty_r. apply IH.
    intros; eapply H1; right; eauto. }
  rewrite A.
  destruct (build_list_written tc w' skip dv dv' (map snd r1) Wd Wd' VE) with (acc := dv) as (acc' & -> & U' & V'); auto using sn_refl.
  { intros l I. apply in_map_iff in I as ([n l'] & <- & I). cbn [snd].
    destruct (H1 n l' I) as (p & -> & Mp & RF & CR). exists p. split; auto. unfold missing in Mp.
    cbn [layer_read toml_handler fh_read]. unfold toml_read, fs_exists, fs_read_to_string. rewrite Rd, CR.
    destruct (B p) as [->|(s' & bs & TS' & -> & RR)]; [rewrite Mp; auto|].
    assert (s' = s) by congruence. subst s'. rewrite (RR RF). cbn [negb]. rewrite decode_encode by auto. rewrite TF. auto. }
  apply build_list_sn; auto.
  intros l I. apply in_map_iff in I as ([n l'] & <- & I). cbn [snd].
  destruct (H2 n l' I) as [[prefix ->]|(p & -> & F)].
  - split; [cbn; now rewrite Env | intros x Hx; eapply env_new_wf; eauto].
  - split; [now apply file_read_frame | intros x Hx; eapply file_read_wf; eauto].
Qed.

Lemma start_keeps_fresh tc ms w cfg w' dv s dv' skip :
  create_config tc ms w = Done (cfg, w') -> value_map_macro (ms_default ms) = Done dv -> wf dv ->
  toml_to_string tc dv = Ok s -> is_text s = true -> toml_from_str tc s = Ok dv' -> same_numbers true dv dv' ->
  proper_codec tc ->
  (forall ls ps p, In ls (ms_layers ms) -> clause_candidates w (ms_file_name ms) ls ps -> In p ps ->
     missing w p /\ room_for w p s /\ w_can_read w p = true) ->
  rsn (build_value w cfg skip) (build_value w' cfg skip).
Proof.
  intros E V Ud TS TX TF VE TU H.
  destruct (create_config_run _ _ _ _ _ _ E V) as (h & r & M & K & R).
  assert (P0 : plain tc [(lit "default", LMemory dv)]) by (intros n l [I|[]]; injection I as _ <-; eauto).
  destruct (run_content _ _ _ _ _ _ _ _ M P0) as (_ & _ & (new & -> & C) & _).
  destruct (keeps_first_app _ _ _ K) as (ra & r2 & -> & Ka & I2).
  destruct (keeps_first_app _ _ _ Ka) as (r0 & r1 & -> & K0 & I1).
  apply keeps_first_one in K0. subst r0. rewrite <- app_assoc in R. cbn [app] in R.
  eapply (start_keeps tc ms w cfg w' dv s dv' r1 r2 skip); eauto.
  - intros n l I. destruct (C n l (I1 _ I)) as (ls & ps & p & J & -> & CC & Ip). exists p. split; auto. eapply H; eauto.
  - intros n l I. apply I2 in I. unfold env_registration in I. destruct (ms_env ms); [|destruct I].
    destruct I as [I|[]]. injection I as _ <-. left. eauto.
Qed.

(** Defaults that cannot be written: no file is touched. *)
Lemma start_unwritable tc ms w cfg w' dv :
  create_config tc ms w = Done (cfg, w') -> value_map_macro (ms_default ms) = Done dv ->
  (forall s, toml_to_string tc dv <> Ok s) -> same_system w w' /\ forall q, w_fs w' q = w_fs w q.
Proof.
  intros E V N. destruct (create_config_run _ _ _ _ _ _ E V) as (h & r & M & _).
  assert (P0 : plain tc [(lit "default", LMemory dv)]) by (intros n l [I|[]]; injection I as _ <-; eauto).
  destruct (run_content _ _ _ _ _ _ _ _ M P0) as (_ & SS & _ & B). split; auto.
  intros q. destruct (B q) as [Eq|(s & _ & T & _)]; [exact Eq | destruct (N s T)].
Qed.

(** ** The TOML codec *)
Lemma codec_proper r ts : parses_tables ts -> proper_codec (toml_codec r ts).
Proof.
  intros P s v E. destruct (load_inv _ _ _ _ E) as (t & T). destruct (P s t T) as [Pt _].
  destruct (load_document r ts s t T Pt) as (v' & L & _ & W). congruence.
Qed.
