(** What layers read, and what a build depends on (C85, C86). *)
From Coq Require Import ZArith Bool String Permutation Lia.
From Coq Require Import List.
Import ListNotations.
From Verif.Model Require Import Text Num Flt Value Merge Paths Finder World Layers Config.
From Verif.Spec Require Import Spec MergeSpec ConfigSpec EnvSpec PathSpec ReadsSpec.
From Verif.Proofs Require Import Basics Merge MergeMore ConfigBuild Utf8 Env PathLemmas Files.

Lemma file_answer_iff tc w p x : layer_read w (LFile (toml_handler tc) p) = x <-> file_answer tc w p x.
Proof.
  assert (T : file_answer tc w p (layer_read w (LFile (toml_handler tc) p))).
  { cbn [layer_read toml_handler fh_read]. unfold toml_read, fs_exists, fs_read_to_string.
    destruct (w_fs w p) as [[bs|]|] eqn:E; cbn [negb].
    - destruct (w_can_read w p) eqn:C; [|now apply (AnsDenied tc w p bs)].
      destruct (utf8_decode bs) as [s|] eqn:D.
      + apply utf8_decode_spec in D. destruct (toml_from_str tc s) eqn:S; [eapply AnsValue | eapply AnsNoToml]; eauto.
      + apply (AnsNoText tc w p bs); auto. intros s H. apply utf8_decode_spec in H. congruence.
    - now apply AnsFolder.
    - now apply AnsMissing. }
  split; [intros <-; exact T|]. intros H. cbn [layer_read toml_handler fh_read]. unfold toml_read, fs_exists, fs_read_to_string.
  inversion H as [E|E|bs E C|bs E C N|bs s msg E C U S|bs s v E C U S]; subst; rewrite E; cbn [negb]; auto; rewrite C; auto.
  - destruct (utf8_decode bs) eqn:D; auto. apply utf8_decode_spec in D. now apply N in D.
  - apply utf8_decode_spec in U. rewrite U, S. reflexivity.
  - apply utf8_decode_spec in U. rewrite U, S. reflexivity.
Qed.

Lemma alike_read tc w w' l : looks_alike tc w w' l ->
  (forall x, layer_read w l = Ok x -> wf x) ->
  requiv (layer_read w l) (layer_read w' l) /\ (forall x, layer_read w' l = Ok x -> wf x).
Proof.
  intros [v|prefix p T H|p E C] W.
  - cbn. cbn in W. split; [|auto]. apply vequiv_refl.
  - destruct p as [|c p].
    + destruct (env_layer_blank w prefix VNone T) as [-> _]. destruct (env_layer_blank w' prefix VNone T) as [-> _].
      split; [reflexivity | discriminate].
    + destruct (env_layer_read w prefix (c :: p) T) as (v & R & (m & ->) & Wv & Hv); [discriminate|].
      destruct (env_layer_read w' prefix (c :: p) T) as (v' & R' & (m' & ->) & Wv' & Hv'); [discriminate|].
      rewrite R, R'. split; [|intros x Ex; injection Ex as <-; auto]. cbn. apply EqvMap.
      * intros k x Hin. apply holds_map in Hin. apply Hv in Hin as (s & L & ->). exists (VStr s). split; [|now apply EqvScalar].
        apply holds_map, Hv'. exists s. split; auto. now apply H.
      * intros k x Hin. apply holds_map in Hin. apply Hv' in Hin as (s & L & ->). exists (VStr s). split; [|now apply EqvScalar].
        apply holds_map, Hv. exists s. split; auto. now apply H.
  - assert (R : layer_read w' (LFile (toml_handler tc) p) = layer_read w (LFile (toml_handler tc) p)).
    { cbn [layer_read toml_handler fh_read]. unfold toml_read, fs_exists, fs_read_to_string. now rewrite E, C. }
    rewrite R. split; auto. destruct (layer_read w (LFile (toml_handler tc) p)); cbn; auto. apply vequiv_refl.
Qed.

Lemma build_list_alike w w' skip ls :
  (forall l, In l ls -> requiv (layer_read w l) (layer_read w' l)
     /\ (forall x, layer_read w l = Ok x -> wf x) /\ (forall x, layer_read w' l = Ok x -> wf x)) ->
  forall acc acc', uniq acc -> uniq acc' -> vequiv acc acc' -> requiv (build_list w skip acc ls) (build_list w' skip acc' ls).
Proof.
  induction ls as [|l ls IH]; intros H acc acc' U U' E; cbn [build_list]; auto.
  destruct (H l (or_introl eq_refl)) as (R & W & W').
  assert (H' : forall l, In l ls -> requiv (layer_read w l) (layer_read w' l)
     /\ (forall x, layer_read w l = Ok x -> wf x) /\ (forall x, layer_read w' l = Ok x -> wf x)) by (intros; apply H; right; auto).
  destruct (layer_read w l) as [x|e], (layer_read w' l) as [x'|e']; cbn in R; try contradiction.
  - assert (Ux := wf_uniq _ (W x eq_refl)). assert (Ux' := wf_uniq _ (W' x' eq_refl)).
    apply IH; auto; [now apply v_merge_uniq..|]. now apply v_merge_congr.
  - subst e'. destruct skip; [now apply IH | reflexivity].
Qed.
Lemma build_alike tc w w' c r skip : registered c r ->
  (forall n l, In (n, l) r -> looks_alike tc w w' l) ->
  (forall n l x, In (n, l) r -> layer_read w l = Ok x -> wf x) ->
  requiv (build_value w c skip) (build_value w' c skip).
Proof.
  intros R A W. rewrite !(build_value_list _ c r skip R). apply build_list_alike.
  - intros l Hl. apply in_map_iff in Hl as ([n l'] & <- & Hin). cbn [snd].
    destruct (alike_read tc w w' l' (A n l' Hin)) as [Q Q']; [intros; eapply W; eauto|].
    repeat split; auto. intros; eapply W; eauto.
  - apply UMap; [constructor | intros ? ? []].
  - apply UMap; [constructor | intros ? ? []].
  - apply vequiv_refl.
Qed.

Lemma exposed_in p env k s : p <> [] ->
  (forall kv kv' s s', In kv env -> In kv' env -> exposes p kv k s -> exposes p kv' k s' -> s = s') ->
  (last_exposed p env k s <-> exists kv, In kv env /\ exposes p kv k s).
Proof.
  intros Np. split.
  - intros (b & kv & a & -> & X & _). exists kv. split; auto. apply in_elt.
  - intros (kv & I & X). induction env as [|kv0 env IH] using rev_ind; [destruct I|].
    apply last_exposed_snoc; auto. destruct (exposes_dec p kv0 k Np) as [[s0 X0]|N].
    + left. replace s with s0; auto. eapply (H kv0 kv); eauto. apply in_app_iff; cbn; auto.
    + right. split; auto. apply in_app_iff in I as [I|[->|[]]]; [|now apply N in X].
      apply IH; auto. intros kv1 kv2 s1 s2 I1 I2. apply H; apply in_app_iff; auto.
Qed.

Lemma env_change tc w env c r skip : registered c r -> (forall n l, In (n, l) r -> built_in tc l) ->
  (forall n l x, In (n, l) r -> layer_read w l = Ok x -> wf x) ->
  (forall p, prefix_of r p -> forall k s, last_exposed p (w_env w) k s <-> last_exposed p env k s) ->
  requiv (build_value w c skip) (build_value (with_env w env) c skip).
Proof.
  intros R B W H. rewrite !(build_value_list _ c r skip R). apply build_list_alike.
  - intros l Hl. apply in_map_iff in Hl as ([n l'] & <- & Hin). cbn [snd].
    assert (W1 : forall x, layer_read w l' = Ok x -> wf x) by (intros; eapply W; eauto).
    enough (requiv (layer_read w l') (layer_read (with_env w env) l')
      /\ (forall x, layer_read (with_env w env) l' = Ok x -> wf x)) by tauto.
    destruct (B n l' Hin) as [v|prefix|p].
    + apply (alike_read tc); [constructor | auto].
    + destruct (trim prefix) as [|c0 p] eqn:E.
      * apply trimmed_iff in E. destruct (env_layer_blank w prefix VNone E) as [-> _].
        destruct (env_layer_blank (with_env w env) prefix VNone E) as [-> _]. split; [reflexivity | discriminate].
      * apply trimmed_iff in E. apply (alike_read tc); [|auto]. apply (LookEnv tc _ _ prefix (c0 :: p)); auto.
        intros k s. cbn [w_env with_env]. apply H. exists n, prefix. split; auto. split; auto. discriminate.
    + apply (alike_read tc); [constructor; reflexivity | auto].
  - apply UMap; [constructor | intros ? ? []].
  - apply UMap; [constructor | intros ? ? []].
  - apply vequiv_refl.
Qed.
Lemma unexposed_insert p a kv b k s : p <> [] -> (forall k s, ~ exposes p kv k s) ->
  (last_exposed p (a ++ b) k s <-> last_exposed p (a ++ kv :: b) k s).
Proof.
  intros Np N. induction b as [|x b IH] using rev_ind.
  - rewrite app_nil_r. rewrite (last_exposed_snoc p a kv k s Np). split; [intros; right; split; auto|].
    intros [X|[_ X]]; auto. now apply N in X.
  - rewrite app_assoc. change (a ++ kv :: b ++ [x]) with (a ++ (kv :: b) ++ [x]). rewrite app_assoc.
    rewrite !(last_exposed_snoc p _ x k s Np). now rewrite IH.
Qed.
