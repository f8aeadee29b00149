(** Proofs about file layers (C35-C38). *)
From Coq Require Import ZArith Bool String Lia List.
Import ListNotations.
From Verif.Model Require Import Text Value Merge Paths Finder World Layers Config.
From Verif.Spec Require Import Spec ConfigSpec EnvSpec PathSpec.
From Verif.Proofs Require Import Basics PathLemmas Utf8 ConfigBuild.

Lemma same_but_refl p w : same_but p w w.
Proof. repeat split; auto. Qed.
Lemma same_but_set p w n : same_but p w (set_node w p n).
Proof.
  repeat split; auto. intros q N. unfold w_fs. cbn. destruct (str_eqb_spec (w_target w q) (w_target w p)) as [E|]; [destruct N; symmetry; exact E | auto].
Qed.
Lemma set_node_same w p n q : same_file w p q -> w_fs (set_node w p n) q = Some n.
Proof. intros E. unfold w_fs. cbn. rewrite <- E. now rewrite str_eqb_refl. Qed.
Lemma set_node_at w p n : w_fs (set_node w p n) p = Some n.
Proof. unfold w_fs. cbn. now rewrite str_eqb_refl. Qed.
Lemma same_file_fs w p q : same_file w p q -> w_fs w p = w_fs w q.
Proof. unfold w_fs. now intros ->. Qed.

Lemma file_write_effect tc w p v w' r : layer_write w (LFile (toml_handler tc) p) v = (w', r) ->
  same_but p w w' /\
  match r with
  | Ok _ => exists s, toml_to_string tc v = Ok s /\ forall q, same_file w p q -> w_fs w' q = Some (NFile (utf8_encode s))
  | Err (BIo IoWriteFault) => exists s n, toml_to_string tc v = Ok s /\ (n < List.length (utf8_encode s))%nat
      /\ forall q, same_file w p q -> w_fs w' q = Some (NFile (firstn n (utf8_encode s)))
  | Err _ => w' = w
  end.
Proof.
  cbn [layer_write toml_handler fh_write]. unfold toml_write, fs_write.
  destruct (toml_to_string tc v) as [s|m]; [|intros E; injection E as <- <-; split; [apply same_but_refl | auto]].
  destruct (w_fs w p) as [[bs|]|] eqn:F;
    [| intros E; injection E as <- <-; split; [apply same_but_refl | auto] |];
  (destruct (w_can_open w p); [|intros E; injection E as <- <-; split; [apply same_but_refl | auto]];
   destruct (w_space w p) as [n|];
   [destruct (Nat.leb_spec (List.length (utf8_encode s)) n) |];
   intros E; injection E as <- <-; (split; [apply same_but_set|]); eauto 8 using set_node_same).
Qed.

Lemma write_refused tc w p v : (forall s, toml_to_string tc v <> Ok s) ->
  exists m, layer_write w (LFile (toml_handler tc) p) v = (w, Err (BLayer (LSerializeError m))).
Proof.
  intros N. cbn. unfold toml_write. destruct (toml_to_string tc v) as [s|m]; [now destruct (N s)|]. eauto.
Qed.
Lemma write_not_openable tc w p v : w_can_open w p = false \/ w_fs w p = Some NDir ->
  exists e, layer_write w (LFile (toml_handler tc) p) v = (w, Err e).
Proof.
  intros N. cbn. unfold toml_write, fs_write. destruct (toml_to_string tc v) as [s|m]; [|eauto].
  destruct (w_fs w p) as [[bs|]|]; [|eauto|]; (destruct (w_can_open w p); [|eauto]); destruct N; discriminate.
Qed.
Lemma write_succeeds tc w p v s : toml_to_string tc v = Ok s -> w_can_open w p = true -> w_fs w p <> Some NDir ->
  (w_space w p = None \/ exists n, w_space w p = Some n /\ (List.length (utf8_encode s) <= n)%nat) ->
  layer_write w (LFile (toml_handler tc) p) v = (set_node w p (NFile (utf8_encode s)), Ok tt).
Proof.
  intros E O D Sp. cbn. unfold toml_write, fs_write. rewrite E, O.
  assert (X : match w_space w p with
      | Some n => if Nat.leb (List.length (utf8_encode s)) n then (set_node w p (NFile (utf8_encode s)), Ok tt)
                  else (set_node w p (NFile (firstn n (utf8_encode s))), Err IoWriteFault)
      | None => (set_node w p (NFile (utf8_encode s)), Ok tt) end
      = (set_node w p (NFile (utf8_encode s)), Ok tt)).
  { destruct Sp as [->|(n & -> & L)]; auto. apply Nat.leb_le in L. now rewrite L. }
  destruct (w_fs w p) as [[bs|]|]; [|contradiction|]; now rewrite X.
Qed.

(** ** histories *)
Lemma built_in_write tc w l v w' r : built_in tc l -> layer_write w l v = (w', r) ->
  w' = w \/ exists p, l = LFile (toml_handler tc) p /\ same_but p w w'.
Proof.
  intros B E. inversion B; subst; cbn in E; [injection E as <- _; auto.. |].
  right. exists p. split; auto. eapply file_write_effect; exact E.
Qed.
Lemma writes_frame tc w h w' : writes w h w' -> (forall l v, In (l, v) h -> built_in tc l) ->
  forall q, (forall p v, In (LFile (toml_handler tc) p, v) h -> ~ same_file w p q) ->
  w_fs w' q = w_fs w q /\ w_target w' = w_target w /\ w_can_read w' = w_can_read w /\ w_env w' = w_env w /\ w_platform w' = w_platform w
  /\ w_can_open w' = w_can_open w /\ w_space w' = w_space w.
Proof.
  induction 1 as [w|w l v r w1 h w2 E H IH]; intros B q N; [auto 10|].
  assert (T : w_target w1 = w_target w).
  { destruct (built_in_write tc w l v w1 r) as [->|(p & -> & S)]; auto; [apply (B l v); left; auto | apply S]. }
  destruct (IH (fun l v I => B l v (or_intror I)) q) as (-> & -> & -> & -> & -> & -> & ->).
  { intros p x Hp. unfold same_file. rewrite T. exact (N p x (or_intror Hp)). }
  destruct (built_in_write tc w l v w1 r) as [->|(p & -> & S)]; auto 10; [apply (B l v); left; auto|].
  destruct S as (F & -> & -> & -> & -> & -> & ->). rewrite F; auto 10.
  exact (N p v (or_introl eq_refl)).
Qed.

Lemma read_after_write tc w p v w' s v' : layer_write w (LFile (toml_handler tc) p) v = (w', Ok tt) ->
  toml_to_string tc v = Ok s -> is_text s = true -> toml_from_str tc s = Ok v' ->
  forall q, same_file w p q -> w_can_read w q = true ->
  forall h w'', writes w' h w'' -> (forall l x, In (l, x) h -> built_in tc l) ->
  (forall p' x, In (LFile (toml_handler tc) p', x) h -> ~ same_file w p' p) ->
  layer_read w'' (LFile (toml_handler tc) q) = Ok v' /\ layer_has_value w'' (LFile (toml_handler tc) q) = true.
Proof.
  intros E S T P q Q R h w'' H B N.
  apply file_write_effect in E as [(_ & Tg & _ & _ & Cr & _) (s' & S' & F)].
  assert (s' = s) by congruence; subst s'.
  destruct (writes_frame tc w' h w'' H B q) as (F' & _ & Cr' & _).
  { intros p' x Hp E. apply (N p' x Hp). unfold same_file in *. rewrite Tg in E. congruence. }
  cbn. unfold toml_read, fs_exists, fs_read_to_string. rewrite F', (F q Q), Cr', Cr, R. cbn [negb].
  rewrite decode_encode by auto. rewrite P. auto.
Qed.

(** ** the file layer in the build: writing then building *)
Lemma can_write_false tc l : built_in tc l -> layer_can_write l = false.
Proof. now inversion 1. Qed.
Lemma write_possible_iff tc l : built_in tc l -> (exists v s, toml_to_string tc v = Ok s) ->
  ((exists w v w', layer_write w l v = (w', Ok tt)) <-> exists p, l = LFile (toml_handler tc) p).
Proof.
  intros B (v & s & E). split.
  - intros (w & x & w' & H). inversion B; subst; cbn in H; [discriminate..|]. eauto.
  - intros [p ->]. exists {| w_files := fun _ => None; w_target := fun p => p; w_can_read := fun _ => true; w_can_open := fun _ => true;
      w_room := fun _ => None; w_env := []; w_platform := {| pf_base := None; pf_cwd := None |} |}, v.
    eexists. apply (write_succeeds _ _ _ _ s); cbn; auto; discriminate.
Qed.

(** ** add_file_layer *)
Lemma toml_path_iff p : toml_path p <-> has_extension p (lit "toml").
Proof. reflexivity. Qed.
Lemma add_file_accepts tc c name p : has_extension p (lit "toml") ->
  add_file_layer tc c name p = (push_layer c name (LFile (toml_handler tc) p), Ok tt).
Proof.
  intros H. apply toml_path_iff in H. unfold add_file_layer. now rewrite (proj2 (ext_match_toml p) H).
Qed.
Lemma add_file_refuses tc c name p : ~ has_extension p (lit "toml") ->
  exists e, add_file_layer tc c name p = (c, Err (BLayer (LUnsupportedExtension e)))
    /\ (forall e', has_extension p e' -> e = e') /\ ((forall e', ~ has_extension p e') -> e = []).
Proof.
  intros H. rewrite <- toml_path_iff in H. unfold add_file_layer.
  destruct (ext_match_path ExtToml p) eqn:E; [apply ext_match_toml in E; contradiction|].
  eexists. split; [reflexivity|]. split.
  - intros e' H'. apply extension_iff in H'. now rewrite H'.
  - intros N. apply no_extension_iff in N. now rewrite N.
Qed.
Lemma has_extension_fun p e e' : has_extension p e -> has_extension p e' -> e = e'.
Proof. intros A B. apply extension_iff in A, B. congruence. Qed.
