(** C138: nothing but TOML loads. *)
From Coq Require Import ZArith Bool String Lia.
From Coq Require Import List.
Import ListNotations.
From Verif.Model Require Import Text Num Value Paths Finder World Merge Layers Config Toml TomlText.
From Verif.Spec Require Import Numerals Spec EnvSpec MergeSpec ConfigSpec PathSpec ReadsSpec TomlSpec TomlTextSpec TomlDates TomlGrammar TomlForm.
From Verif.Proofs Require Import Basics Utf8 Files ConfigBuild Reads TomlProofs TomlProper TomlHand TomlWords TomlLook TomlForm.
From Verif.Properties Require Import P45_TomlText P48_TomlDates P52_TomlLines.
Local Open Scope Z_scope.

(** A byte order mark may come first. *)
Definition toml_form (lim : nat) (s : str) : Prop := is_text s = true /\ exists m u, (m = [] \/ m = [65279]) /\ s = m ++ u /\ file_form lim u.

Theorem C138_what_loads_has_the_form : forall lim r s v, toml_from_str (toml_codec r (toml_text lim)) s = Ok v -> toml_form lim s.
Proof. exact (fun lim r s v => loads_form r lim s v). Qed.
Print Assumptions C138_what_loads_has_the_form.

(** So a file layer that answers at all has no file, or one in UTF-8 of that form. *)
Theorem C138_a_layer_that_answers : forall lim r w p v, layer_read w (LFile (toml_handler (toml_codec r (toml_text lim))) p) = Ok v ->
  (w_fs w p = None /\ v = VMap []) \/ (exists bs s, w_fs w p = Some (NFile bs) /\ utf8 bs s /\ toml_form lim s).
Proof.
  intros lim r w p v H. apply file_answer_iff in H. inversion H as [N|N|bs N R|bs N R U|bs s msg N R U E|bs s v' N R U E]; subst; auto.
  right. exists bs, s. split; auto. split; auto. exact (loads_form _ _ _ _ E).
Qed.
Print Assumptions C138_a_layer_that_answers.

(** And a strict build that succeeds needs this of every file registered. *)
Theorem C138_a_strict_build_that_succeeds : forall lim r w c l n p v, registered c l -> build_value w c false = Ok v ->
  In (n, LFile (toml_handler (toml_codec r (toml_text lim))) p) l ->
  w_fs w p = None \/ (exists bs s, w_fs w p = Some (NFile bs) /\ utf8 bs s /\ toml_form lim s).
Proof.
  intros lim r w c l n p v R B I. rewrite (build_value_list w c l false R) in B.
  destruct (split_first_error w (map snd l)) as [(vs & F)|(l1 & x & e & l2 & vs & E & F & X)].
  - destruct (layer_read w (LFile (toml_handler (toml_codec r (toml_text lim))) p)) as [y|e] eqn:Y.
    + apply C138_a_layer_that_answers in Y as [[Y _]|Y]; auto.
    + exfalso. clear - F Y I. apply (in_map snd) in I. cbn [snd] in I. induction F as [|a b la lb H F IH]; [destruct I|]. destruct I as [->|I]; [congruence | auto].
  - rewrite E, (build_list_first_error w l1 vs x e l2 F X) in B. discriminate B.
Qed.
Print Assumptions C138_a_strict_build_that_succeeds.

(** Without [=] and [[], a text is empty lines and comments, or does not load. *)
Lemma form_quiet lim s : file_form lim s -> ~ In 61 s -> ~ In 91 s -> exists q e, quiet q /\ trailer e /\ s = q ++ e.
Proof.
  assert (LF : forall x, line_form lim x -> In 61 x \/ In 91 x).
  { intros x [p t w v n P Lp B V Ln|p t P Lp|p t P Lp]; [left; apply in_or_app; right; now left | right; now left | right; now left]. }
  intros F. induction F as [e E|e nl s (w & cm & B & C & ->) N F IH|w x e nl s B L E N F IH|w x e B L E]; intros N1 N2.
  - exists [], e. split; [constructor|]. auto.
  - destruct IH as (q & e & Q & E & ->); [intros J; apply N1; rewrite !in_app_iff; auto | intros J; apply N2; rewrite !in_app_iff; auto|].
    exists (w ++ cm ++ nl ++ q), e. split; [now constructor|]. split; [exact E|]. now rewrite <- !app_assoc.
  - destruct (LF x L) as [J|J]; [destruct N1 | destruct N2]; rewrite !in_app_iff; auto.
  - destruct (LF x L) as [J|J]; [destruct N1 | destruct N2]; rewrite !in_app_iff; auto.
Qed.
Lemma quiet_ends q : quiet q -> ends_line q.
Proof.
  intros Q. induction Q as [|w cm nl s B C N Q [->|(t & ->)]]; [now left| |].
  - right. rewrite app_nil_r. destruct N as [->| ->]; [exists (w ++ cm); now rewrite <- app_assoc|]. exists (w ++ cm ++ [13]). now rewrite <- !app_assoc.
  - right. exists (w ++ cm ++ nl ++ t). now rewrite <- !app_assoc.
Qed.
Theorem C138_without_equals_and_brackets : forall lim r s v, no_mark s -> ~ In 61 s -> ~ In 91 s ->
  (toml_from_str (toml_codec r (toml_text lim)) s = Ok v <-> v = VMap [] /\ is_text s = true /\ exists q e, quiet q /\ trailer e /\ s = q ++ e).
Proof.
  intros lim r s v N N1 N2.
  assert (Y : is_text s = true -> (exists q e, quiet q /\ trailer e /\ s = q ++ e) -> toml_from_str (toml_codec r (toml_text lim)) s = Ok (VMap [])).
  { intros T (q & e & Q & (w & cm & B & C & ->) & ->). unfold is_text in T. rewrite !forallb_app, !andb_true_iff in T. destruct T as (Tq & Tw & Tc).
    apply C136_last_line_may_be_blank_or_a_comment; auto; [now apply quiet_ends|].
    pose proof (C127_comments_and_empty_lines_change_nothing lim r [] q [] (VMap []) (or_introl eq_refl) Q Tq ltac:(intros t X; discriminate X) eq_refl) as X. cbn [app] in X. rewrite app_nil_r in X. rewrite X. reflexivity. }
  split.
  - intros L. destruct (loads_form _ _ _ _ L) as (T & m & u & [->| ->] & Es & F); [|destruct (N u Es)]. cbn [app] in Es. subst u.
    assert (Q : exists q e, quiet q /\ trailer e /\ s = q ++ e) by now apply (form_quiet lim). rewrite (Y T Q) in L. injection L as <-. auto.
  - intros (-> & T & Q). auto.
Qed.
Print Assumptions C138_without_equals_and_brackets.

(** The form is not enough: nothing may be set twice (C131). *)
Theorem C138_the_form_is_enough_refuted : exists s, toml_form 80 s /\ forall v, toml_from_str (toml_codec false (toml_text 80)) s <> Ok v.
Proof.
  exists (lit "a = 1" ++ [10] ++ lit "a = 2"). split; [|intros v; vm_compute; discriminate]. split; [reflexivity|].
  exists [], (lit "a = 1" ++ [10] ++ lit "a = 2"). split; [now left|]. split; [reflexivity|].
  eapply (statements_inv 80 20); [reflexivity|]. vm_compute. reflexivity.
Qed.
Print Assumptions C138_the_form_is_enough_refuted.

(** A text with everything in it that loads; one without a value does not. *)
Example C138_example : (exists v, toml_from_str (toml_codec false (toml_text 80))
    ([65279] ++ lit "# head" ++ [13; 10] ++ lit " a . 'b' = [ 1_0, # ten" ++ [10] ++ lit " {x.y = 1e3 , ""z"" = ''}, ]" ++ [10; 9; 10] ++ lit "[t] #" ++ [10] ++ lit "q = """"""\ " ++ [10] ++ lit " a""""""""" ++ [10] ++ lit "[[ u ]]") = Ok v)
  /\ (forall lim r v, toml_from_str (toml_codec r (toml_text lim)) (lit "a: 1") <> Ok v)
  /\ ~ toml_form 80 (lit "a") /\ ~ literal_word (lit "yes").
Proof.
  split; [eexists; vm_compute; reflexivity|]. split.
  - intros lim r v L. apply C138_without_equals_and_brackets in L; [| |vm_compute; intuition discriminate|vm_compute; intuition discriminate].
    + destruct L as (_ & _ & q & e & Q & (w & cm & B & C & ->) & E). destruct Q as [|w' cm' nl s B' C' N Q].
      * cbn [app] in E. destruct w as [|c w]; [destruct C as [->|(t & -> & _)]; discriminate E|]. injection E as <- _. destruct (B 97 (or_introl eq_refl)); discriminate.
      * assert (I : In 10 (lit "a: 1")); [|vm_compute in I; intuition discriminate]. rewrite E. destruct N as [->| ->]; rewrite !in_app_iff; cbn [In]; auto 10.
    + intros t X. discriminate X.
  - split.
    + intros (_ & m & u & M & E & F). assert (Eu : u = lit "a") by (destruct M as [->| ->]; [now rewrite E | discriminate E]). subst u. clear E M.
      apply form_quiet in F as (q & e & Q & (w & cm & B & C & ->) & E); [|vm_compute; intuition discriminate|vm_compute; intuition discriminate]. destruct Q as [|w' cm' nl s B' C' N Q].
      * cbn [app] in E. destruct w as [|c w]; [destruct C as [->|(t & -> & _)]; discriminate E|]. injection E as <- _. destruct (B 97 (or_introl eq_refl)); discriminate.
      * assert (I : In 10 (lit "a")); [|vm_compute in I; intuition discriminate]. rewrite E. destruct N as [->| ->]; rewrite !in_app_iff; cbn [In]; auto 10.
    + intros H. destruct (proj2 (C132_what_a_word_can_be 80 false (lit "a") (lit "yes") ltac:(lia) (proj1 (bare_key_iff 97 []) eq_refl) ltac:(apply tok_word; [reflexivity | discriminate])) H) as (v & L). vm_compute in L. discriminate L.
Qed.
