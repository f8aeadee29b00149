(** Facts about path texts. *)
From Coq Require Import ZArith Bool String Lia List.
Import ListNotations.
From Verif.Model Require Import Text Value Paths.
From Verif.Spec Require Import PathSpec.
From Verif.Proofs Require Import Basics.

Lemma sep_dot : SEP <> DOT.
Proof. discriminate. Qed.

Lemma span_not_spec x s : forall a b, span_not x s = (a, b) ->
  s = a ++ b /\ ~ In x a /\ (b = [] \/ exists b', b = x :: b').
Proof.
  induction s as [|c s IH]; cbn; intros a b E.
  - injection E as <- <-. cbn; auto.
  - destruct (Z.eqb_spec c x) as [->|N].
    + injection E as <- <-. split; [reflexivity|]. split; [intros []|]. right; eauto.
    + destruct (span_not x s) as [a' b'] eqn:E'. injection E as <- <-.
      destruct (IH _ _ eq_refl) as (-> & I & H). repeat split; auto. cbn. intros [->|]; auto.
Qed.
Lemma span_not_app x a b : ~ In x a -> (b = [] \/ exists b', b = x :: b') -> span_not x (a ++ b) = (a, b).
Proof.
  intros I H. induction a as [|c a IH]; cbn.
  - destruct H as [->|[b' ->]]; cbn; auto. now rewrite Z.eqb_refl.
  - destruct (Z.eqb_spec c x) as [->|N]; [exfalso; apply I; cbn; auto|].
    rewrite IH; auto. intros J; apply I; cbn; auto.
Qed.

(** A reversed text that strip_tail leaves alone. *)
Definition solid (r : str) : Prop :=
  match r with
  | [] => False
  | c :: t => c <> SEP /\ (c = DOT -> match t with [] => False | c' :: _ => c' <> SEP end)
  end.
Lemma strip_solid r : solid r -> strip_tail r = r.
Proof.
  destruct r as [|c t]; cbn; [tauto|]. intros [N H].
  destruct (Z.eqb_spec c SEP); [contradiction|].
  destruct (Z.eqb_spec c DOT) as [->|]; auto.
  specialize (H eq_refl). destruct t as [|c' t']; [contradiction|].
  destruct (Z.eqb_spec c' SEP); [contradiction | auto].
Qed.
Lemma strip_trailing t : trailing t -> forall r, strip_tail (rev t ++ r) = strip_tail r.
Proof.
  induction 1 as [|t _ IH|t _ IH]; intros r; auto.
  - rewrite rev_app_distr. cbn [rev app]. cbn. apply IH.
  - rewrite rev_app_distr. cbn [rev app]. cbn. apply IH.
Qed.
Lemma strip_split_len : forall n r, (List.length r <= n)%nat ->
  strip_tail r = [] \/ (solid (strip_tail r) /\ exists t, trailing t /\ r = rev t ++ strip_tail r).
Proof.
  induction n as [|n IH]; intros r L.
  - destruct r; [left; reflexivity | cbn in L; lia].
  - destruct r as [|c t]; [left; reflexivity|]. cbn [strip_tail].
    destruct (Z.eqb_spec c SEP) as [->|N].
    + destruct (IH t) as [E|(S & u & T & E)]; [cbn in L; lia | left; auto | right; split; auto].
      exists (u ++ [SEP]). split; [now constructor|]. rewrite rev_app_distr. cbn. now rewrite <- E.
    + destruct (Z.eqb_spec c DOT) as [->|N'].
      * destruct t as [|c' t']; auto. destruct (Z.eqb_spec c' SEP) as [->|N''].
        -- destruct (IH t') as [E|(S & u & T & E)]; [cbn in L; lia | left; auto | right; split; auto].
           exists (u ++ [SEP; DOT]). split; [now constructor|]. rewrite rev_app_distr. cbn. now rewrite <- E.
        -- right. split; [split; auto|]. exists []. split; [constructor | reflexivity].
      * right. split; [split; [auto | intros; contradiction]|]. exists []. split; [constructor | reflexivity].
Qed.
Lemma strip_split r :
  strip_tail r = [] \/ (solid (strip_tail r) /\ exists t, trailing t /\ r = rev t ++ strip_tail r).
Proof. exact (strip_split_len _ r (le_n _)). Qed.

Lemma rev_nil_iff {A} (l : list A) : rev l = [] <-> l = [].
Proof. split; [intros H; rewrite <- (rev_involutive l), H; reflexivity | intros ->; reflexivity]. Qed.

Lemma split_last_names p d n : names_file p d n -> split_last p = (d, n).
Proof.
  intros (t & -> & D & T & S & N0 & N1 & N2). unfold split_last.
  rewrite !rev_app_distr, <- app_assoc, strip_trailing by auto.
  assert (E : strip_tail (rev n ++ rev d) = rev n ++ rev d).
  { apply strip_solid. destruct n as [|x n' _] using rev_ind; [contradiction|].
    rewrite rev_app_distr. cbn [rev app solid]. split.
    - intros ->. apply S. apply in_or_app; cbn; auto.
    - intros ->. destruct n' as [|y n'' _] using rev_ind; [cbn in *; contradiction|].
      rewrite rev_app_distr. cbn. intros ->. apply S, in_or_app. left. apply in_or_app; cbn; auto. }
  rewrite E. rewrite span_not_app.
  - now rewrite !rev_involutive.
  - intros I. apply S. now apply in_rev.
  - destruct D as [->|[d' ->]]; [auto|]. right. rewrite rev_app_distr. cbn. eauto.
Qed.
Lemma file_name_iff p n : file_name p = Some n <-> exists d, names_file p d n.
Proof.
  split.
  - unfold file_name. destruct (split_last p) as [d n'] eqn:E. cbn [snd].
    intros H. assert (n' = n /\ n <> [] /\ n <> [DOT; DOT]) as (-> & N0 & N2).
    { destruct n' as [|c n'']; [discriminate|]. destruct (str_eqb (c :: n'') (lit "..")) eqn:Q; [discriminate|].
      injection H as <-. repeat split; [discriminate|]. intros X. rewrite X in Q. discriminate. }
    clear H. exists d. unfold split_last in E.
    destruct (span_not SEP (strip_tail (rev p))) as [a b] eqn:X. injection E as <- <-.
    apply span_not_spec in X as (Es & I & H).
    destruct (strip_split (rev p)) as [Z0|(S & t & T & Ep)].
    { rewrite Z0 in Es. symmetry in Es. apply app_eq_nil in Es as [-> _]. now cbn in N0. }
    rewrite Es in Ep, S. exists t.
    split; [apply (f_equal (@rev _)) in Ep; rewrite rev_involutive, !rev_app_distr, rev_involutive, <- app_assoc in Ep; exact Ep|].
    split.
    { destruct H as [->|[b' ->]]; [left; reflexivity|]. right. exists (rev b'). reflexivity. }
    split; [exact T|]. split; [intros J; apply in_rev in J; auto|]. split; [exact N0|]. split; [|exact N2].
    intros Ed. assert (a = [DOT]) by (rewrite <- (rev_involutive a), Ed; reflexivity). subst a.
    cbn in S. destruct S as [_ S]. specialize (S eq_refl). destruct H as [->|[b' ->]]; [exact S | now apply S].
  - intros [d N]. assert (E := split_last_names p d n N). unfold file_name. rewrite E. cbn [snd].
    destruct N as (t & _ & _ & _ & _ & N0 & _ & N2). destruct n as [|c n']; [contradiction|].
    destruct (str_eqb (c :: n') (lit "..")) eqn:Q; auto. apply str_eqb_eq in Q. now apply N2 in Q.
Qed.
Lemma names_file_fun p d n d' n' : names_file p d n -> names_file p d' n' -> d = d' /\ n = n'.
Proof. intros A B. apply split_last_names in A, B. split; congruence. Qed.

Lemma stem_ext_iff n e stem : stem_ext n = (stem, Some e) <->
  n = stem ++ DOT :: e /\ stem <> [] /\ no_dot e.
Proof.
  unfold stem_ext, rsplit_dot. destruct (span_not DOT (rev n)) as [a b] eqn:E.
  split.
  - apply span_not_spec in E as (En & I & H). destruct b as [|x b]; [discriminate|].
    destruct H as [|[b' Eb]]; [discriminate|]. injection Eb as -> <-.
    destruct (rev b) as [|c r] eqn:R; [discriminate|]. intros X; injection X as <- <-.
    apply (f_equal (@rev _)) in En. rewrite rev_involutive, rev_app_distr in En. cbn in En.
    rewrite R, <- app_assoc in En. split; [exact En|]. split; [discriminate|].
    intros J; apply I. now apply in_rev.
  - intros (-> & N & D). rewrite rev_app_distr in E. cbn [rev] in E. rewrite <- app_assoc in E.
    rewrite span_not_app in E; [|intros J; apply D; now apply in_rev | right; eexists; reflexivity].
    injection E as <- <-. cbn [app]. rewrite rev_involutive.
    destruct stem as [|c s]; [contradiction|]. now rewrite rev_involutive.
Qed.
Lemma stem_ext_none n : (exists stem, stem_ext n = (stem, None)) <-> stem_ext n = (n, None).
Proof.
  split; [|eauto]. intros [stem E]. unfold stem_ext in *. destruct (rsplit_dot n) as [[[|c b] a]|]; congruence.
Qed.
Lemma extension_iff p e : extension p = Some e <-> has_extension p e.
Proof.
  unfold extension, has_extension. split.
  - destruct (file_name p) as [n|] eqn:F; [|discriminate]. apply file_name_iff in F as [d N].
    destruct (stem_ext n) as [stem x] eqn:E. cbn. intros ->. apply stem_ext_iff in E as (-> & S & D).
    exists d, stem. auto.
  - intros (d & stem & N & S & D). assert (F := proj2 (file_name_iff p _) (ex_intro _ d N)). rewrite F.
    assert (E := proj2 (stem_ext_iff _ e stem) (conj eq_refl (conj S D))). now rewrite E.
Qed.
Lemma no_extension_iff p : extension p = None <-> forall e, ~ has_extension p e.
Proof.
  split.
  - intros E e H. apply extension_iff in H. congruence.
  - intros H. destruct (extension p) as [e|] eqn:E; auto. apply extension_iff in E. now apply H in E.
Qed.
