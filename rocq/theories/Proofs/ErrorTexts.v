(** Error texts and error equality (C81, C82). *)
From Coq Require Import ZArith Bool String Lia.
From Coq Require Import List.
Import ListNotations.
From Verif.Model Require Import Text Num Flt Value Paths Finder World Convert Errors.
From Verif.Spec Require Import Spec ErrorSpec.
From Verif.Proofs Require Import Basics.

Lemma model_error_eqb_iff a b : model_error_eqb a b = true <-> a = b.
Proof.
  destruct a, b; cbn; try (split; [discriminate | intros E; discriminate E]); try (split; reflexivity);
    rewrite ?andb_true_iff, ?str_eqb_eq; split; try congruence; try (intros [[-> ->] ->]; reflexivity);
    try (intros [= -> -> ->]; auto); try (intros [= ->]; auto).
Qed.

(** ** Which conversion errors occur *)
Ltac conv_case := match goal with
  | H : Ok _ = Err _ |- _ => discriminate H
  | H : Err _ = Err _ |- _ => injection H as <-
  end.
Lemma to_number_error z from t e : to_number z from t = Err e -> e = EConversion from (ity_name t) out_of_bounds.
Proof. unfold to_number. destruct (try_from t z); intros H; [discriminate | now injection H as <-]. Qed.
Lemma into_int_error t v e : into_int t v = Err e -> exists from why, source (ity_name t) v from why /\ e = EConversion from (ity_name t) why.
Proof.
  destruct v; cbn [into_int].
  1: intros H; injection H as <-; do 2 eexists; split; [constructor|reflexivity].
  1: discriminate.
  5: unfold float_into_int.
  1-5: destruct t; intros H; try discriminate H; apply to_number_error in H as ->; do 2 eexists; (split; [constructor|reflexivity]).
  1: destruct (parse_int t s); intros H; [discriminate|]; injection H as <-; do 2 eexists; (split; [apply SrcText; destruct t; discriminate|reflexivity]).
  1-2: intros H; injection H as <-; do 2 eexists; (split; [constructor|reflexivity]).
Qed.
Lemma into_bool_error v e : into_bool v = Err e -> exists from why, source (lit "bool") v from why /\ e = EConversion from (lit "bool") why.
Proof.
  destruct v; cbn [into_bool]; try discriminate.
  - intros H; injection H as <-; do 2 eexists; (split; [constructor|reflexivity]).
  - cbv zeta. destruct (str_eqb _ _); [discriminate|]. destruct (str_eqb _ _); [discriminate|].
    intros H; injection H as <-; do 2 eexists; (split; [now apply SrcTextBool|reflexivity]).
  - intros H; injection H as <-; do 2 eexists; (split; [constructor|reflexivity]).
  - intros H; injection H as <-; do 2 eexists; (split; [constructor|reflexivity]).
Qed.
Lemma into_f64_error v e : into_f64 v = Err e -> exists from why, source (lit "f64") v from why /\ e = EConversion from (lit "f64") why.
Proof.
  destruct v; cbn [into_f64]; try discriminate.
  2: destruct (parse_f64 s); [discriminate|]; intros H; injection H as <-; do 2 eexists; (split; [apply SrcText; discriminate|reflexivity]).
  all: intros H; injection H as <-; do 2 eexists; (split; [constructor|reflexivity]).
Qed.
Lemma into_string_error v e : into_string v = Err e -> exists from why, source (lit "String") v from why /\ e = EConversion from (lit "String") why.
Proof.
  destruct v; cbn [into_string]; try discriminate;
  intros H; injection H as <-; do 2 eexists; (split; [constructor|reflexivity]).
Qed.

(** ** Reading an error text *)
Lemma app_same_prefix {A} (p a b : list A) : p ++ a = p ++ b -> a = b.
Proof. apply app_inv_head. Qed.
(** Text up to the first space is determined. *)
Lemma split_space a b x y : ~ In 32%Z a -> ~ In 32%Z b -> a ++ 32%Z :: x = b ++ 32%Z :: y -> a = b /\ x = y.
Proof.
  revert b; induction a as [|c a IH]; intros [|d b] Na Nb E; cbn in E.
  - injection E as ->; auto.
  - injection E as <- _. destruct Nb; left; auto.
  - injection E as -> _. destruct Na; left; auto.
  - injection E as -> E. destruct (IH b) as [-> ->]; auto; intros I; [apply Na | apply Nb]; right; auto.
Qed.
(** Text up to the first colon. *)
Lemma split_colon a b x y : ~ In 58%Z a -> ~ In 58%Z b -> a ++ 58%Z :: x = b ++ 58%Z :: y -> a = b /\ x = y.
Proof.
  revert b; induction a as [|c a IH]; intros [|d b] Na Nb E; cbn in E.
  - injection E as ->; auto.
  - injection E as <- _. destruct Nb; left; auto.
  - injection E as -> _. destruct Na; left; auto.
  - injection E as -> E. destruct (IH b) as [-> ->]; auto; intros I; [apply Na | apply Nb]; right; auto.
Qed.
Lemma model_text_inj a b : plain_labels a -> plain_labels b ->
  model_error_display a = model_error_display b -> a = b.
Proof.
  destruct a, b; intros Pa Pb E; try reflexivity;
    try (exfalso; cbn in E; repeat (injection E as E); congruence).
  - apply app_same_prefix in E. now subst.
  - apply app_same_prefix in E. now subst.
  - destruct (Pa _ _ _ eq_refl) as [F1 T1], (Pb _ _ _ eq_refl) as [F2 T2].
    cbn [model_error_display] in E. apply app_same_prefix in E.
    change (lit " to ") with (32%Z :: lit "to ") in E. rewrite <- !app_comm_cons in E.
    apply split_space in E as [-> E]; auto. apply app_same_prefix in E.
    change (lit ": ") with (58%Z :: [32%Z]) in E. rewrite <- !app_comm_cons in E.
    apply split_colon in E as [-> E]; auto. cbn in E. now injection E as ->.
Qed.
Lemma layer_text_inj io a b : (forall x y, io x = io y -> x = y) ->
  layer_error_display io a = layer_error_display io b -> a = b.
Proof.
  intros I. destruct a, b; intros E; try reflexivity;
    try (exfalso; cbn in E; repeat (injection E as E); congruence);
    cbn [layer_error_display] in E; apply app_same_prefix in E; try (apply I in E); now subst.
Qed.
Lemma finder_text_inj a b : finder_error_display a = finder_error_display b -> a = b.
Proof. destruct a, b; intros E; try reflexivity; cbn in E; discriminate. Qed.
Lemma bak_text_kind io a b : bak_error_display io a = bak_error_display io b ->
  match a, b with
  | BIo _, BIo _ | BModel _, BModel _ | BLayer _, BLayer _ | BFinder _, BFinder _ => True
  | _, _ => False
  end.
Proof. destruct a, b; cbn; intros E; try exact I; discriminate. Qed.
Lemma bak_text_inj io a b : (forall x y, io x = io y -> x = y) ->
  (forall e, a = BModel e \/ b = BModel e -> plain_labels e) ->
  bak_error_display io a = bak_error_display io b -> a = b.
Proof.
  intros I P E. pose proof (bak_text_kind io a b E) as K.
  destruct a, b; cbn in K; try contradiction; cbn [bak_error_display] in E; apply app_same_prefix in E; f_equal.
  - now apply I.
  - apply model_text_inj; auto.
  - eapply layer_text_inj; eauto.
  - now apply finder_text_inj.
Qed.
