(** C107: adjacently tagged enums. *)
From Coq Require Import ZArith Bool String Lia.
From Coq Require Import List.
Import ListNotations.
From Verif.Model Require Import Text Num Flt Value Convert Serde Buffered Adjacent.
From Verif.Spec Require Import Spec Numerals SerdeSpec BufferedSpec StdSpec.
From Verif.Proofs Require Import Basics Conversions SerProofs DeProofs RoundTrip BufferedProofs BufferedTrips.
Local Open Scope Z_scope.

(** The first relevant entry. *)
Lemma relevant_cases tag content m :
  (next_relevant tag content m = Done None /\ ~ In tag (map fst m) /\ ~ In content (map fst m))
  \/ exists m1 k x m2, m = m1 ++ (k, x) :: m2 /\ ~ In tag (map fst m1) /\ ~ In content (map fst m1) /\
       (k = tag \/ k = content /\ k <> tag) /\ next_relevant tag content m = Done (Some (str_eqb k tag, x, m2)).
Proof.
  induction m as [|[k x] m IH]; [left; cbn; tauto|]. cbn [next_relevant].
  destruct (str_eqb k tag) eqn:E1.
  { right. exists [], k, x, m. pose proof (proj1 (str_eqb_eq _ _) E1). cbn. rewrite E1. repeat split; auto. }
  destruct (str_eqb k content) eqn:E2.
  { right. exists [], k, x, m. pose proof (proj1 (str_eqb_eq _ _) E2). pose proof (proj1 (str_eqb_neq _ _) E1). cbn. rewrite E1. repeat split; auto. }
  rewrite ignored_any_done. cbn [obind]. apply str_eqb_neq in E1. apply str_eqb_neq in E2. destruct IH as [(R & N1 & N2)|(m1 & k' & x' & m2 & -> & N1 & N2 & K & R)].
  - left. cbn. intuition congruence.
  - right. exists ((k, x) :: m1), k', x', m2. cbn. repeat split; auto; intuition congruence.
Qed.

Lemma adjacent_cases tag content v : tag <> content -> uniq v ->
  (* no map *)
  (~ mapv v /\ de_adjacent tag content v = de_kind_fail v (lit "Map"))
  (* the content before the tag, or without it, and unbuffered *)
  \/ (exists m1 x m2 e, v = VMap (m1 ++ (content, x) :: m2) /\ ~ In tag (map fst m1) /\ buffer x = Fail e /\ de_adjacent tag content v = Fail e)
  (* no tag *)
  \/ (exists m, v = VMap m /\ ~ In tag (map fst m) /\ (forall x, In (content, x) m -> ~ has_wide x) /\ de_adjacent tag content v = de_fail (lit "missing field `" ++ tag ++ lit "`"))
  (* a tag *)
  \/ (exists m1 x m2, v = VMap (m1 ++ (tag, x) :: m2) /\ (forall y, In (content, y) m1 -> ~ has_wide y) /\ de_adjacent tag content v = Panic).
Proof.
  intros T U. destruct v as [| | | | | | | | |m]; try (left; split; [intros (? & [=]) | reflexivity]).
  right. apply uniq_map in U as [ND _]. destruct (relevant_cases tag content m) as [(R & N1 & N2)|(m1 & k & x & m2 & -> & N1 & N2 & K & R)].
  - right; left. exists m. split; [reflexivity|]. split; auto. split.
    + intros x Hx. destruct N2. apply (in_map fst) in Hx. exact Hx.
    + cbn. rewrite R. reflexivity.
  - destruct K as [->|[-> K]].
    + right; right. exists m1, x, m2. split; auto. split.
      * intros y Hy. destruct N2. apply (in_map fst) in Hy. exact Hy.
      * cbn. rewrite R. cbn [obind]. rewrite str_eqb_refl. reflexivity.
    + pose proof (proj2 (str_eqb_neq content tag) K) as E. rewrite E in R. destruct (buffer x) as [c|e|] eqn:B.
      * destruct (relevant_cases tag content m2) as [(R2 & M1 & M2)|(m3 & k & y & m4 & -> & M1 & M2 & K2 & R2)].
        -- right; left. exists (m1 ++ (content, x) :: m2). split; auto. split.
           { rewrite map_app. intros [X|[X|X]]%in_app_or; cbn in *; congruence || tauto. }
           split.
           { intros z [Z|[[= ->]|Z]]%in_app_or; [destruct N2; apply (in_map fst) in Z; exact Z | apply buffer_done; eauto | destruct M2; apply (in_map fst) in Z; exact Z]. }
           cbn. rewrite R. cbn [obind]. rewrite B. cbn [obind]. rewrite R2. reflexivity.
        -- assert (k = tag) as ->.
           { destruct K2 as [->|[-> _]]; auto. exfalso. rewrite map_app in ND. cbn in ND. apply NoDup_remove_2 in ND. apply ND. apply in_or_app. right. rewrite map_app. apply in_or_app. right; left; reflexivity. }
           right; right. exists (m1 ++ (content, x) :: m3), y, m4. split; [rewrite <- app_assoc; reflexivity|]. split.
           { intros z [Z|[[= ->]|Z]]%in_app_or; [destruct N2; apply (in_map fst) in Z; exact Z | apply buffer_done; eauto | destruct M2; apply (in_map fst) in Z; exact Z]. }
           cbn. rewrite R. cbn [obind]. rewrite B. cbn [obind]. rewrite R2. cbn [obind]. rewrite str_eqb_refl. reflexivity.
      * left. exists m1, x, m2, e. split; auto. split; auto. split; auto. cbn. rewrite R. cbn [obind]. rewrite B. reflexivity.
      * destruct (buffer_no_panic _ B).
Qed.

Lemma adjacent_never_done tag content v d : tag <> content -> uniq v -> de_adjacent tag content v <> Done d.
Proof.
  intros T U. destruct (adjacent_cases tag content v T U) as [(_ & ->)|[(? & ? & ? & e & _ & _ & _ & ->)|[(? & _ & _ & _ & ->)|(? & ? & ? & _ & _ & ->)]]]; discriminate.
Qed.

(** Writing. *)
Lemma adjacent_fields_done tag content n o v : tag <> content ->
  (adjacent_fields tag content n o = Done v <->
   match o with
   | None => v = VMap [(tag, VStr n)]
   | Some y => exists x, y = Done x /\ v = VMap [(tag, VStr n); (content, x)]
   end).
Proof.
  intros T. unfold adjacent_fields. destruct o as [y|]; cbn.
  - destruct y as [x|e|]; cbn; [|split; [discriminate | intros (x & [=] & _)]..].
    pose proof (proj2 (str_eqb_neq content tag) (not_eq_sym T)) as E. unfold map_set. cbn. rewrite ?E. cbn.
    split; [intros [= <-]; eauto | intros (x' & [= <-] & ->); reflexivity].
  - split; [intros [= <-]; reflexivity | intros ->; reflexivity].
Qed.
