(** C110. *)
From Coq Require Import ZArith Bool String Lia.
From Coq Require Import List.
Import ListNotations.
From Verif.Model Require Import Text Value Paths Finder World Layers Config Macro.
From Verif.Spec Require Import Spec ConfigSpec PathSpec MacroSpec LifeSpec.
From Verif.Proofs Require Import Basics ConfigBuild MacroProofs.

Lemma spares_effect tc q w e w' : spares tc q w e w' -> w_fs w' q = w_fs w q \/ created_by tc q e w w'.
Proof.
  intros [ms w0 cfg w1 D E|ms dv w0 w1 D V C|p v r w0 w1 N E|w0 w1 E]; auto.
  - destruct (macro_default ms) as (dv & V & _). destruct (create_config_run _ _ _ _ _ _ E V) as (h & r & M & _).
    destruct (proj2 (run_effect _ _ _ _ _ _ _ _ M D) q); auto. right. exists ms, dv. auto.
  - destruct (proj2 (macro_crash_effect tc ms dv w0 w1 D C) q); auto. right. exists ms, dv. auto.
  - left. destruct (file_write_prefix _ _ _ _ _ _ E) as [[S _] _]. auto.
Qed.
Lemma spares_existing tc q w e w' : spares tc q w e w' -> ~ missing w q -> w_fs w' q = w_fs w q.
Proof. intros S N. destruct (spares_effect _ _ _ _ _ S) as [|(ms & dv & _ & _ & Mi & _)]; auto. contradiction. Qed.
Lemma life_existing tc q w es w' : life_sparing tc q w es w' -> ~ missing w q -> w_fs w' q = w_fs w q.
Proof.
  induction 1 as [|w e w1 es w2 S L IH]; auto. intros N. pose proof (spares_existing _ _ _ _ _ S N) as E. rewrite IH; auto. unfold missing in *. now rewrite E.
Qed.
Lemma life_origin tc q w es w' : life_sparing tc q w es w' ->
  w_fs w' q = w_fs w q \/
  exists before e after w1 w2, es = before ++ e :: after /\ life_sparing tc q w before w1 /\ spares tc q w1 e w2 /\ life_sparing tc q w2 after w'
    /\ missing w1 q /\ created_by tc q e w1 w2 /\ w_fs w' q = w_fs w2 q.
Proof.
  induction 1 as [|w e w1 es w2 S L IH]; auto. destruct (spares_effect _ _ _ _ _ S) as [E|C].
  - destruct IH as [IH|(b & e' & a & w3 & w4 & -> & B & S' & A & Mi & C & F)]; [left; congruence|].
    right. exists (e :: b), e', a, w3, w4. split; [reflexivity|]. split; [econstructor; eauto|]. auto.
  - right. exists [], e, es, w, w1. split; auto. split; [constructor|]. split; auto. split; auto. split; [destruct C as (ms & dv & _ & _ & Mi & _); exact Mi|]. split; auto.
    eapply life_existing; eauto. destruct C as (ms & dv & _ & _ & _ & ls & p & rest & s & k & _ & _ & _ & _ & _ & _ & _ & F). unfold missing. congruence.
Qed.

Lemma settled tc ms w cfg w1 w2 cfg' w3 : distinct_names ms -> create_config tc ms w = Done (cfg, w1) ->
  nothing_removed w1 w2 -> create_config tc ms w2 = Done (cfg', w3) -> w3 = w2.
Proof.
  intros D E [SS NR] E'. destruct (macro_default ms) as (dv & V & _).
  destruct (create_config_run _ _ _ _ _ _ E V) as (h & r & M & _).
  destruct (create_config_run _ _ _ _ _ _ E' V) as (h' & r' & M' & _).
  refine (run_twice _ _ _ _ _ _ _ _ M D _ _ _ _ M' D _ NR). eapply same_system_trans; [|exact SS]. apply (run_effect _ _ _ _ _ _ _ _ M D).
Qed.
Lemma nothing_removed_trans w1 w2 w3 : nothing_removed w1 w2 -> nothing_removed w2 w3 -> nothing_removed w1 w3.
Proof. intros [A B] [C D]. split; [eapply same_system_trans; eauto | auto]. Qed.
Lemma start_removes_nothing tc ms w cfg w' : distinct_names ms -> create_config tc ms w = Done (cfg, w') -> nothing_removed w w'.
Proof.
  intros D E. destruct (macro_default ms) as (dv & V & _). destruct (create_config_run _ _ _ _ _ _ E V) as (h & r & M & _).
  destruct (run_effect _ _ _ _ _ _ _ _ M D) as [SS B]. split; auto. intros q Mi. destruct (B q) as [X|X]; [unfold missing in *; congruence | exact (proj1 X)].
Qed.
Lemma starts_remove_nothing tc w mss w' : starts tc w mss w' -> nothing_removed w w'.
Proof.
  induction 1 as [w|w ms cfg w1 mss w2 D E S IH]; [split; [apply same_system_refl | auto]|]. eapply nothing_removed_trans; [eapply start_removes_nothing; eauto | exact IH].
Qed.
Lemma starts_settle tc w mss w1 : starts tc w mss w1 -> forall mss' w2, (forall m, In m mss' -> In m mss) -> starts tc w1 mss' w2 -> w2 = w1.
Proof.
  intros S mss' w2 H S'. induction S' as [w0|w0 ms cfg w3 mss' w4 D E S' IH]; auto.
  assert (w3 = w0) as ->; [|apply IH; auto; intros; apply H; right; auto].
  assert (X : exists wa cfga wb, create_config tc ms wa = Done (cfga, wb) /\ nothing_removed wb w0).
  { assert (Hm : In ms mss) by (apply H; left; auto). clear - S Hm D. induction S as [|w ms0 cfg w1 mss w2 D0 E S IH]; [destruct Hm|]. destruct Hm as [->|Hm]; auto.
    exists w, cfg, w1. split; auto. eapply starts_remove_nothing; eauto. }
  destruct X as (wa & cfga & wb & Ea & NR). eapply settled; eauto.
Qed.
