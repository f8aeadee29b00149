(** Values that differ only in how their numbers are stored (and in entries
    without a value) are read as the same typed data (C115). *)
From Coq Require Import ZArith Bool String Lia Permutation.
From Coq Require Import List.
Import ListNotations.
From Verif.Model Require Import Text Num Flt Value Convert Serde Visitor.
From Verif.Spec Require Import Spec Containers Numerals EnvSpec SerdeSpec FloatSpec ShapeSpec VisitorSpec.
From Verif.Proofs Require Import Basics Conversions SerProofs DeProofs FloatBase RoundTrip SerdeMore VisitorProofs FormatTrip Merge Loaded.
From Verif.Spec Require Import ReadSpec.
From Verif.Proofs Require Import ReadAs Override.
Local Open Scope Z_scope.

Lemma never_none_reads t d : never_none t -> ~ reads_as t VNone d.
Proof.
  intros N; revert d; induction N as [|u| | | | | | | | | |u N IH]; intros d R; inversion R; subst; try discriminate; try (eapply IH; eassumption).
  all: match goal with H : into_int ?t VNone = _ |- _ => destruct t; discriminate | M : mapv VNone |- _ => destruct M; discriminate end.
Qed.

Lemma last_entries_nodup ps r : NoDup (map fst ps) ->
  (last_entries ps r <-> NoDup (map fst r) /\ forall a b, In (a, b) r <-> In (a, b) ps).
Proof.
  intros N. assert (E : forall a b, In (a, b) ps <-> exists before after, ps = before ++ (a, b) :: after /\ ~ In a (map fst after)).
  { intros a b. split.
    - intros I. apply in_split in I as (x & y & ->). exists x, y. split; auto. rewrite map_app in N. cbn in N.
      apply NoDup_remove_2 in N. intros I. apply N, in_or_app. auto.
    - intros (x & y & -> & _). apply in_or_app. cbn; auto. }
  unfold last_entries. split; intros [H1 H2]; split; auto; intros a b; rewrite H2; [symmetry|]; apply E.
Qed.

Lemma reads_text_inj tk k k' a : text_key tk -> reads_as tk (VStr k) a -> reads_as tk (VStr k') a -> k = k'.
Proof.
  intros K R R'. apply (key_reads tk _ _ (text_is_key _ K)) in R, R'. apply (text_key_round tk k a K R k' a R'). reflexivity.
Qed.
Lemma reads_text_fun tk k a a' : text_key tk -> reads_as tk (VStr k) a -> reads_as tk (VStr k) a' -> a = a'.
Proof. intros K R R'. apply (key_reads tk _ _ (text_is_key _ K)) in R, R'. congruence. Qed.

Lemma keys_nodup tk tv m ps : text_key tk -> NoDup (map fst m) ->
  Forall2 (fun e p => reads_as tk (VStr (fst e)) (fst p) /\ reads_as tv (snd e) (snd p)) m ps -> NoDup (map fst ps).
Proof.
  intros K N F. induction F as [|[k x] [a b] m ps [R1 R2] F IH]; cbn in *; [constructor|]. inversion N as [|? ? N1 N2]; subst.
  constructor; auto. intros I. apply in_map_iff in I as ([a' b'] & E & I). cbn in E; subst a'.
  destruct (Forall2_in_r _ _ _ _ F I) as ([k' x'] & I' & R1' & _). cbn in R1'. rewrite (reads_text_inj tk k k' a K R1 R1') in N1.
  apply N1. apply (in_map fst) in I'. exact I'.
Qed.

Lemma each_same drop ts : (forall t, In t ts -> forall v v' d, reads_as t v d -> same_numbers drop v v' -> ranged v -> ranged v' -> reads_as t v' d) ->
  forall l l' ds, reads_each ts l ds -> Forall2 (same_numbers drop) l l' -> (forall x, In x l -> ranged x) -> (forall x, In x l' -> ranged x) ->
  reads_each ts l' ds.
Proof.
  intros IH l l' ds R. revert l' IH. induction R as [rest|t ts x xs d ds Rx R IHR]; intros l' IH F U U'; [constructor|].
  inversion F as [|? y ? ys S F']; subst. constructor.
  - eapply IH; eauto; cbn; auto. apply U; cbn; auto. apply U'; cbn; auto.
  - apply IHR; auto; intros; [eapply IH; eauto; cbn; auto | apply U; cbn; auto | apply U'; cbn; auto].
Qed.

Theorem sn_reads drop t : text_maps t -> format_safe drop t -> forall v v' d,
  reads_as t v d -> same_numbers drop v v' -> ranged v -> ranged v' -> reads_as t v' d.
Proof.
  induction t as [ |t| | | | | | |t IH|t IH|ts IH|tk tv IHk IHv|fs IH|t IH|n ts IH| | | ] using ty_ind';
    intros T Sf v v' d R S W W'; inversion R; subst;
    try (match goal with H : format_safe _ _ |- _ => inversion H as [? X| | | | | | |]; subst; cbn in X; destruct X; fail end);
    try (destruct (sn_alike drop _ _ W W' S) as (A1 & A2 & A3 & A4 & A5 & A6 & _)).
  - apply RaBool. now apply A2.
  - apply RaInt; auto. now apply A1.
  - apply RaF32. now apply A3.
  - apply RaF64. now apply A3.
  - apply RaChar. now apply A4.
  - apply RaString. now apply A5.
  - destruct v'; try discriminate A6. constructor.
  - destruct v'; try discriminate A6. constructor.
  - assert (St : format_safe drop t) by (inversion Sf as [? X| | | | | | |]; subst; [destruct X | auto]). inversion T; subst.
    apply RaSome; [|eapply IH; eauto]. intros ->. destruct v; try discriminate A6. contradiction.
  - assert (St : format_safe drop t) by (inversion Sf as [? X| | | | | | |]; subst; [destruct X | auto]). inversion T; subst.
    apply sn_arr_l in S as (l' & -> & F). apply RaSeq. rewrite ranged_arr in W, W'. clear R A1 A2 A3 A4 A5 A6.
    match goal with X : Forall2 (reads_as t) l r |- _ => revert X end. revert r. induction F as [|x y l l' S F IHF]; intros r R; inversion R; subst; constructor.
    + eapply IH; eauto; [apply W | apply W']; cbn; auto.
    + apply IHF; auto; intros; [apply W | apply W']; cbn; auto.
  - assert (St : forall t, In t ts -> format_safe drop t) by (inversion Sf as [? X| | | | | | |]; subst; [destruct X | auto]). inversion T; subst.
    apply sn_arr_l in S as (l' & -> & F). apply RaTuple. rewrite ranged_arr in W, W'. eapply each_same; eauto.
  - assert (St : format_safe drop tv /\ (drop = true -> never_none tv)) by (inversion Sf as [? X| | | | | | |]; subst; [destruct X | auto]).
    destruct St as [St Nn]. inversion T as [| | | | | | | | | | |? ? K Tv| | | | | |]; subst.
    apply sn_map_l in S as (n & -> & F1 & F2). apply ranged_map in W as [Nm Wm], W' as [Nn' Wn].
    match goal with X : Forall2 _ m ps |- _ => rename X into FP end. match goal with X : last_entries ps r |- _ => rename X into LE end.
    destruct (forall_Forall2 (fun e p => (reads_as tk (VStr (fst e)) (fst p) /\ reads_as tv (snd e) (snd p)) /\ In p ps) n) as [ps' FP'].
    { intros [k y] Hy. destruct (F2 k y Hy) as (x & Hx & S). destruct (Forall2_in_l _ _ _ _ FP Hx) as (p & Hp & R1 & R2).
      exists p. cbn in *. split; auto. split; auto. eapply IHv; eauto. }
    assert (FP1 : Forall2 (fun e p => reads_as tk (VStr (fst e)) (fst p) /\ reads_as tv (snd e) (snd p)) n ps')
      by (clear - FP'; induction FP' as [|? ? ? ? [? ?] ? IH]; constructor; auto).
    pose proof (keys_nodup tk tv m ps K Nm FP) as D. pose proof (keys_nodup tk tv n ps' K Nn' FP1) as D'.
    apply (RaMap tk tv n ps' r FP1). apply last_entries_nodup; auto. apply last_entries_nodup in LE as [Nr LE]; auto. split; auto.
    intros a b. rewrite LE. split; intros I.
    + destruct (Forall2_in_r _ _ _ _ FP I) as ([k x] & Hx & R1 & R2). cbn in R1, R2.
      destruct (F1 k x Hx) as [(y & Hy & S)|(Ed & -> & _)]; [|destruct (never_none_reads tv b (Nn Ed) R2)].
      destruct (Forall2_in_l _ _ _ _ FP' Hy) as ([a' b'] & Hp & [R1' _] & Ip). cbn in R1'.
      pose proof (reads_text_fun tk k a a' K R1 R1') as <-. rewrite (nodup_fst ps a b b' D I Ip). exact Hp.
    + destruct (Forall2_in_r _ _ _ _ FP' I) as (e & _ & _ & Ip). exact Ip.
  - assert (St : forall n t, In (n, t) fs -> format_safe drop t /\ (drop = true -> never_none t \/ exists u, t = TOption u))
      by (inversion Sf as [? X| | | | | | |]; subst; [destruct X | auto]). inversion T as [| | | | | | | | | | | |? Nf Tf| | | | |]; subst.
    match goal with X : mapv v |- _ => destruct X as [m ->] end. apply sn_map_l in S as (n & -> & F1 & F2).
    apply ranged_map in W as [Nm Wm], W' as [Nn' Wn]. apply RaStruct; [now exists n|].
    match goal with X : Forall2 _ fs l |- _ => rename X into FF end. clear R Nf Sf T.
    induction FF as [|[f t] [f' d] fs l [E H] FF IHF]; [constructor|]. cbn in E, H. subst f'. constructor.
    + cbn. split; auto. destruct H as [(x & Hx & R)|(L & (u & ->) & ->)].
      * apply holds_map in Hx. destruct (F1 f x Hx) as [(y & Hy & S)|(Ed & -> & N)].
        -- left. exists y. split; [now apply holds_map|]. eapply IH; eauto; cbn; auto; [eapply Tf; cbn; eauto | eapply St; cbn; eauto].
        -- right. split; [intros y Hy; apply holds_map, (in_map fst) in Hy; exact (N Hy)|]. destruct (proj2 (St f t (or_introl eq_refl)) Ed) as [Nn|(u & ->)].
           ++ destruct (never_none_reads t d Nn R).
           ++ inversion R; subst; [eauto | contradiction].
      * right. split; [|eauto]. intros y Hy. apply holds_map in Hy. destruct (F2 f y Hy) as (x & Hx & _). apply (L x). now apply holds_map.
    + apply IHF; intros; [eapply IH | eapply St | eapply Tf]; cbn; eauto.
  - assert (St : format_safe drop t) by (inversion Sf as [? X| | | | | | |]; subst; [destruct X | auto]). inversion T; subst.
    apply RaNewtype. eapply IH; eauto.
  - assert (St : forall t, In t ts -> format_safe drop t) by (inversion Sf as [? X| | | | | | |]; subst; [destruct X | auto]). inversion T; subst.
    apply sn_arr_l in S as (l' & -> & F). apply RaTupleStruct. rewrite ranged_arr in W, W'. eapply each_same; eauto.
  - destruct v'; try discriminate A6. constructor.
Qed.

Lemma sn_de drop t v v' d : proper t -> text_maps t -> format_safe drop t -> same_numbers drop v v' -> ranged v -> ranged v' ->
  de t v = Done d -> exists d', de t v' = Done d' /\ data_equiv d d'.
Proof.
  intros P T Sf S W W' D. apply (de_reads t P v' (ranged_uniq _ W')). eapply sn_reads; eauto.
  apply (de_reads t P v (ranged_uniq _ W)). exact D.
Qed.
