(** Rounding to f32: the same development as in FloatConv, for binary32
    (C60). *)
From Coq Require Import ZArith Reals Bool String Lia Lra.
From Coq Require Import Floats.SpecFloat.
From Flocq Require Import Core BinarySingleNaN.
From Coq Require Import List.
Import ListNotations.
From Verif.Model Require Import Text Num Flt Value Convert.
From Verif.Spec Require Import Numerals FloatSpec.
From Verif.Proofs Require Import Conversions FloatBase FloatConv.
Local Open Scope Z_scope.

Lemma finite32_iff f : finite32 f <-> f32_valid f = true /\ is_finite_SF f = true.
Proof. unfold finite32. destruct f; cbn; intuition discriminate. Qed.
Local Instance valid32 : Valid_exp (FLT_exp (-149) 24) := FLT_exp_valid (-149) 24.
Local Instance ne32 : Exists_NE radix2 (FLT_exp (-149) 24).
Proof. apply exists_NE_FLT. right. reflexivity. Qed.
Lemma fexp32 : SpecFloat.fexp 24 128 = FLT_exp (-149) 24.
Proof. reflexivity. Qed.
Lemma finite_format_32 g : finite32 g -> generic_format radix2 (FLT_exp (-149) 24) (real g).
Proof.
  intros [V F]. rewrite real_SF2R. pose proof (generic_format_B2R 24 128 (SF2B (prec := 24) (emax := 128) g V)) as H.
  now rewrite B2R_SF2B in H.
Qed.
Lemma finite_canonical_32 s m e : finite32 (S754_finite s m e) ->
  Generic_fmt.canonical radix2 (FLT_exp (-149) 24) (Float radix2 (cond_Zopp s (Zpos m)) e).
Proof. intros [V _]. apply (canonical_bounded 24 128 s m e V). Qed.
Lemma cond_even_32 s m : Z.even (cond_Zopp s (Zpos m)) = Z.even (Zpos m).
Proof. destruct s; reflexivity. Qed.

Lemma rounds_nearest_32 x s f : rounds32 x s f -> (Rabs (rne 24 128 x) < bpow radix2 128)%R ->
  nearest32 x f /\ negative f = s.
Proof.
  intros [V H] L. rewrite Rlt_bool_true in H by auto. destruct H as (E & Fi & S).
  assert (F : finite32 f) by (apply finite32_iff; auto).
  split; [|now rewrite negative_sign]. split; auto. intros g G.
  rewrite (real_SF2R f), E.
  destruct (round_NE_pt radix2 (FLT_exp (-149) 24) x) as [[N1 N2] N3].
  change (round radix2 (FLT_exp (-149) 24) ZnearestE x) with (rne 24 128 x) in *.
  split; [apply N2, finite_format_32; auto|]. intros Eq. destruct N3 as [(c & Ec & Cc & Pc)|U].
  - right. destruct f as [s'| | |s' m e]; try discriminate; [exact I|]. cbn [even_mantissa].
    rewrite <- E, SF2R_finite in Ec.
    apply (Generic_fmt.canonical_unique radix2 (FLT_exp (-149) 24)) in Ec; auto using finite_canonical_32.
    rewrite <- Ec in Pc. cbn [Fnum] in Pc. now rewrite cond_even_32 in Pc.
  - left. apply U. split; [now apply finite_format_32|]. intros g' G'. rewrite <- Eq. now apply N2.
Qed.

(** When the rounding overflows. *)
Definition top32 : R := (bpow radix2 128 - bpow radix2 104)%R.
Lemma top32_F2R : top32 = F2R (Float radix2 (2 ^ 24 - 1) 104).
Proof.
  unfold top32, F2R. cbn [Fnum Fexp]. rewrite minus_IZR. change (2 ^ 24) with (Z.pow radix2 24). rewrite (IZR_Zpower radix2) by lia.
  rewrite Rmult_minus_distr_r, <- bpow_plus. replace (24 + 104) with 128 by reflexivity. ring.
Qed.
Lemma top32_format : generic_format radix2 (FLT_exp (-149) 24) top32.
Proof.
  rewrite top32_F2R. apply generic_format_FLT. exists (Float radix2 (2 ^ 24 - 1) 104); cbn; auto; lia.
Qed.
Lemma big_format_32 : generic_format radix2 (FLT_exp (-149) 24) (bpow radix2 128).
Proof. apply generic_format_bpow. unfold FLT_exp. lia. Qed.

Lemma limit_mid_32 : (f32_limit = (top32 + bpow radix2 128) / 2)%R.
Proof.
  unfold f32_limit, top32. rewrite <- !bpow2.
  replace (bpow radix2 104) with (2 * bpow radix2 103)%R; [field|].
  replace 104 with (1 + 103) by reflexivity. rewrite bpow_plus. reflexivity.
Qed.
Lemma top32_lt : (0 < top32 < bpow radix2 128)%R.
Proof.
  unfold top32. pose proof (bpow_gt_0 radix2 104). pose proof (bpow_lt radix2 104 128 eq_refl). lra.
Qed.

Lemma round_limit_32 : round radix2 (FLT_exp (-149) 24) ZnearestE f32_limit = bpow radix2 128.
Proof.
  assert (M : mag radix2 f32_limit = 128 :> Z).
  { apply mag_unique_pos. rewrite limit_mid_32. pose proof top32_lt as [T1 T2]. split; [|lra].
    unfold top32. replace (128 - 1) with 127 by reflexivity.
    assert (bpow radix2 128 = 2 * bpow radix2 127)%R by (replace 128 with (1 + 127) by reflexivity; rewrite bpow_plus; reflexivity).
    pose proof (bpow_lt radix2 104 127 eq_refl). lra. }
  unfold round, scaled_mantissa, cexp. rewrite M. replace (FLT_exp (-149) 24 128) with 104 by reflexivity.
  assert (E : (f32_limit * bpow radix2 (- (104)) = IZR (2 ^ 24 - 1) + / 2)%R).
  { rewrite limit_mid_32, top32_F2R. unfold F2R. cbn [Fnum Fexp].
    replace (bpow radix2 128) with (IZR (2 ^ 24) * bpow radix2 104)%R.
    2:{ change (2 ^ 24) with (Z.pow radix2 24). rewrite (IZR_Zpower radix2) by lia. rewrite <- bpow_plus. reflexivity. }
    replace (IZR (2 ^ 24)) with (IZR (2 ^ 24 - 1) + 1)%R by (rewrite minus_IZR; ring).
    rewrite bpow_opp. pose proof (bpow_gt_0 radix2 104). field. lra. }
  rewrite E. assert (Z1 : ZnearestE (IZR (2 ^ 24 - 1) + / 2) = 2 ^ 24).
  { unfold Znearest. assert (Fl : Zfloor (IZR (2 ^ 24 - 1) + / 2) = 2 ^ 24 - 1).
    { apply Zfloor_imp. rewrite plus_IZR. lra. }
    rewrite Fl. replace (IZR (2 ^ 24 - 1) + / 2 - IZR (2 ^ 24 - 1))%R with (/ 2)%R by ring.
    rewrite Rcompare_Eq by reflexivity. replace (negb (Z.even (2 ^ 24 - 1))) with true by reflexivity.
    rewrite Zceil_floor_neq; rewrite Fl; [reflexivity|]. lra. }
  rewrite Z1. unfold F2R. cbn [Fnum Fexp]. change (2 ^ 24) with (Z.pow radix2 24). rewrite (IZR_Zpower radix2) by lia.
  rewrite <- bpow_plus. reflexivity.
Qed.

Lemma overflow_iff_32 x : (Rabs (rne 24 128 x) < bpow radix2 128 <-> Rabs x < f32_limit)%R.
Proof.
  change (rne 24 128 x) with (round radix2 (FLT_exp (-149) 24) ZnearestE x).
  rewrite <- round_NE_abs by auto with typeclass_instances.
  set (y := Rabs x). split; intros H.
  - apply Rnot_le_lt. intros L. apply (Rlt_irrefl (bpow radix2 128)). eapply Rle_lt_trans; [|exact H].
    rewrite <- round_limit_32. now apply round_le; auto with typeclass_instances.
  - destruct (Rle_or_lt y top32) as [L|L].
    + eapply Rle_lt_trans; [|apply top32_lt]. apply round_le_generic; auto using top32_format with typeclass_instances.
    + apply Rnot_le_lt. intros B.
      destruct (round_N_pt radix2 (FLT_exp (-149) 24) (fun z => negb (Z.even z)) y) as [_ N].
      specialize (N top32 top32_format). change (round radix2 (FLT_exp (-149) 24) (Znearest (fun z => negb (Z.even z))) y) with (round radix2 (FLT_exp (-149) 24) ZnearestE y) in N.
      rewrite limit_mid_32 in H. rewrite (Rabs_left (top32 - y)) in N by lra. rewrite Rabs_pos_eq in N by lra. lra.
Qed.

Lemma rounds_correct_32 x s f : rounds32 x s f -> rounds_correctly32 x s f.
Proof.
  intros H. split; intros L.
  - apply rounds_nearest_32; auto. now apply overflow_iff_32.
  - destruct H as [V H]. rewrite Rlt_bool_false in H; auto.
    apply Rnot_lt_le. intros B. apply overflow_iff_32 in B. lra.
Qed.

Lemma f64_to_f32_narrows f : narrows f (f64_to_f32 f).
Proof.
  destruct f as [s|s| |s m e]; cbn [narrows f64_to_f32]; try reflexivity.
  - cbn [negative real]. apply rounds_correct_32.
    exact (self_rounds 24 128 (S754_zero s) eq_refl eq_refl).
  - apply rounds_correct_32. rewrite real_SF2R, SF2R_finite.
    apply binary_round_rounds; auto with typeclass_instances.
Qed.

(** Whole numbers to f32. *)
Lemma normalize_rounds32 z : rounds_correctly32 (IZR z) (z <? 0) (SpecFloat.binary_normalize 24 128 z 0 false).
Proof.
  apply rounds_correct_32. destruct (Z.eq_dec z 0) as [->|N].
  - exact (self_rounds 24 128 (S754_zero false) eq_refl eq_refl).
  - rewrite <- F2R_int. now apply normalize_rounds; auto with typeclass_instances.
Qed.
