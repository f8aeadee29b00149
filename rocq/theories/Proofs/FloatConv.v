(** Float conversions: truncation, integers to floats, nearest floats
    (C10, C11, C15, C68). *)
From Coq Require Import ZArith Reals Bool String Lia Lra List.
From Coq Require Import Floats.SpecFloat.
From Flocq Require Import Core BinarySingleNaN.
Import ListNotations.
From Verif.Model Require Import Text Num Flt Value Convert.
From Verif.Spec Require Import Numerals FloatSpec.
From Verif.Proofs Require Import Conversions FloatBase.
Local Open Scope Z_scope.

Lemma bpow2 e : bpow radix2 e = powerRZ 2 e.
Proof. exact (bpow_powerRZ radix2 e). Qed.
Lemma real_SF2R f : real f = SF2R radix2 f.
Proof.
  destruct f as [s|s| |s m e]; try reflexivity. cbn [real SF2R signed_real]. unfold F2R; cbn [Fnum Fexp].
  rewrite bpow2. destruct s; cbn [cond_Zopp Z.opp].
  - change (Z.neg m) with (- Z.pos m). rewrite opp_IZR. symmetry; apply Ropp_mult_distr_l_reverse.
  - reflexivity.
Qed.
Lemma finite64_iff f : finite64 f <-> f64_valid f = true /\ is_finite_SF f = true.
Proof. unfold finite64. destruct f; cbn; intuition discriminate. Qed.
Lemma negative_sign f : negative f = sign_SF f.
Proof. destruct f; reflexivity. Qed.

(** ** Truncation *)
Lemma trunc_div m p : (IZR (Z.pos m / 2 ^ Z.pos p) <= IZR (Z.pos m) * powerRZ 2 (Z.neg p) < IZR (Z.pos m / 2 ^ Z.pos p) + 1)%R.
Proof.
  rewrite <- bpow2. change (Z.neg p) with (- Z.pos p). rewrite bpow_opp.
  assert (E : bpow radix2 (Z.pos p) = IZR (2 ^ Z.pos p)) by (symmetry; apply (IZR_Zpower radix2); lia).
  rewrite E. set (w := 2 ^ Z.pos p).
  assert (W : 0 < w) by (apply Z.pow_pos_nonneg; lia).
  pose proof (Z.div_mod (Z.pos m) w ltac:(lia)) as D. pose proof (Z.mod_pos_bound (Z.pos m) w W) as B.
  set (q := Z.pos m / w) in *. assert (RW : (0 < IZR w)%R) by (apply IZR_lt; lia).
  split.
  - apply Rmult_le_reg_r with (IZR w); auto. rewrite Rmult_assoc, Rinv_l, Rmult_1_r by lra.
    rewrite <- mult_IZR. apply IZR_le. nia.
  - apply Rmult_lt_reg_r with (IZR w); auto. rewrite Rmult_assoc, Rinv_l, Rmult_1_r by lra.
    rewrite <- plus_IZR, <- mult_IZR. apply IZR_lt. nia.
Qed.
Lemma trunc_abs m e : exists a, 0 <= a /\ (IZR a <= IZR (Z.pos m) * powerRZ 2 e < IZR a + 1)%R /\
  forall s, f64_trunc (S754_finite s m e) = if s then - a else a.
Proof.
  destruct e as [|p|p].
  - exists (Z.pos m). split; [lia|]. split; [cbn; lra|]. intros []; cbn; lia.
  - exists (Z.pos m * 2 ^ Z.pos p). split; [lia|]. split; [|reflexivity].
    rewrite <- bpow2, <- (IZR_Zpower radix2) by lia. rewrite <- mult_IZR. split; [apply Rle_refl|].
    change (Z.pos m * radix2 ^ Z.pos p) with (Z.pos m * 2 ^ Z.pos p). lra.
  - exists (Z.pos m / 2 ^ Z.pos p). split; [apply Z.div_pos; [lia | apply Z.pow_pos_nonneg; lia]|].
    split; [apply trunc_div | reflexivity].
Qed.
Lemma real_pos m e : (0 < IZR (Z.pos m) * powerRZ 2 e)%R.
Proof. apply Rmult_lt_0_compat; [apply IZR_lt; lia | rewrite <- bpow2; apply bpow_gt_0]. Qed.
Lemma f64_trunc_truncates f : finite64 f -> truncates (real f) (f64_trunc f).
Proof.
  intros [_ F]. destruct f as [s| | |s m e]; try tauto.
  - left; cbn; lra.
  - destruct (trunc_abs m e) as (a & A0 & A1 & A2). rewrite A2. pose proof (real_pos m e) as P.
    destruct s; cbn [real signed_real].
    + right. rewrite opp_IZR. lra.
    + left. lra.
Qed.
Lemma truncates_unique x n n' : truncates x n -> truncates x n' -> n = n'.
Proof.
  intros H H'. assert (n < n' + 1 /\ n' < n + 1); [|lia].
  destruct H as [(X & A & B)|(X & A & B)], H' as [(X' & A' & B')|(X' & A' & B')]; try lra;
    split; apply lt_IZR; rewrite plus_IZR; lra.
Qed.

(** ** Float to integer *)
Lemma clamp_in lo hi z : lo <= z <= hi -> clamp lo hi z = z.
Proof. unfold clamp; lia. Qed.
Lemma fits_bounds t z : fits t z <-> imin t <= z <= imax t.
Proof. rewrite <- in_range_fits. unfold in_range. rewrite andb_true_iff, !Z.leb_le. tauto. Qed.

Lemma finite_as f t : finite64 f -> f64_as t f = clamp (imin t) (imax t) (f64_trunc f).
Proof. intros [_ F]. destruct f; try tauto; reflexivity. Qed.

Definition saturates (t : ity) : Prop := match t with I64 | I128 | U64 => True | _ => False end.

Lemma float_fits t f n : finite64 f -> truncates (real f) n -> fits t n -> fits I128 n ->
  into_int t (VFloat f) = Ok n.
Proof.
  intros F T Fit F128. assert (n = f64_trunc f) by (eapply truncates_unique; eauto using f64_trunc_truncates). subst n.
  cbn [into_int]. unfold float_into_int. rewrite !(finite_as _ _ F).
  apply fits_bounds in F128. pose proof (proj1 (fits_bounds _ _) Fit) as B.
  destruct t; try (f_equal; apply clamp_in; assumption);
    (rewrite clamp_in by assumption; now apply to_number_ok).
Qed.

Lemma clamp_above t z : imax t < z -> clamp (imin t) (imax t) z = imax t.
Proof. intros; unfold clamp. destruct t; cbn [imin imax] in *; lia. Qed.
Lemma clamp_below t z : z < imin t -> clamp (imin t) (imax t) z = imin t.
Proof. intros; unfold clamp. destruct t; cbn [imin imax] in *; lia. Qed.

Lemma extreme_min t m : extreme t true m <-> m = imin t.
Proof.
  unfold extreme. split.
  - intros [F H]. apply fits_bounds in F. assert (G : fits t (imin t)) by (apply fits_bounds; destruct t; cbn [imin imax]; lia).
    apply H in G. lia.
  - intros ->. split; [apply fits_bounds; destruct t; cbn [imin imax]; lia|]. intros z F. apply fits_bounds in F. lia.
Qed.
Lemma extreme_max t m : extreme t false m <-> m = imax t.
Proof.
  unfold extreme. split.
  - intros [F H]. apply fits_bounds in F. assert (G : fits t (imax t)) by (apply fits_bounds; destruct t; cbn [imin imax]; lia).
    apply H in G. lia.
  - intros ->. split; [apply fits_bounds; destruct t; cbn [imin imax]; lia|]. intros z F. apply fits_bounds in F. lia.
Qed.
Lemma above_max t n : (forall z, fits t z -> z < n) <-> imax t < n.
Proof.
  split; [intros H; apply H, fits_bounds; destruct t; cbn [imin imax]; lia|]. intros H z F. apply fits_bounds in F. lia.
Qed.
Lemma below_min t n : (forall z, fits t z -> n < z) <-> n < imin t.
Proof.
  split; [intros H; apply H, fits_bounds; destruct t; cbn [imin imax]; lia|]. intros H z F. apply fits_bounds in F. lia.
Qed.

Lemma beyond_as t u f s : beyond t f s -> imin u <= imin t -> imax t <= imax u ->
  (s = false -> imax t < f64_as u f) /\ (s = true -> f64_as u f < imin t) \/ f64_as u f = (if s then imin u else imax u).
Proof.
  intros H L U. destruct H as [s|f n F T B|f n F T B]; [|apply above_max in B|apply below_min in B].
  - right. destruct s; reflexivity.
  - rewrite (finite_as _ _ F). assert (n = f64_trunc f) by (eapply truncates_unique; eauto using f64_trunc_truncates). subst n.
    destruct (Z_lt_le_dec (imax u) (f64_trunc f)).
    + right. now apply clamp_above.
    + left. split; [|discriminate]. intros _. rewrite clamp_in; auto. split; auto.
      destruct t, u; cbn [imin imax] in *; lia.
  - rewrite (finite_as _ _ F). assert (n = f64_trunc f) by (eapply truncates_unique; eauto using f64_trunc_truncates). subst n.
    destruct (Z_lt_le_dec (f64_trunc f) (imin u)).
    + right. now apply clamp_below.
    + left. split; [discriminate|]. intros _. rewrite clamp_in; auto. split; auto.
      destruct t, u; cbn [imin imax] in *; lia.
Qed.
Lemma beyond_same t f s : beyond t f s -> f64_as t f = if s then imin t else imax t.
Proof.
  intros H. destruct H as [s|f n F T B|f n F T B]; [|apply above_max in B|apply below_min in B].
  - destruct s; reflexivity.
  - rewrite (finite_as _ _ F). assert (n = f64_trunc f) by (eapply truncates_unique; eauto using f64_trunc_truncates). subst n.
    now apply clamp_above.
  - rewrite (finite_as _ _ F). assert (n = f64_trunc f) by (eapply truncates_unique; eauto using f64_trunc_truncates). subst n.
    now apply clamp_below.
Qed.

Lemma float_saturates t f s : saturates t -> beyond t f s ->
  into_int t (VFloat f) = Ok (if s then imin t else imax t).
Proof. intros S H. pose proof (beyond_same t f s H) as E. destruct t; cbn in S; try tauto; cbn [into_int float_into_int]; now rewrite E. Qed.
Lemma float_out_of_range t f s : ~ saturates t -> t <> U128 -> beyond t f s ->
  into_int t (VFloat f) = Err (EConversion (lit "f64") (type_name t) (lit "Number value is out of target bounds")).
Proof.
  intros S N H. assert (E : into_int t (VFloat f) = to_number (f64_as I128 f) (lit "f64") t)
    by (destruct t; cbn in S; try tauto; reflexivity).
  rewrite E. apply to_number_err. intros Fit. apply fits_bounds in Fit.
  destruct (beyond_as t I128 f s H) as [[A B]|A].
  - destruct t; cbn [imin imax] in *; lia.
  - destruct t; cbn [imin imax] in *; lia || (cbn in S; tauto) || congruence.
  - destruct s; [specialize (B eq_refl) | specialize (A eq_refl)]; lia.
  - rewrite A in Fit. destruct s, t; cbn [imin imax] in *; lia || (cbn in S; tauto) || congruence.
Qed.
Lemma float_u128_below f : beyond U128 f true ->
  into_int U128 (VFloat f) = Err (EConversion (lit "f64") (lit "u128") (lit "Number value is out of target bounds")).
Proof.
  intros H. cbn [into_int float_into_int]. apply to_number_err. intros Fit. apply fits_bounds in Fit.
  remember true as s eqn:Es. destruct H as [s|f n F T B|f n F T B]; subst; try discriminate; try apply below_min in B.
  - cbn in Fit. lia.
  - rewrite (finite_as _ _ F) in Fit. assert (n = f64_trunc f) by (eapply truncates_unique; eauto using f64_trunc_truncates). subst n.
    unfold clamp in Fit. cbn [imin imax] in *. lia.
Qed.
Lemma beyond_fits t f s n : finite64 f -> truncates (real f) n -> beyond t f s -> ~ fits t n.
Proof.
  intros F T H Fit. destruct H as [s|f n' F' T' B|f n' F' T' B].
  - destruct F as [_ []].
  - rewrite (truncates_unique _ _ _ T T') in Fit. apply B in Fit. lia.
  - rewrite (truncates_unique _ _ _ T T') in Fit. apply B in Fit. lia.
Qed.
Lemma beyond_or_fits t f : f64_valid f = true -> f = S754_nan \/ (exists s, beyond t f s)
  \/ (finite64 f /\ exists n, truncates (real f) n /\ fits t n).
Proof.
  intros V. destruct f as [s|s| |s m e]; auto; [|right; left; exists s; constructor|].
  - right; right. split; [split; auto; exact I|]. exists 0. split; [left; cbn; lra|]. apply fits_bounds; destruct t; cbn [imin imax]; lia.
  - right. set (f := S754_finite s m e) in *. assert (F : finite64 f) by (split; auto; exact I).
    pose proof (f64_trunc_truncates f F) as T.
    destruct (Z_lt_le_dec (imax t) (f64_trunc f)); [left; exists false; eapply BeAbove; eauto; now apply above_max|].
    destruct (Z_lt_le_dec (f64_trunc f) (imin t)); [left; exists true; eapply BeBelow; eauto; now apply below_min|].
    right. split; auto. exists (f64_trunc f). split; auto. apply fits_bounds. lia.
Qed.
Lemma float_u128_above f : beyond I128 f false -> into_int U128 (VFloat f) = Ok (2 ^ 127 - 1).
Proof.
  intros H. cbn [into_int float_into_int]. rewrite (beyond_same _ _ _ H). apply to_number_ok, fits_bounds. cbn; lia.
Qed.
Lemma float_nan t : into_int t (VFloat S754_nan) = Ok 0.
Proof. destruct t; reflexivity. Qed.

(** ** Nearest floats *)
Local Instance valid64 : Valid_exp (FLT_exp (-1074) 53) := FLT_exp_valid (-1074) 53.
Local Instance ne64 : Exists_NE radix2 (FLT_exp (-1074) 53).
Proof. apply exists_NE_FLT. right. reflexivity. Qed.
Lemma fexp64 : SpecFloat.fexp 53 1024 = FLT_exp (-1074) 53.
Proof. reflexivity. Qed.
Lemma finite_format g : finite64 g -> generic_format radix2 (FLT_exp (-1074) 53) (real g).
Proof.
  intros [V F]. rewrite real_SF2R. pose proof (generic_format_B2R 53 1024 (SF2B (prec := 53) (emax := 1024) g V)) as H.
  now rewrite B2R_SF2B in H.
Qed.
Lemma finite_canonical s m e : finite64 (S754_finite s m e) ->
  Generic_fmt.canonical radix2 (FLT_exp (-1074) 53) (Float radix2 (cond_Zopp s (Zpos m)) e).
Proof. intros [V _]. apply (canonical_bounded 53 1024 s m e V). Qed.
Lemma cond_even s m : Z.even (cond_Zopp s (Zpos m)) = Z.even (Zpos m).
Proof. destruct s; reflexivity. Qed.

Lemma rounds_nearest x s f : rounds64 x s f -> (Rabs (rne 53 1024 x) < bpow radix2 1024)%R ->
  nearest64 x f /\ negative f = s.
Proof.
  intros [V H] L. rewrite Rlt_bool_true in H by auto. destruct H as (E & Fi & S).
  assert (F : finite64 f) by (apply finite64_iff; auto).
  split; [|now rewrite negative_sign]. split; auto. intros g G.
  rewrite (real_SF2R f), E.
  destruct (round_NE_pt radix2 (FLT_exp (-1074) 53) x) as [[N1 N2] N3].
  change (round radix2 (FLT_exp (-1074) 53) ZnearestE x) with (rne 53 1024 x) in *.
  split; [apply N2, finite_format; auto|]. intros Eq. destruct N3 as [(c & Ec & Cc & Pc)|U].
  - right. destruct f as [s'| | |s' m e]; try discriminate; [exact I|]. cbn [even_mantissa].
    rewrite <- E, SF2R_finite in Ec.
    apply (Generic_fmt.canonical_unique radix2 (FLT_exp (-1074) 53)) in Ec; auto using finite_canonical.
    rewrite <- Ec in Pc. cbn [Fnum] in Pc. now rewrite cond_even in Pc.
  - left. apply U. split; [now apply finite_format|]. intros g' G'. rewrite <- Eq. now apply N2.
Qed.

(** When the rounding overflows. *)
Definition top : R := (bpow radix2 1024 - bpow radix2 971)%R.
Lemma top_F2R : top = F2R (Float radix2 (2 ^ 53 - 1) 971).
Proof.
  unfold top, F2R. cbn [Fnum Fexp]. rewrite minus_IZR. change (2 ^ 53) with (Z.pow radix2 53). rewrite (IZR_Zpower radix2) by lia.
  rewrite Rmult_minus_distr_r, <- bpow_plus. replace (53 + 971) with 1024 by reflexivity. ring.
Qed.
Lemma top_format : generic_format radix2 (FLT_exp (-1074) 53) top.
Proof.
  rewrite top_F2R. apply generic_format_FLT. exists (Float radix2 (2 ^ 53 - 1) 971); cbn; auto; lia.
Qed.
Lemma big_format : generic_format radix2 (FLT_exp (-1074) 53) (bpow radix2 1024).
Proof. apply generic_format_bpow. unfold FLT_exp. lia. Qed.

Lemma limit_mid : (f64_limit = (top + bpow radix2 1024) / 2)%R.
Proof.
  unfold f64_limit, top. rewrite <- !bpow2.
  replace (bpow radix2 971) with (2 * bpow radix2 970)%R; [field|].
  replace 971 with (1 + 970) by reflexivity. rewrite bpow_plus. reflexivity.
Qed.
Lemma top_lt : (0 < top < bpow radix2 1024)%R.
Proof.
  unfold top. pose proof (bpow_gt_0 radix2 971). pose proof (bpow_lt radix2 971 1024 eq_refl). lra.
Qed.

Lemma round_limit : round radix2 (FLT_exp (-1074) 53) ZnearestE f64_limit = bpow radix2 1024.
Proof.
  assert (M : mag radix2 f64_limit = 1024 :> Z).
  { apply mag_unique_pos. rewrite limit_mid. pose proof top_lt as [T1 T2]. split; [|lra].
    unfold top. replace (1024 - 1) with 1023 by reflexivity.
    assert (bpow radix2 1024 = 2 * bpow radix2 1023)%R by (replace 1024 with (1 + 1023) by reflexivity; rewrite bpow_plus; reflexivity).
    pose proof (bpow_lt radix2 971 1023 eq_refl). lra. }
  unfold round, scaled_mantissa, cexp. rewrite M. replace (FLT_exp (-1074) 53 1024) with 971 by reflexivity.
  assert (E : (f64_limit * bpow radix2 (- (971)) = IZR (2 ^ 53 - 1) + / 2)%R).
  { rewrite limit_mid, top_F2R. unfold F2R. cbn [Fnum Fexp].
    replace (bpow radix2 1024) with (IZR (2 ^ 53) * bpow radix2 971)%R.
    2:{ change (2 ^ 53) with (Z.pow radix2 53). rewrite (IZR_Zpower radix2) by lia. rewrite <- bpow_plus. reflexivity. }
    replace (IZR (2 ^ 53)) with (IZR (2 ^ 53 - 1) + 1)%R by (rewrite minus_IZR; ring).
    rewrite bpow_opp. pose proof (bpow_gt_0 radix2 971). field. lra. }
  rewrite E. assert (Z1 : ZnearestE (IZR (2 ^ 53 - 1) + / 2) = 2 ^ 53).
  { unfold Znearest. assert (Fl : Zfloor (IZR (2 ^ 53 - 1) + / 2) = 2 ^ 53 - 1).
    { apply Zfloor_imp. rewrite plus_IZR. lra. }
    rewrite Fl. replace (IZR (2 ^ 53 - 1) + / 2 - IZR (2 ^ 53 - 1))%R with (/ 2)%R by ring.
    rewrite Rcompare_Eq by reflexivity. replace (negb (Z.even (2 ^ 53 - 1))) with true by reflexivity.
    rewrite Zceil_floor_neq; rewrite Fl; [reflexivity|]. lra. }
  rewrite Z1. unfold F2R. cbn [Fnum Fexp]. change (2 ^ 53) with (Z.pow radix2 53). rewrite (IZR_Zpower radix2) by lia.
  rewrite <- bpow_plus. reflexivity.
Qed.

Lemma overflow_iff x : (Rabs (rne 53 1024 x) < bpow radix2 1024 <-> Rabs x < f64_limit)%R.
Proof.
  change (rne 53 1024 x) with (round radix2 (FLT_exp (-1074) 53) ZnearestE x).
  rewrite <- round_NE_abs by auto with typeclass_instances.
  set (y := Rabs x). split; intros H.
  - apply Rnot_le_lt. intros L. apply (Rlt_irrefl (bpow radix2 1024)). eapply Rle_lt_trans; [|exact H].
    rewrite <- round_limit. now apply round_le; auto with typeclass_instances.
  - destruct (Rle_or_lt y top) as [L|L].
    + eapply Rle_lt_trans; [|apply top_lt]. apply round_le_generic; auto using top_format with typeclass_instances.
    + apply Rnot_le_lt. intros B.
      destruct (round_N_pt radix2 (FLT_exp (-1074) 53) (fun z => negb (Z.even z)) y) as [_ N].
      specialize (N top top_format). change (round radix2 (FLT_exp (-1074) 53) (Znearest (fun z => negb (Z.even z))) y) with (round radix2 (FLT_exp (-1074) 53) ZnearestE y) in N.
      rewrite limit_mid in H. rewrite (Rabs_left (top - y)) in N by lra. rewrite Rabs_pos_eq in N by lra. lra.
Qed.

Lemma rounds_correct x s f : rounds64 x s f -> rounds_correctly x s f.
Proof.
  intros H. split; intros L.
  - apply rounds_nearest; auto. now apply overflow_iff.
  - destruct H as [V H]. rewrite Rlt_bool_false in H; auto.
    apply Rnot_lt_le. intros B. apply overflow_iff in B. lra.
Qed.

(** ** Integer to float *)
Lemma F2R_int z : F2R (Float radix2 z 0) = IZR z.
Proof. unfold F2R; cbn; ring. Qed.
Lemma of_Z_rounds z : rounds_correctly (IZR z) (z <? 0) (f64_of_Z z).
Proof.
  apply rounds_correct. destruct (Z.eq_dec z 0) as [->|N].
  - exact (self_rounds 53 1024 (S754_zero false) eq_refl eq_refl).
  - rewrite <- F2R_int. now apply normalize_rounds; auto with typeclass_instances.
Qed.
Lemma int_below_limit z : - 2 ^ 128 < z < 2 ^ 128 -> (Rabs (IZR z) < f64_limit)%R.
Proof.
  intros B. rewrite <- abs_IZR. eapply Rlt_trans with (IZR (2 ^ 128)); [apply IZR_lt; lia|].
  change (2 ^ 128) with (Z.pow radix2 128). rewrite (IZR_Zpower radix2) by lia.
  rewrite limit_mid. unfold top. pose proof (bpow_lt radix2 128 1023 eq_refl).
  assert (bpow radix2 1024 = 2 * bpow radix2 1023)%R by (replace 1024 with (1 + 1023) by reflexivity; rewrite bpow_plus; reflexivity).
  pose proof (bpow_lt radix2 971 1023 eq_refl). pose proof (bpow_gt_0 radix2 1023). lra.
Qed.

Lemma small_int_format z : Z.abs z <= 2 ^ 53 -> generic_format radix2 (FLT_exp (-1074) 53) (IZR z).
Proof.
  intros B. destruct (Z.eq_dec (Z.abs z) (2 ^ 53)) as [E|N].
  - apply generic_format_abs_inv. rewrite <- abs_IZR, E. change (2 ^ 53) with (Z.pow radix2 53). rewrite (IZR_Zpower radix2) by lia.
    apply generic_format_bpow. unfold FLT_exp. lia.
  - rewrite <- F2R_int. apply generic_format_FLT. exists (Float radix2 z 0); cbn; auto; lia.
Qed.
Lemma of_Z_exact z : Z.abs z <= 2 ^ 53 -> finite64 (f64_of_Z z) /\ real (f64_of_Z z) = IZR z /\ f64_trunc (f64_of_Z z) = z.
Proof.
  intros B. assert (E : finite64 (f64_of_Z z) /\ real (f64_of_Z z) = IZR z).
  { destruct (Z.eq_dec z 0) as [->|N]; [split; [split; [reflexivity | exact I] | reflexivity]|].
    destruct (normalize_rounds 53 1024 _ _ z 0 false N) as [V H]. rewrite F2R_int in H.
    assert (R : rne 53 1024 (IZR z) = IZR z) by (apply round_generic; [apply valid_rnd_N | now apply small_int_format]).
    rewrite Rlt_bool_true in H.
    - destruct H as (H1 & H2 & _). split; [apply finite64_iff; auto | rewrite real_SF2R; unfold f64_of_Z; congruence].
    - apply overflow_iff, int_below_limit. assert (2 ^ 53 < 2 ^ 128) by reflexivity. lia. }
  destruct E as [F E]. split; auto. split; auto. eapply truncates_unique; [apply f64_trunc_truncates; exact F|].
  rewrite E. destruct (Z_le_gt_dec 0 z).
  - left. split; [apply IZR_le; lia | lra].
  - right. split; [apply IZR_lt; lia | lra].
Qed.
