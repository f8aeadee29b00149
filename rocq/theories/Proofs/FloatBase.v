(** Floats as real numbers: the bridge between [SpecFloat] (the model) and
    Flocq's theorems. *)
From Coq Require Import ZArith Reals Bool Lia Lra.
From Coq Require Import Floats.SpecFloat.
From Flocq Require Import Core BinarySingleNaN.
From Verif.Model Require Import Text Num Flt.

Local Open Scope Z_scope.

Lemma rne_choice s m l : round_nearest_even m l = choice_mode mode_NE s m l.
Proof. destruct l as [|[]]; cbn; auto. destruct (Z.even m); reflexivity. Qed.

Section Fmt.
Variables (prec emax : Z).
Context (prec_gt_0_ : Prec_gt_0 prec).
Context (prec_lt_emax_ : Prec_lt_emax prec emax).

Lemma round_aux_eq s m e l :
  SpecFloat.binary_round_aux prec emax s m e l = binary_round_aux prec emax mode_NE s m e l.
Proof.
  unfold SpecFloat.binary_round_aux, binary_round_aux.
  destruct (shr_fexp prec emax m e l) as [mrs e'].
  rewrite (rne_choice s).
  destruct (shr_fexp prec emax (choice_mode mode_NE s (shr_m mrs) (loc_of_shr_record mrs)) e' loc_Exact) as [mrs2 e2].
  destruct (shr_m mrs2); reflexivity.
Qed.
Lemma round_eq s m e : SpecFloat.binary_round prec emax s m e = binary_round prec emax mode_NE s m e.
Proof.
  unfold SpecFloat.binary_round, binary_round, shl_align_fexp.
  destruct (shl_align m e _). apply round_aux_eq.
Qed.

(** [rounds_to x s z]: z is the float nearest to x (ties to even), with sign s
    if it is zero, and infinite if it is out of range. *)
Definition rne (x : R) : R := round radix2 (SpecFloat.fexp prec emax) ZnearestE x.
Definition rounds_to (x : R) (s : bool) (z : spec_float) : Prop :=
  valid_binary prec emax z = true /\
  if Rlt_bool (Rabs (rne x)) (bpow radix2 emax) then
    SF2R radix2 z = rne x /\ is_finite_SF z = true /\ sign_SF z = s
  else z = S754_infinity s.

Lemma same_float z z' : valid_binary prec emax z = true -> valid_binary prec emax z' = true ->
  is_finite_SF z = true -> is_finite_SF z' = true ->
  SF2R radix2 z = SF2R radix2 z' -> sign_SF z = sign_SF z' -> z = z'.
Proof.
  intros V V' F F' E S.
  rewrite <- (B2SF_SF2B prec emax z V), <- (B2SF_SF2B prec emax z' V'). f_equal.
  apply B2R_Bsign_inj.
  - now rewrite is_finite_SF2B.
  - now rewrite is_finite_SF2B.
  - now rewrite !B2R_SF2B.
  - now rewrite !Bsign_SF2B.
Qed.

Lemma rounds_to_unique x s z z' : rounds_to x s z -> rounds_to x s z' -> z = z'.
Proof.
  intros [V H] [V' H']. destruct (Rlt_bool _ _).
  - destruct H as (E & F & S), H' as (E' & F' & S'). apply same_float; auto; congruence.
  - congruence.
Qed.

Lemma binary_round_rounds s m e :
  rounds_to (F2R (Float radix2 (cond_Zopp s (Zpos m)) e)) s (SpecFloat.binary_round prec emax s m e).
Proof.
  rewrite round_eq. destruct (binary_round_correct prec emax _ _ mode_NE s m e) as [V H].
  split; [exact V|]. exact H.
Qed.

Lemma normalize_rounds m e s : (m <> 0)%Z ->
  rounds_to (F2R (Float radix2 m e)) (m <? 0)%Z (SpecFloat.binary_normalize prec emax m e s).
Proof.
  intros N. destruct m as [|p|p]; [congruence| |]; cbn [SpecFloat.binary_normalize].
  - apply (binary_round_rounds false).
  - apply (binary_round_rounds true).
Qed.

(** A float is the rounding of its own value. *)
Lemma self_rounds z : valid_binary prec emax z = true -> is_finite_SF z = true ->
  rounds_to (SF2R radix2 z) (sign_SF z) z.
Proof.
  intros V F. split; auto.
  assert (G : rne (SF2R radix2 z) = SF2R radix2 z).
  { apply round_generic; [apply valid_rnd_N|].
    pose proof (generic_format_B2R prec emax (SF2B z V)) as H. now rewrite B2R_SF2B in H. }
  rewrite G. rewrite Rlt_bool_true.
  - auto.
  - pose proof (abs_B2R_lt_emax prec emax (SF2B z V)) as H. now rewrite B2R_SF2B in H.
Qed.
Lemma rounds_self x z s : valid_binary prec emax z = true -> is_finite_SF z = true -> sign_SF z = s ->
  x = SF2R radix2 z -> forall z', rounds_to x s z' -> z' = z.
Proof. intros V F <- -> z' H. eapply rounds_to_unique; [exact H | now apply self_rounds]. Qed.

Lemma div_rounds s (p q : positive) :
  rounds_to (IZR (cond_Zopp s (Zpos p)) / IZR (Zpos q)) s
    (let '(m', e', l) := SFdiv_core_binary prec emax (Zpos p) 0 (Zpos q) 0 in
     SpecFloat.binary_round_aux prec emax s m' e' l).
Proof.
  pose proof (Bdiv_correct_aux prec emax _ _ mode_NE s p 0 false q 0) as H. cbv zeta in H.
  rewrite xorb_false_r in H.
  assert (E : forall z, F2R (Float radix2 z 0) = IZR z) by (intros; unfold F2R; cbn; ring).
  rewrite !E in H. cbn [cond_Zopp] in H.
  destruct (SFdiv_core_binary prec emax (Zpos p) 0 (Zpos q) 0) as [[m' e'] l].
  rewrite round_aux_eq. destruct H as [V H]. split; [exact V | exact H].
Qed.
End Fmt.

Global Instance prec53 : Prec_gt_0 53 := eq_refl.
Global Instance prec53_lt : Prec_lt_emax 53 1024 := eq_refl.
Global Instance prec24 : Prec_gt_0 24 := eq_refl.
Global Instance prec24_lt : Prec_lt_emax 24 128 := eq_refl.

Notation rounds64 := (rounds_to 53 1024).
Notation rounds32 := (rounds_to 24 128).

Lemma SF2R_finite s m e : SF2R radix2 (S754_finite s m e) = F2R (Float radix2 (cond_Zopp s (Zpos m)) e).
Proof. reflexivity. Qed.

(** f32 is exactly representable as f64, and comes back. *)
Lemma f32_widen f : f32_valid f = true -> is_finite_SF f = true ->
  f64_valid (f32_to_f64 f) = true /\ is_finite_SF (f32_to_f64 f) = true /\
  sign_SF (f32_to_f64 f) = sign_SF f /\ SF2R radix2 (f32_to_f64 f) = SF2R radix2 f.
Proof.
  intros V F. destruct f as [s| | |s m e]; try discriminate; [auto|].
  cbn [f32_to_f64]. destruct (binary_round_rounds 53 1024 _ _ s m e) as [V' H].
  rewrite <- SF2R_finite in H.
  assert (G : rne 53 1024 (SF2R radix2 (S754_finite s m e)) = SF2R radix2 (S754_finite s m e)).
  { apply round_generic; [apply valid_rnd_N|].
    apply generic_inclusion_mag with (fexp1 := SpecFloat.fexp 24 128).
    - intros _. unfold SpecFloat.fexp, SpecFloat.emin. lia.
    - pose proof (generic_format_B2R 24 128 (SF2B (prec := 24) (emax := 128) _ V)) as H0. now rewrite B2R_SF2B in H0. }
  rewrite G in H. rewrite Rlt_bool_true in H.
  - destruct H as (H1 & H2 & H3). auto.
  - eapply Rlt_trans; [|apply (bpow_lt radix2 128 1024); lia].
    pose proof (abs_B2R_lt_emax 24 128 (SF2B (prec := 24) (emax := 128) _ V)) as H0. now rewrite B2R_SF2B in H0.
Qed.

Lemma f32_round_trip f : f32_valid f = true -> f64_to_f32 (f32_to_f64 f) = f.
Proof.
  intros V. destruct f as [s|s| |s m e]; try reflexivity.
  destruct (f32_widen _ V eq_refl) as (V' & F' & S' & E').
  remember (f32_to_f64 (S754_finite s m e)) as g eqn:Eg.
  destruct g as [s'|s'| |s' m' e']; try discriminate.
  - exfalso. cbn in E'. symmetry in E'. apply (eq_0_F2R) in E'. cbn in E'. destruct s; discriminate.
  - cbn [f64_to_f32].
    apply (rounds_self 24 128 (SF2R radix2 (S754_finite s' m' e')) _ s' V eq_refl (eq_sym S') E').
    rewrite SF2R_finite. apply binary_round_rounds; auto with typeclass_instances.
Qed.
