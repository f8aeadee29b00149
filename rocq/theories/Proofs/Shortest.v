(** The decimal text of a float is the shortest that reads back, and the
    nearest of that length (C77). *)
From Coq Require Import ZArith Reals Bool String Lia Lra List.
From Coq Require Import Floats.SpecFloat.
From Flocq Require Import Core BinarySingleNaN.
Import ListNotations.
From Verif.Model Require Import Text Num Flt Value Convert.
From Verif.Spec Require Import Numerals FloatSpec.
From Verif.Proofs Require Import Basics Conversions FloatBase FloatConv FloatText.
Local Open Scope Z_scope.

(** ** Distances between floats *)
Lemma valid_bounds s m e : f64_valid (S754_finite s m e) = true ->
  Z.pos m < 2 ^ 53 /\ (e = -1074 \/ 2 ^ 52 <= Z.pos m) /\ -1074 <= e <= 971.
Proof.
  unfold f64_valid, valid_binary, bounded, canonical_mantissa. rewrite andb_true_iff, Z.leb_le.
  intros [C L]. apply Zeq_bool_eq in C. unfold fexp, emin in C.
  assert (D : Z.pos (digits2_pos m) = Zdigits radix2 (Z.pos m)) by (apply Digits.Zpos_digits2_pos).
  rewrite D in C. pose proof (Zdigits_correct radix2 (Z.pos m)) as [B1 B2]. rewrite Z.abs_eq in B1, B2 by lia.
  change (radix_val radix2) with 2 in *.
  assert (Dm : 0 < Zdigits radix2 (Z.pos m)) by (apply Zdigits_gt_0; lia).
  set (dg := Zdigits radix2 (Z.pos m)) in *. change (Zpower 2 (dg - 1)) with (2 ^ (dg - 1)) in *. change (Zpower 2 dg) with (2 ^ dg) in *.
  assert (dg <= 53) by lia. split; [|split].
  - eapply Z.lt_le_trans; [exact B2|]. apply Z.pow_le_mono_r; lia.
  - assert (e = -1074 \/ dg = 53) as [E|E] by lia; [now left|right]. rewrite E in B1. exact B1.
  - lia.
Qed.
Local Open Scope R_scope.
Lemma bp_split a b : bpow radix2 (a + b) = bpow radix2 a * bpow radix2 b.
Proof. apply bpow_plus. Qed.

(** Two different floats are at least 2^-53 apart, relative to either. *)
Lemma float_gap s m e s' m' e' : f64_valid (S754_finite s m e) = true -> f64_valid (S754_finite s' m' e') = true ->
  let v := IZR (Z.pos m) * bpow radix2 e in let w := IZR (Z.pos m') * bpow radix2 e' in
  w <> v -> v * bpow radix2 (-53) <= Rabs (w - v).
Proof.
  intros V V'. cbn zeta. destruct (valid_bounds _ _ _ V) as (M1 & M2 & M3), (valid_bounds _ _ _ V') as (N1 & N2 & N3).
  intros Ne. pose proof (bpow_gt_0 radix2 e) as Pe. pose proof (bpow_gt_0 radix2 e') as Pe'.
  assert (C53 : bpow radix2 (-53) = / 9007199254740992) by (vm_compute; reflexivity || (cbn; lra)).
  destruct (Z_le_gt_dec e e') as [L|L].
  - assert (E : bpow radix2 e' = IZR (2 ^ (e' - e)) * bpow radix2 e).
    { change (2 ^ (e' - e))%Z with (Z.pow radix2 (e' - e)). rewrite (IZR_Zpower radix2) by lia. rewrite <- bpow_plus. f_equal; lia. }
    rewrite E in Ne |- *. rewrite <- Rmult_assoc, <- mult_IZR in Ne |- *.
    rewrite <- Rmult_minus_distr_r, <- minus_IZR, Rabs_mult.
    set (k := (Z.pos m' * 2 ^ (e' - e))%Z) in *. rewrite (Rabs_pos_eq (bpow radix2 e)) by lra.
    assert (k - Z.pos m <> 0)%Z by (intros Z0; apply Ne; replace k with (Z.pos m) by lia; reflexivity).
    rewrite <- abs_IZR. assert (1 <= IZR (Z.abs (k - Z.pos m))) by (apply IZR_le; lia).
    assert (IZR (Z.pos m) < 9007199254740992) by (apply IZR_lt; exact M1). rewrite C53. nra.
  - assert (m52 : (2 ^ 52 <= Z.pos m)%Z) by lia.
    assert (B : IZR (Z.pos m') * bpow radix2 e' <= (9007199254740992 - 1) * bpow radix2 (e - 1)).
    { apply Rmult_le_compat; try lra; [apply IZR_le; lia | | apply bpow_le; lia].
      rewrite <- minus_IZR. apply IZR_le. change (2 ^ 53)%Z with 9007199254740992%Z in N1. lia. }
    assert (E : bpow radix2 e = 2 * bpow radix2 (e - 1)).
    { replace e with (1 + (e - 1))%Z at 1 by lia. rewrite bpow_plus. reflexivity. }
    pose proof (bpow_gt_0 radix2 (e - 1)) as Pe1.
    assert (4503599627370496 <= IZR (Z.pos m)) by (apply IZR_le; exact m52).
    rewrite E, C53. set (b := bpow radix2 (e - 1)) in *. set (w := IZR (Z.pos m') * bpow radix2 e') in *.
    assert (IZR (Z.pos m) * (2 * b) - w >= (2 * IZR (Z.pos m) - 9007199254740992 + 1) * b) by lra.
    rewrite Rabs_minus_sym, Rabs_pos_eq by nra. nra.
Qed.

(** ** Which decimals read back as a given float *)
Section Reads.
Variables (s : bool) (m : positive) (e : Z).
Let f := S754_finite s m e.
Hypothesis V : f64_valid f = true.
Definition mag_of (m : positive) (e : Z) : R := IZR (Z.pos m) * bpow radix2 e.
Let v := mag_of m e.
Definition dec (d x : Z) : R := IZR d * powerRZ 10 x.

Lemma v_pos : 0 < v.
Proof. unfold v, mag_of. apply Rmult_lt_0_compat; [apply IZR_lt; reflexivity | apply bpow_gt_0]. Qed.
Lemma dec_pos d x : (0 < d)%Z -> 0 < dec d x.
Proof. intros H. apply Rmult_lt_0_compat; [now apply IZR_lt|]. rewrite <- bpow10. apply bpow_gt_0. Qed.
Lemma real_mag t n k : real (S754_finite t n k) = signed_real t (mag_of n k).
Proof. cbn [real]. unfold mag_of. now rewrite bpow2. Qed.
Lemma signed_abs t a b : Rabs (signed_real t a - signed_real t b) = Rabs (a - b).
Proof. destruct t; cbn [signed_real]; auto. replace (- a - - b) with (- (a - b)) by ring. apply Rabs_Ropp. Qed.
Lemma signed_abs1 t a : Rabs (signed_real t a) = Rabs a.
Proof. destruct t; cbn [signed_real]; auto. apply Rabs_Ropp. Qed.
Lemma f_finite : finite64 f.
Proof. split; [exact V | exact I]. Qed.

(** Finite floats of f's sign, by their magnitude. *)
Lemma finite_mag r : finite64 r -> negative r = s -> exists a, 0 <= a /\ real r = signed_real s a /\
  (a = v -> r = f) /\ (a <> v -> v * bpow radix2 (-53) <= Rabs (a - v)).
Proof.
  pose proof v_pos as Pv. intros [Vr Fr] N. destruct r as [t|t| |t n k]; try contradiction.
  - exists 0. split; [lra|]. split; [cbn; destruct s; cbn; ring|]. split; [lra|]. intros _.
    rewrite Rabs_minus_sym, Rminus_0_r, Rabs_pos_eq by lra. assert (bpow radix2 (-53) <= bpow radix2 0) by (apply bpow_le; lia).
    change (bpow radix2 0) with 1 in H. nra.
  - cbn in N. subst t. exists (mag_of n k). split; [|split; [apply real_mag|split]].
    + unfold mag_of. apply Rmult_le_pos; [apply IZR_le; lia | apply bpow_ge_0].
    + intros E. apply (same_float 53 1024); auto. rewrite <- !real_SF2R. unfold f. rewrite !real_mag. now rewrite E.
    + intros Ne. apply (float_gap s m e s n k); auto.
Qed.

Lemma v_below_limit : v * (1 + bpow radix2 (-54)) < f64_limit.
Proof.
  destruct (valid_bounds s m e V) as (M1 & _ & M3). unfold v, mag_of.
  assert (A : IZR (Z.pos m) <= 9007199254740992 - 1) by (rewrite <- minus_IZR; apply IZR_le; change (2 ^ 53)%Z with 9007199254740992%Z in M1; lia).
  assert (B : bpow radix2 e <= bpow radix2 971) by (apply bpow_le; lia).
  pose proof (bpow_gt_0 radix2 e). pose proof (bpow_gt_0 radix2 971) as P. assert (0 < IZR (Z.pos m)) by (apply IZR_lt; lia).
  assert (C : f64_limit = (9007199254740992 - / 2) * bpow radix2 971).
  { unfold f64_limit. rewrite <- !bpow2. replace 1024%Z with (53 + 971)%Z by reflexivity. rewrite bpow_plus.
    replace 970%Z with (-1 + 971)%Z by reflexivity. rewrite bpow_plus.
    replace (bpow radix2 53) with 9007199254740992 by (cbn; lra). replace (bpow radix2 (-1)) with (/ 2) by reflexivity. ring. }
  rewrite C. replace (bpow radix2 (-54)) with (/ 18014398509481984) by (cbn; lra).
  apply Rle_lt_trans with ((9007199254740992 - 1) * bpow radix2 971 * (1 + / 18014398509481984)).
  - apply Rmult_le_compat_r; [lra|]. apply Rmult_le_compat; lra.
  - nra.
Qed.

Lemma reads_nearest d x : (0 < d)%Z -> dec_to_f64 s d x = f ->
  dec d x < f64_limit /\ forall r a, finite64 r -> real r = signed_real s a -> Rabs (v - dec d x) <= Rabs (a - dec d x).
Proof.
  intros P E. pose proof (rounds_correct _ _ _ (dec_rounds s d x P)) as [H1 H2]. rewrite E in *.
  rewrite signed_abs1 in *. pose proof (dec_pos d x P) as Pd. unfold dec in *. rewrite Rabs_pos_eq in H1, H2 by lra.
  destruct (Rlt_or_le (IZR d * powerRZ 10 x) f64_limit) as [L|L]; [|discriminate (H2 L)].
  split; auto. intros r a Fr Er. destruct (H1 L) as [[_ N] _]. destruct (N r Fr) as [N1 _].
  unfold f in N1. rewrite real_mag, Er, !signed_abs in N1. exact N1.
Qed.
Lemma nearest_reads d x : (0 < d)%Z -> dec d x < f64_limit -> exists r a, dec_to_f64 s d x = r /\ finite64 r /\ 0 <= a /\
  real r = signed_real s a /\ (a = v -> r = f) /\ (a <> v -> v * bpow radix2 (-53) <= Rabs (a - v)) /\
  Rabs (a - dec d x) <= Rabs (v - dec d x).
Proof.
  intros P L. pose proof (rounds_correct _ _ _ (dec_rounds s d x P)) as [H1 _]. rewrite signed_abs1 in H1.
  pose proof (dec_pos d x P) as Pd. unfold dec in *. rewrite Rabs_pos_eq in H1 by lra. destruct (H1 L) as [[Fr N] S].
  destruct (finite_mag _ Fr S) as (a & A1 & A2 & A3 & A4). exists (dec_to_f64 s d x), a.
  split; [auto|]. split; [auto|]. split; [auto|]. split; [auto|]. split; [auto|]. split; [auto|].
  destruct (N f f_finite) as [N1 _]. unfold f in N1. rewrite A2, real_mag, !signed_abs in N1. exact N1.
Qed.

(** The decimals that read back as f form an interval around f. *)
Lemma between_reads d x d' x' : (0 < d)%Z -> (0 < d')%Z -> dec_to_f64 s d' x' = f ->
  (v <= dec d x <= dec d' x' \/ dec d' x' <= dec d x <= v) -> dec_to_f64 s d x = f.
Proof.
  intros P P' R B. destruct (reads_nearest d' x' P' R) as [L N].
  assert (Lu : dec d x < f64_limit).
  { pose proof v_below_limit. pose proof v_pos. pose proof (bpow_gt_0 radix2 (-54)).
    assert (v <= v * (1 + bpow radix2 (-54))) by nra. destruct B; lra. }
  destruct (nearest_reads d x P Lu) as (r & a & E & Fr & A0 & Er & A1 & _ & A2).
  specialize (N r a Fr Er). destruct (Req_dec a v) as [Ea|Na]; [rewrite E; auto|].
  destruct (Req_dec (dec d x) (dec d' x')) as [Eu|Nu]; [rewrite <- R; apply dec_same; auto|].
  exfalso. unfold Rabs in *. destruct (Rcase_abs (v - dec d' x')), (Rcase_abs (a - dec d' x')), (Rcase_abs (a - dec d x)), (Rcase_abs (v - dec d x)); lra.
Qed.
(** Decimals within 2^-54 of f, relative, read back as f. *)
Lemma close_reads d x : (0 < d)%Z -> Rabs (dec d x - v) < v * bpow radix2 (-54) -> dec_to_f64 s d x = f.
Proof.
  intros P C. pose proof v_below_limit as VL. pose proof v_pos as Pv.
  assert (Lu : dec d x < f64_limit) by (unfold Rabs in C; destruct (Rcase_abs _) in C; lra).
  destruct (nearest_reads d x P Lu) as (r & a & E & Fr & A0 & Er & A1 & G & A2).
  destruct (Req_dec a v) as [Ea|Na]; [rewrite E; auto|]. exfalso. specialize (G Na).
  replace (bpow radix2 (-53)) with (2 * bpow radix2 (-54)) in G by (change (-53)%Z with (1 + -54)%Z; rewrite bpow_plus; reflexivity).
  rewrite (Rabs_minus_sym v) in A2.
  pose proof (Rabs_triang (a - dec d x) (dec d x - v)) as T. replace (a - dec d x + (dec d x - v)) with (a - v) in T by ring. lra.
Qed.

(** ** The candidates of the search *)
Lemma dec_shift d x j : (0 <= j)%Z -> dec d (x + j) = dec (d * 10 ^ j) x.
Proof. intros H. unfold dec. rewrite mult_IZR, <- pow10_Z by auto. rewrite <- !bpow10, bpow_plus. ring. Qed.
Lemma dec_le d d' x : (d <= d')%Z -> dec d x <= dec d' x.
Proof. intros H. unfold dec. apply Rmult_le_compat_r; [rewrite <- bpow10; apply bpow_ge_0 | now apply IZR_le]. Qed.
Lemma dec_lt d d' x : (d < d')%Z -> dec d x < dec d' x.
Proof. intros H. unfold dec. apply Rmult_lt_compat_r; [rewrite <- bpow10; apply bpow_gt_0 | now apply IZR_lt]. Qed.
Lemma num_digits_bounds d : (0 < d)%Z -> (0 < num_digits d /\ 10 ^ (num_digits d - 1) <= d < 10 ^ num_digits d)%Z.
Proof.
  intros H. unfold num_digits. destruct (print_nat_spec d ltac:(lia)) as (x & ds & -> & F & E & H1 & _).
  rewrite digit_text_length. specialize (H1 H). cbn [List.length]. rewrite Nat2Z.inj_succ.
  pose proof (dec_val_bound _ F) as B. cbn [List.length] in B. rewrite Nat2Z.inj_succ in B.
  split; [lia|]. split; [|now rewrite <- E]. replace (Z.succ _ - 1)%Z with (Z.of_nat (List.length ds)) by lia.
  rewrite <- E. cbn [dec_val]. inversion F; subst. pose proof (dec_val_nonneg ds ltac:(auto)). nia.
Qed.

Variables (D E : Z).
Hypothesis ED : exact_dec m e = (D, E).
Let nd := num_digits D.
Lemma D_pos : (0 < D)%Z.
Proof. exact (proj1 (exact_dec_value m e D E ED)). Qed.
Lemma D_value : dec D E = v.
Proof. unfold dec, v, mag_of. rewrite bpow2. exact (proj2 (exact_dec_value m e D E ED)). Qed.
Definition good (c : Z * Z) : bool := ((0 <? fst c) && f64_same (dec_to_f64 s (fst c) (snd c)) f)%Z.
Lemma good_iff c : good c = true <-> (0 < fst c)%Z /\ dec_to_f64 s (fst c) (snd c) = f.
Proof.
  unfold good. rewrite andb_true_iff, Z.ltb_lt. split; intros [A B]; split; auto.
  - now apply f64_same_eq.
  - rewrite B. unfold f. cbn. now rewrite eqb_reflx, Pos.eqb_refl, Z.eqb_refl.
Qed.
Definition cands (n : Z) := cut_candidates D E (E + nd - n).
Definition dist (c : Z * Z) : R := Rabs (v - dec (fst c) (snd c)).

Lemma find_two (a b : Z * Z) (p : Z * Z -> bool) :
  find p [a; b] = if p a then Some a else if p b then Some b else None.
Proof. cbn. destruct (p a), (p b); reflexivity. Qed.

Lemma exact_reads k : (k <= E)%Z -> good (D * 10 ^ (E - k), k)%Z = true /\ dist (D * 10 ^ (E - k), k)%Z = 0.
Proof.
  intros K. assert (Ev : dec (D * 10 ^ (E - k)) k = v) by (rewrite <- D_value, <- dec_shift by lia; f_equal; lia).
  pose proof D_pos. split.
  - apply good_iff. cbn [fst snd]. split; [nia|]. apply close_reads; [nia|].
    rewrite Ev. replace (v - v) with 0 by ring. rewrite Rabs_R0. apply Rmult_lt_0_compat; [apply v_pos | apply bpow_gt_0].
  - unfold dist. cbn [fst snd]. rewrite Ev. replace (v - v) with 0 by ring. apply Rabs_R0.
Qed.

(** The two candidates enclose f. *)
Section Cut.
Variable n : Z.
Hypothesis N1 : (1 <= n)%Z.
Let k := (E + nd - n)%Z.
Hypothesis K : (E < k)%Z.
Let w := (10 ^ (k - E))%Z.
Let q := (D / w)%Z.
Lemma w_pos : (0 < w)%Z.
Proof. unfold w. lia. Qed.
Lemma at_k p : dec p k = dec (p * w) E.
Proof. unfold w. rewrite <- dec_shift by lia. f_equal; lia. Qed.
Lemma q_bounds : (10 ^ (n - 1) <= q < 10 ^ n)%Z.
Proof.
  destruct (num_digits_bounds D D_pos) as (B0 & B1 & B2). fold nd in B0, B1, B2. pose proof w_pos as W.
  unfold q. split.
  - apply Z.div_le_lower_bound; auto. unfold w. rewrite <- Z.pow_add_r by lia.
    replace (k - E + (n - 1))%Z with (nd - 1)%Z by (unfold k; lia). exact B1.
  - apply Z.div_lt_upper_bound; auto. unfold w. rewrite <- Z.pow_add_r by lia.
    replace (k - E + n)%Z with nd by (unfold k; lia). exact B2.
Qed.
Lemma q_pos : (0 < q)%Z.
Proof. pose proof q_bounds. lia. Qed.
Lemma encloses : dec q k <= v < dec (q + 1) k.
Proof.
  pose proof w_pos. rewrite !at_k, <- D_value. pose proof (Z.div_mod D w ltac:(lia)) as DM. pose proof (Z.mod_pos_bound D w ltac:(lia)).
  fold q in DM. split; [apply dec_le; nia | apply dec_lt; nia].
Qed.
Lemma down_dist : dist (q, k) = dec (D mod w) E.
Proof.
  pose proof w_pos. unfold dist. cbn [fst snd]. rewrite Rabs_pos_eq by (pose proof encloses; lra).
  rewrite at_k, <- D_value. unfold dec. rewrite <- Rmult_minus_distr_r, <- minus_IZR. do 2 f_equal.
  pose proof (Z.div_mod D w ltac:(lia)) as DM. fold q in DM. lia.
Qed.
Lemma up_dist : dist (q + 1, k)%Z = dec (w - D mod w) E.
Proof.
  pose proof w_pos. unfold dist. cbn [fst snd]. rewrite Rabs_minus_sym, Rabs_pos_eq by (pose proof encloses; lra).
  rewrite at_k, <- D_value. unfold dec. rewrite <- Rmult_minus_distr_r, <- minus_IZR. do 2 f_equal.
  pose proof (Z.div_mod D w ltac:(lia)) as DM. fold q in DM. lia.
Qed.
(** Any decimal of at most n digits lies on or outside the enclosing pair. *)
Lemma outside d' x' : (0 < d' < 10 ^ n)%Z -> dec d' x' <= dec q k \/ dec (q + 1) k <= dec d' x'.
Proof.
  intros P. destruct (Z_le_gt_dec k x') as [L|L].
  - replace x' with (k + (x' - k))%Z by lia. rewrite dec_shift by lia. set (p := (d' * 10 ^ (x' - k))%Z).
    destruct (Z_le_gt_dec p q); [left | right]; apply dec_le; lia.
  - left. apply Rle_trans with (dec (10 ^ n) x').
    + apply dec_le; lia.
    + replace k with (x' + 1 + (k - x' - 1))%Z by lia. rewrite dec_shift by lia. rewrite dec_shift by lia.
      apply dec_le. pose proof q_bounds as [Q _]. change (10 ^ 1)%Z with 10%Z.
      replace (10 ^ n)%Z with (10 * 10 ^ (n - 1))%Z by (rewrite <- Z.pow_succ_r by lia; f_equal; lia).
      assert (0 < 10 ^ (k - x' - 1))%Z by lia. nia.
Qed.
Lemma good_if d' x' : (0 < d' < 10 ^ n)%Z -> dec_to_f64 s d' x' = f ->
  (good (q, k) = true /\ dist (q, k) <= dist (d', x') /\ dec d' x' <= dec q k) \/ (good (q + 1, k)%Z = true /\ dist (q + 1, k)%Z <= dist (d', x') /\ dec (q + 1) k <= dec d' x').
Proof.
  intros P R. pose proof encloses as [E1 E2]. pose proof q_pos as Q. destruct (outside d' x' P) as [O|O]; [left|right].
  - split.
    + apply good_iff. cbn [fst snd]. split; auto. apply (between_reads q k d' x'); auto; try lia; lra.
    + split; [|exact O]. unfold dist. cbn [fst snd]. rewrite !Rabs_pos_eq by lra. lra.
  - split.
    + apply good_iff. cbn [fst snd]. split; [lia|]. apply (between_reads (q + 1) k d' x'); auto; try lia; lra.
    + split; [|exact O]. unfold dist. cbn [fst snd]. rewrite (Rabs_minus_sym v (dec (q + 1) k)), (Rabs_minus_sym v (dec d' x')). rewrite !Rabs_pos_eq by lra. lra.
Qed.
(** The nearer candidate comes first. *)
Lemma cands_cut : exists a b, cands n = [a; b] /\ ((a = (q, k) /\ b = (q + 1, k)%Z) \/ (a = (q + 1, k)%Z /\ b = (q, k))) /\ dist a <= dist b /\ (a = (q, k) -> dist a < dist b).
Proof.
  unfold cands, cut_candidates. fold k. replace (k <=? E)%Z with false by (symmetry; lia). fold w. fold q.
  pose proof down_dist as Dd. pose proof up_dist as Du.
  match goal with |- context [if ?b then [_; _] else _] => destruct b eqn:C end.
  - exists (q, k), (q + 1, k)%Z. split; auto. split; auto. rewrite Dd, Du. split; [apply dec_le; lia | intros _; apply dec_lt; lia].
  - exists (q + 1, k)%Z, (q, k). split; auto. split; auto. rewrite Dd, Du. split; [apply dec_le; lia | intros [= X]; lia].
Qed.
End Cut.

(** At n digits: if any decimal of n digits reads back, the search finds one
    that is at least as near. *)
Lemma found n d' x' : (1 <= n)%Z -> (0 < d' < 10 ^ n)%Z -> dec_to_f64 s d' x' = f ->
  exists c, find good (cands n) = Some c /\ dist c <= dist (d', x') /\ (dist c = dist (d', x') -> dec d' x' <= dec (fst c) (snd c)).
Proof.
  intros N1 P R. destruct (Z_le_gt_dec (E + nd - n) E) as [L|L].
  - unfold cands, cut_candidates. apply Z.leb_le in L as L'. rewrite L'.
    destruct (exact_reads _ L) as [G Z0]. cbn [find]. rewrite G. eexists; split; [reflexivity|]. rewrite Z0. split; [apply Rabs_pos|].
    unfold dist in *. cbn [fst snd] in *. intros Q. revert Z0 Q. unfold Rabs. destruct (Rcase_abs _), (Rcase_abs _); lra.
  - destruct (cands_cut n ltac:(lia)) as (a & b & -> & C & Dab & St). rewrite find_two.
    destruct (encloses n ltac:(lia)) as [E1 E2].
    destruct (good_if n N1 ltac:(lia) d' x' P R) as [(G & Dl & O)|(G & Dl & O)], C as [[-> ->]|[-> ->]]; rewrite G.
    + eexists; split; eauto.
    + match goal with |- context [if ?b then _ else Some _] => destruct b end; eexists; (split; [reflexivity|]); cbn [fst snd]; split; intros; lra.
    + match goal with |- context [if ?b then _ else Some _] => destruct b end; eexists; (split; [reflexivity|]); cbn [fst snd].
      * specialize (St eq_refl). split; intros; lra.
      * split; auto. intros Q. unfold dist in Q. cbn [fst snd] in Q. revert Q. unfold Rabs. destruct (Rcase_abs _), (Rcase_abs _); lra.
    + eexists; split; [reflexivity|]. cbn [fst snd]. split; auto. intros Q. unfold dist in Q. cbn [fst snd] in Q. revert Q. unfold Rabs. destruct (Rcase_abs _), (Rcase_abs _); lra.
Qed.
Lemma cands_bound n c : (1 <= n)%Z -> In c (cands n) -> (fst c <= 10 ^ n)%Z.
Proof.
  intros N1. destruct (Z_le_gt_dec (E + nd - n) E) as [L|L].
  - unfold cands, cut_candidates. apply Z.leb_le in L as L'. rewrite L'. intros [<-|[]]. cbn [fst].
    destruct (num_digits_bounds D D_pos) as (B0 & _ & B2). fold nd in B0, B2.
    replace (E - (E + nd - n))%Z with (n - nd)%Z by lia. apply Z.le_trans with (10 ^ nd * 10 ^ (n - nd))%Z; [nia|].
    rewrite <- Z.pow_add_r by lia. apply Z.pow_le_mono_r; lia.
  - destruct (cands_cut n ltac:(lia)) as (a & b & -> & C & _ & _). pose proof (q_bounds n ltac:(lia) ltac:(lia)) as Q.
    destruct C as [[-> ->]|[-> ->]]; intros [<-|[<-|[]]]; cbn [fst]; lia.
Qed.
(** Seventeen digits always suffice. *)
Lemma seventeen : find good (cands 17) <> None.
Proof.
  destruct (Z_le_gt_dec (E + nd - 17) E) as [L|L].
  - unfold cands, cut_candidates. apply Z.leb_le in L as L'. rewrite L'.
    destruct (exact_reads _ L) as [G _]. cbn [find]. rewrite G. discriminate.
  - destruct (cands_cut 17 ltac:(lia)) as (a & b & -> & C & Dab & _). rewrite find_two.
    assert (G : good a = true); [|rewrite G; discriminate].
    set (k := (E + nd - 17)%Z) in *. pose proof (q_bounds 17 ltac:(lia) ltac:(lia)) as Q. cbn zeta in Q.
    pose proof (down_dist 17 ltac:(lia)) as Dd. pose proof (up_dist 17 ltac:(lia)) as Du. fold k in Dd, Du, Q, C.
    set (w := (10 ^ (k - E))%Z) in *. set (q := (D / w)%Z) in *.
    assert (W : (0 < w)%Z) by (unfold w; lia).
    assert (S : dist (q, k) + dist (q + 1, k)%Z = dec w E).
    { rewrite Dd, Du. unfold dec. rewrite <- Rmult_plus_distr_r, <- plus_IZR. do 2 f_equal. lia. }
    assert (Sa : 2 * dist a <= dec w E) by (destruct C as [[-> ->]|[-> ->]]; lra).
    assert (Bv : 10000000000000000 * dec w E <= v).
    { destruct (encloses 17 ltac:(lia)) as [B _]. fold k in B. fold w q in B. eapply Rle_trans; [|exact B].
      assert (Ek : dec q k = dec (q * w) E) by (unfold w; rewrite <- dec_shift by lia; f_equal; lia).
      rewrite Ek. unfold dec. rewrite <- Rmult_assoc, <- mult_IZR. apply (dec_le (10000000000000000 * w) (q * w) E).
      change (10 ^ (17 - 1))%Z with 10000000000000000%Z in Q. nia. }
    assert (0 < dec w E) by (apply dec_pos; lia).
    apply good_iff. assert (Pa : (0 < fst a)%Z) by (destruct C as [[-> _]|[-> _]]; cbn [fst]; lia).
    split; auto. apply close_reads; auto. rewrite Rabs_minus_sym. change (dist a < v * bpow radix2 (-54)).
    replace (bpow radix2 (-54)) with (/ 18014398509481984) by (cbn; lra). lra.
Qed.

Lemma search_spec n k : (match search_digits f s D E n k with
  | Some c => exists j, k <= j /\ find good (cands j) = Some c /\ forall i, k <= i < j -> find good (cands i) = None
  | None => forall i, k <= i < k + Z.of_nat n -> find good (cands i) = None
  end)%Z.
Proof.
  revert k; induction n as [|n IH]; intros k; cbn [search_digits]; [lia|].
  destruct (find _ _) as [c|] eqn:F.
  - change (find good (cands k) = Some c) in F. exists k. split; [lia|]. split; auto. lia.
  - change (find good (cands k) = None) in F. specialize (IH (k + 1)%Z). destruct (search_digits f s D E n (k + 1)) as [c|].
    + destruct IH as (j & J1 & J2 & J3). exists j. split; [lia|]. split; auto. intros i Hi.
      destruct (Z.eq_dec i k) as [->|]; auto. apply J3; lia.
    + intros i Hi. destruct (Z.eq_dec i k) as [->|]; auto. apply IH; lia.
Qed.
End Reads.

Local Open Scope Z_scope.
Lemma strip_zeros_end fuel d x d' x' : 0 < d < 10 ^ Z.of_nat fuel -> strip_zeros fuel d x = (d', x') ->
  d' mod 10 <> 0 /\ (d' = d \/ 10 * d' <= d).
Proof.
  revert d x; induction fuel as [|fuel IH]; intros d x H S; cbn [strip_zeros] in S; [cbn in H; lia|].
  rewrite Nat2Z.inj_succ, Z.pow_succ_r in H by lia.
  destruct (d mod 10 =? 0) eqn:M.
  - apply Z.eqb_eq in M. pose proof (Z.div_mod d 10 ltac:(lia)) as DM. apply IH in S as [S1 S2]; [|lia]. split; auto. right; lia.
  - injection S as <- <-. split; auto. lia.
Qed.

(** The digits printed: at most 17, none superfluous, no more than any other
    decimal that reads back needs, and nearest among those of that length. *)
Lemma shortest_full s m e d x : f64_valid (S754_finite s m e) = true ->
  shortest_dec (S754_finite s m e) s m e = (d, x) ->
  0 < d < 10 ^ 17 /\ d mod 10 <> 0 /\
  forall d' x' n, 0 < d' < 10 ^ n -> dec_to_f64 s d' x' = S754_finite s m e ->
    d < 10 ^ n /\ (10 ^ (n - 1) <= d -> (Rabs (mag_of m e - dec d x) <= Rabs (mag_of m e - dec d' x'))%R
      /\ (Rabs (mag_of m e - dec d x) = Rabs (mag_of m e - dec d' x') -> dec d' x' <= dec d x)%R).
Proof.
  intros V. unfold shortest_dec. destruct (exact_dec m e) as [D E] eqn:ED.
  pose proof (search_spec s m e V D E 17 1) as S. cbn zeta in S.
  destruct (search_digits _ s D E 17 1) as [[c k]|].
  2:{ exfalso. apply (seventeen s m e V D E ED). apply S. cbn; lia. }
  destruct S as (j & J1 & J2 & J3). intros St.
  pose proof (find_some _ _ J2) as [In1 G]. apply good_iff in G as [Pc Rc]. cbn [fst snd] in Pc, Rc.
  pose proof (cands_bound s m e V D E ED j (c, k) J1 In1) as Bc. cbn [fst] in Bc.
  destruct (strip_zeros_value _ _ _ _ _ Pc St) as [Pd Ev].
  destruct (num_digits_bounds s m e V c Pc) as (_ & _ & Bn). unfold num_digits in Bn.
  destruct (strip_zeros_end _ _ _ _ _ (conj Pc Bn) St) as [M L].
  assert (J17 : j <= 17).
  { destruct (Z_le_gt_dec j 17); auto. exfalso. apply (seventeen s m e V D E ED). apply J3. lia. }
  assert (Bd : d < 10 ^ j).
  { destruct L as [->|L].
    - destruct (Z.eq_dec c (10 ^ j)) as [->|]; [|lia]. exfalso. apply M.
      replace (10 ^ j) with (10 ^ (j - 1) * 10) by (rewrite Z.mul_comm, <- Z.pow_succ_r by lia; f_equal; lia). apply Z.mod_mul; lia.
    - lia. }
  split; [split; auto; eapply Z.lt_le_trans; [exact Bd | apply Z.pow_le_mono_r; lia]|]. split; auto.
  intros d' x' n P R.
  assert (N1 : 1 <= n). { destruct (Z_le_gt_dec 1 n); auto. destruct (Z.eq_dec n 0) as [->|]; [cbn in P; lia|]. rewrite Z.pow_neg_r in P by lia. lia. }
  destruct (found s m e V D E ED n d' x' N1 P R) as (c' & F' & Dl & Tie).
  assert (Jn : j <= n). { destruct (Z_le_gt_dec j n); auto. rewrite J3 in F' by lia. discriminate. }
  split; [eapply Z.lt_le_trans; [exact Bd | apply Z.pow_le_mono_r; lia]|].
  intros Lo. assert (n - 1 < j) by (apply (Z.pow_lt_mono_r_iff 10); lia). assert (n = j) by lia. subst n.
  rewrite J2 in F'. injection F' as <-. unfold dist in Dl, Tie. cbn [fst snd] in Dl, Tie. unfold dec in *. rewrite <- Ev. split; [exact Dl | exact Tie].
Qed.

Lemma shortest_best s m e d x : f64_valid (S754_finite s m e) = true ->
  shortest_dec (S754_finite s m e) s m e = (d, x) ->
  0 < d < 10 ^ 17 /\ d mod 10 <> 0 /\
  forall d' x' n, 0 < d' < 10 ^ n -> dec_to_f64 s d' x' = S754_finite s m e ->
    d < 10 ^ n /\ (10 ^ (n - 1) <= d -> (Rabs (mag_of m e - dec d x) <= Rabs (mag_of m e - dec d' x'))%R).
Proof.
  intros V Es. destruct (shortest_full s m e d x V Es) as (P & M & B). split; [exact P|]. split; [exact M|].
  intros d' x' n P' R. destruct (B d' x' n P' R) as [B1 B2]. split; [exact B1 | intros L; exact (proj1 (B2 L))].
Qed.

Lemma last_app {A} (l : list A) a x : last (l ++ [a]) x = a.
Proof. induction l as [|b l IH]; auto. cbn [app last]. destruct (l ++ [a]) eqn:E; [destruct l; discriminate | exact IH]. Qed.
(** The digits of the printed text. *)
Lemma render_plain d x : 0 < d -> d mod 10 <> 0 ->
  exists ds, significant ds /\ dec_val ds = d /\ plain (render_dec d x) ds x.
Proof.
  intros H M. unfold render_dec. destruct (print_nat_spec d ltac:(lia)) as (c & ds & -> & F & V & H1 & _).
  exists (c :: ds). set (L := c :: ds) in *. split; [|split; auto].
  - split; [discriminate|]. split; auto. split; [cbn; specialize (H1 H); lia|].
    intros Z0. apply M. rewrite <- V.
    destruct (exists_last (l := L) ltac:(discriminate)) as (l & a & El). rewrite El in Z0 |- *. rewrite last_app in Z0. subst a.
    rewrite dec_val_app. cbn [List.length dec_val]. replace (dec_val l * 10 ^ Z.of_nat 1 + (0 * 10 ^ Z.of_nat 0 + 0)) with (dec_val l * 10) by (cbn; lia).
    apply Z.mod_mul; lia.
  - assert (LL : (List.length L <> 0)%nat) by discriminate. clearbody L. rewrite digit_text_length, zeros_text.
    destruct (0 <=? x) eqn:Ex.
    + rewrite <- (Z2Nat.id x) at 2 by lia. constructor.
    + destruct (- x <? Z.of_nat (List.length L)) eqn:En.
      * set (k := Z.to_nat (Z.of_nat (List.length L) + x)). unfold digit_text. rewrite firstn_map, skipn_map.
        assert (Le : x = - Z.of_nat (List.length (skipn k L))) by (rewrite skipn_length; unfold k; lia).
        rewrite Le. rewrite <- (firstn_skipn k L) at 3. apply (PlainPoint (firstn k L) (skipn k L)).
        -- intros Z0. apply (f_equal (@List.length Z)) in Z0. rewrite firstn_length in Z0. cbn in Z0. unfold k in Z0. lia.
        -- intros Z0. apply (f_equal (@List.length Z)) in Z0. rewrite skipn_length in Z0. cbn in Z0. unfold k in Z0. lia.
      * rewrite zeros_text. set (z := Z.to_nat (- x - Z.of_nat (List.length L))).
        replace x with (- Z.of_nat (z + List.length L)) at 1 by (unfold z; lia).
        apply (PlainBelow L z).
Qed.

Lemma reads_sign neg d x s m e : 0 < d -> dec_to_f64 neg d x = S754_finite s m e -> neg = s.
Proof.
  intros P R. pose proof (dec_rounds neg d x P) as [_ H]. rewrite R in H.
  destruct (Rlt_bool _ _); [destruct H as (_ & _ & H); exact (eq_sym H) | discriminate H].
Qed.
