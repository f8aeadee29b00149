(** Settings handed over as their text (C94). *)
From Coq Require Import ZArith Reals Bool String Lia Lra List.
From Coq Require Import Floats.SpecFloat.
From Flocq Require Import Core BinarySingleNaN.
Import ListNotations.
From Verif.Model Require Import Text Num Flt Value Convert.
From Verif.Spec Require Import Numerals FloatSpec.
From Verif.Proofs Require Import Basics Conversions FloatBase FloatConv FloatText Shortest.
Local Open Scope Z_scope.

(** ** Integers *)
Lemma canonical_decimal s z : canonical s z -> decimal_text s (z <? 0) (Z.abs z) 0.
Proof.
  assert (P : forall d ds, 1 <= d <= 9 -> Forall is_digit ds -> 0 < dec_val (d :: ds)).
  { intros d ds D F. cbn [dec_val]. pose proof (dec_val_nonneg ds F). nia. }
  assert (G : forall ds, ds <> [] -> Forall is_digit ds -> decimal (digit_text ds) (dec_val ds) 0).
  { intros ds N F. rewrite <- (app_nil_r (digit_text ds)). constructor; auto. constructor. }
  intros H. destruct H as [|d ds D F|d ds D F].
  - exists (lit "0"). split; [constructor|]. apply (G [0]); [discriminate|]. repeat constructor; lia.
  - specialize (P d ds D F). rewrite Z.abs_eq by lia. replace (dec_val (d :: ds) <? 0) with false by (symmetry; apply Z.ltb_ge; lia).
    eexists. split; [constructor|]. apply G; [discriminate|]. constructor; auto. unfold is_digit; lia.
  - specialize (P d ds D F). rewrite Z.abs_neq, Z.opp_involutive by lia. replace (- dec_val (d :: ds) <? 0) with true by (symmetry; apply Z.ltb_lt; lia).
    eexists. split; [constructor|]. apply G; [discriminate|]. constructor; auto. unfold is_digit; lia.
Qed.
Lemma dec_of_Z z : dec_to_f64 (z <? 0) (Z.abs z) 0 = f64_of_Z z.
Proof.
  destruct (Z.eq_dec z 0) as [->|N]; [reflexivity|].
  eapply (rounds_to_unique 53 1024); [apply dec_rounds; lia|].
  replace (signed_real (z <? 0) (IZR (Z.abs z) * powerRZ 10 0)) with (IZR z).
  - rewrite <- F2R_int. now apply normalize_rounds; auto with typeclass_instances.
  - cbn [powerRZ]. rewrite Rmult_1_r, signed_IZR. f_equal. destruct (Z.ltb_spec z 0); cbn [cond_Zopp]; lia.
Qed.
Lemma canonical_f64 s z : canonical s z -> into_f64 (VStr s) = Ok (f64_of_Z z).
Proof. intros H. cbn. rewrite (parse_decimal _ _ _ _ (canonical_decimal s z H)). now rewrite dec_of_Z. Qed.
Lemma numeral_head t s z : numeral t s z -> match s with c :: _ => c = 43 \/ (c = 45 /\ is_signed t) \/ 48 <= c <= 57 | [] => False end.
Proof.
  intros H. destruct H as [ds N F|ds N F|ds S N F]; [|left; reflexivity|right; left; split; auto; reflexivity].
  destruct ds as [|c ds]; [congruence|]. inversion F as [|? ? Dc]; subst. unfold is_digit in Dc. cbn [digit_text map]. right. right. lia.
Qed.
Lemma numeral_chars t s z c : numeral t s z -> In c s -> c = 43 \/ c = 45 \/ 48 <= c <= 57.
Proof.
  assert (D : forall ds, Forall is_digit ds -> In c (digit_text ds) -> 48 <= c <= 57).
  { intros ds F H. unfold digit_text in H. apply in_map_iff in H as (d & Ed & Hd). rewrite Forall_forall in F. specialize (F d Hd). unfold is_digit in F. lia. }
  intros H I. destruct H as [ds N F|ds N F|ds S N F]; [right; right; eauto| |]; apply in_app_or in I as [[I|[]]|I]; auto;
    right; right; eauto.
Qed.
Lemma canonical_int s z t n : canonical s z -> (into_int t (VStr s) = Ok n <-> n = z /\ fits t z).
Proof.
  intros C. split.
  - intros H. apply into_int_string in H as [N F].
    assert (is_signed t -> n = z).
    { intros S. eapply numeral_fun; [exact N|]. apply canonical_numeral; auto. }
    assert (~ is_signed t -> n = z).
    { intros S. inversion C; subst.
      - eapply numeral_fun; [exact N|]. apply canonical_numeral; auto. lia.
      - eapply numeral_fun; [exact N|]. apply canonical_numeral; auto.
        pose proof (dec_val_nonneg (d :: ds)) as Q. assert (0 <= dec_val (d :: ds)) by (apply Q; constructor; auto; unfold is_digit; lia). lia.
      - exfalso. apply numeral_head in N. cbn beta iota delta [lit app map String.list_ascii_of_string] in N.
        destruct N as [N|[[_ N]|N]]; [discriminate N | tauto | change (48 <= 45 <= 57) in N; lia]. }
    assert (n = z) by (destruct t; cbn in *; tauto). subst. auto.
  - intros [-> F]. apply into_int_string. split; auto. apply canonical_numeral; auto. intros Q. eapply fits_signed; eauto.
Qed.

(** ** Booleans and letters *)
Lemma digit_no_bool s : (forall c r, s = c :: r -> c < 65) ->
  into_bool (VStr s) = Err (EConversion (lit "String") (lit "bool") (lit "can't parse string as boolean")).
Proof.
  intros H. destruct (into_bool_string s) as (_ & _ & E). apply E; intros F; destruct s as [|c r]; try (now inversion F);
    specialize (H c r eq_refl); inversion F as [|? ? ? ? Q _]; subst; unfold same_ignoring_case in Q; lia.
Qed.
Lemma canonical_low s z : canonical s z -> forall c r, s = c :: r -> c < 65.
Proof.
  intros C c r ->. assert (N : numeral I128 (c :: r) z) by (apply canonical_numeral; [cbn; auto | exact C]).
  pose proof (numeral_chars _ _ _ c N (or_introl eq_refl)). lia.
Qed.

(** ** Whole floats *)
Section Whole.
Variables (s : bool) (m : positive) (e : Z).
Hypothesis V : f64_valid (S754_finite s m e) = true.
Variables (d x : Z).
Hypothesis Es : shortest_dec (S754_finite s m e) s m e = (d, x).
Local Open Scope R_scope.

Lemma exact_whole A : (0 < A)%Z -> mag_of m e = IZR A -> dec_to_f64 s A 0 = S754_finite s m e.
Proof.
  intros P E. apply (rounds_self 53 1024 (signed_real s (IZR A * powerRZ 10 0)) (S754_finite s m e) s V eq_refl eq_refl).
  - rewrite <- real_SF2R, real_mag, E. cbn [powerRZ]. now rewrite Rmult_1_r.
  - now apply dec_rounds.
Qed.
Lemma dec_int a b : (0 <= b)%Z -> dec a b = IZR (a * 10 ^ b).
Proof. intros B. unfold dec. rewrite pow10_Z by auto. now rewrite mult_IZR. Qed.

(** The text of a whole float has no fraction. *)
Lemma whole_no_fraction A : (0 < A)%Z -> mag_of m e = IZR A -> (0 <= x)%Z.
Proof.
  intros P E. destruct (shortest_best s m e d x V Es) as (Pd & M & B).
  destruct (shortest_sound s m e d x V Es) as [_ R].
  destruct (num_digits_bounds s m e V A P) as (N0 & N1 & N2). set (n := num_digits A) in *.
  destruct (B A 0%Z n (conj P N2) (exact_whole A P E)) as [B1 B2].
  destruct (Z_lt_le_dec x 0) as [X|]; auto. exfalso.
  assert (W : (10 ^ (- x) = 10 * 10 ^ (- x - 1))%Z) by (rewrite <- Z.pow_succ_r by lia; f_equal; lia).
  assert (W1 : (0 < 10 ^ (- x - 1))%Z) by (apply Z.pow_pos_nonneg; lia).
  assert (Dx : dec d x * IZR (10 ^ (- x)) = IZR d).
  { unfold dec. rewrite <- pow10_Z by lia. rewrite Rmult_assoc, <- powerRZ_add by lra.
    replace (x + - x)%Z with 0%Z by lia. cbn [powerRZ]. ring. }
  destruct (Z_lt_le_dec d (10 ^ (n - 1))) as [L|L].
  - assert (Fz : finite64 (S754_zero s)) by (split; [reflexivity | exact I]).
    destruct (reads_nearest s m e d x (proj1 Pd) R) as [_ Q]. specialize (Q (S754_zero s) 0 Fz ltac:(destruct s; cbn; ring)).
    rewrite E in Q. pose proof (dec_pos d x (proj1 Pd)) as Dp.
    assert (IZR d < IZR A) by (apply IZR_lt; lia).
    assert (10 <= IZR (10 ^ (- x))) by (rewrite W; apply IZR_le; lia).
    assert (10 * dec d x <= IZR d) by (rewrite <- Dx; nra).
    rewrite (Rabs_pos_eq (IZR A - dec d x)) in Q by lra. unfold Rminus in Q at 2. rewrite Rplus_0_l, Rabs_Ropp, Rabs_pos_eq in Q by lra. lra.
  - specialize (B2 L). rewrite E, (dec_int A 0) in B2 by lia. rewrite Z.pow_0_r, Z.mul_1_r in B2. replace (IZR A - IZR A) with 0 in B2 by ring. rewrite Rabs_R0 in B2.
    assert (D0 : dec d x = IZR A).
    { destruct (Req_dec (IZR A - dec d x) 0) as [|Nz]; [lra|]. pose proof (Rabs_pos_lt _ Nz). change (powerRZ 10 0) with 1 in *. lra. }
    rewrite D0, <- mult_IZR in Dx. apply eq_IZR in Dx. apply M. rewrite <- Dx, W.
    replace (A * (10 * 10 ^ (- x - 1)))%Z with (A * 10 ^ (- x - 1) * 10)%Z by ring. apply Z.mod_mul. lia.
Qed.

Lemma float_int z : (Z.abs z <= 2 ^ 53)%Z -> exists r, finite64 r /\ real r = signed_real s (IZR z).
Proof.
  intros B. exists (f64_of_Z (cond_Zopp s z)). destruct (of_Z_exact (cond_Zopp s z)) as (F & R & _); [destruct s; cbn [cond_Zopp]; lia|].
  split; auto. now rewrite R, signed_IZR.
Qed.

(** Up to 2^53 the text is the number itself. *)
Lemma whole_exact A : (0 < A <= 2 ^ 53)%Z -> mag_of m e = IZR A -> (0 <= x /\ d * 10 ^ x = A)%Z.
Proof.
  intros P E. destruct (shortest_best s m e d x V Es) as (Pd & M & B).
  destruct (shortest_sound s m e d x V Es) as [_ R].
  assert (X : (0 <= x)%Z) by (eapply whole_no_fraction; eauto; lia). split; auto.
  destruct (num_digits_bounds s m e V A (proj1 P)) as (N0 & N1 & N2). set (n := num_digits A) in *.
  destruct (B A 0%Z n (conj (proj1 P) N2) (exact_whole A (proj1 P) E)) as [B1 B2].
  destruct (reads_nearest s m e d x (proj1 Pd) R) as [_ Q]. rewrite E in Q.
  destruct (Z_lt_le_dec d (10 ^ (n - 1))) as [L|L].
  2:{ specialize (B2 L). rewrite E, (dec_int A 0) in B2 by lia. rewrite Z.pow_0_r, Z.mul_1_r in B2. replace (IZR A - IZR A) with 0 in B2 by ring. rewrite Rabs_R0 in B2.
      rewrite (dec_int d x X) in B2. rewrite <- minus_IZR, <- abs_IZR in B2. apply le_IZR in B2. lia. }
  rewrite (dec_int d x X) in Q.
  assert (T : forall b, (Z.abs b <= 2 ^ 53 \/ b = 2 ^ 53 + 2)%Z -> (Z.abs (A - d * 10 ^ x) <= Z.abs (b - d * 10 ^ x))%Z).
  { intros b [Hb| ->].
    - destruct (float_int b Hb) as (r & Fr & Er). specialize (Q r (IZR b) Fr Er). rewrite <- !minus_IZR, <- !abs_IZR in Q. now apply le_IZR in Q.
    - specialize (Q (S754_finite s (2 ^ 52 + 1) 1) (IZR (2 ^ 53 + 2))). rewrite <- !minus_IZR, <- !abs_IZR in Q. apply le_IZR. apply Q.
      + split; [reflexivity | exact I].
      + cbn [real]. f_equal. rewrite powerRZ_1, <- mult_IZR. reflexivity. }
  assert (C : (0 < x)%Z -> ((d * 10 ^ x) mod 10 = 0)%Z).
  { intros X0. replace x with (Z.succ (x - 1)) by lia. rewrite Z.pow_succ_r by lia.
    replace (d * (10 * 10 ^ (x - 1)))%Z with (d * 10 ^ (x - 1) * 10)%Z by ring. apply Z.mod_mul. lia. }
  set (q := (d * 10 ^ x)%Z) in *.
  destruct (Z.lt_trichotomy q A) as [H|[H|H]]; auto; exfalso.
  - specialize (T (A - 1)%Z). lia.
  - assert (X0 : (0 < x)%Z) by (destruct (Z.eq_dec x 0) as [->|]; [exfalso; unfold q in H; rewrite Z.pow_0_r in H; lia | lia]).
    specialize (C X0). destruct (Z.eq_dec A (2 ^ 53)) as [EA|NA].
    + specialize (T (2 ^ 53 + 2)%Z (or_intror eq_refl)). assert (q = 2 ^ 53 + 1)%Z by lia.
      rewrite H0 in C. discriminate C.
    + specialize (T (A + 1)%Z). lia.
Qed.

(** A float whose text has no fraction is whole. *)
Lemma no_fraction_whole : (0 <= x)%Z -> exists A, mag_of m e = IZR A.
Proof.
  intros X. destruct (shortest_sound s m e d x V Es) as [Pd R].
  destruct (Z_le_gt_dec 0 e) as [E|E].
  { exists (Z.pos m * 2 ^ e)%Z. unfold mag_of. rewrite mult_IZR. f_equal. rewrite <- (IZR_Zpower radix2) by lia. reflexivity. }
  destruct (valid_bounds s m e V) as (Bm & _ & _).
  destruct (reads_nearest s m e d x Pd R) as [_ Q]. rewrite (dec_int d x X) in Q. set (q := (d * 10 ^ x)%Z) in *.
  assert (Pq : (0 < q)%Z) by (unfold q; apply Z.mul_pos_pos; auto; apply Z.pow_pos_nonneg; lia).
  assert (L : mag_of m e < IZR (2 ^ 53)).
  { unfold mag_of. apply Rlt_le_trans with (IZR (2 ^ 53) * bpow radix2 e).
    - apply Rmult_lt_compat_r; [apply bpow_gt_0 | now apply IZR_lt].
    - rewrite <- (Rmult_1_r (IZR (2 ^ 53))) at 2. apply Rmult_le_compat_l; [apply IZR_le; lia|].
      change 1 with (bpow radix2 0). apply bpow_le. lia. }
  pose proof (v_pos m e) as Pv.
  destruct (Z_le_gt_dec q (2 ^ 53)) as [Hq|Hq].
  - exists q. destruct (float_int q ltac:(lia)) as (r & Fr & Er). specialize (Q r (IZR q) Fr Er).
    replace (IZR q - IZR q) with 0 in Q by ring. rewrite Rabs_R0 in Q.
    destruct (Req_dec (mag_of m e - IZR q) 0) as [|Nz]; [lra|]. pose proof (Rabs_pos_lt _ Nz). lra.
  - exfalso. destruct (float_int (2 ^ 53) ltac:(lia)) as (r & Fr & Er). specialize (Q r (IZR (2 ^ 53)) Fr Er).
    assert (IZR (2 ^ 53) < IZR q) by (apply IZR_lt; lia).
    rewrite (Rabs_left (mag_of m e - IZR q)), (Rabs_left (IZR (2 ^ 53) - IZR q)) in Q by lra. lra.
Qed.
End Whole.

(** The text, given its digits. *)
Lemma print_finite s m e d x : shortest_dec (S754_finite s m e) s m e = (d, x) ->
  print_f64 (S754_finite s m e) = (if s then lit "-" else []) ++ render_dec d x.
Proof. intros E. cbn [print_f64]. rewrite E. destruct s; reflexivity. Qed.
Lemma dec_val_trailing ds n : dec_val (ds ++ repeat 0 n) = dec_val ds * 10 ^ Z.of_nat n.
Proof. rewrite dec_val_app, repeat_length, dec_val_zeros. lia. Qed.
Lemma render_canonical (s : bool) d x : 0 < d -> d mod 10 <> 0 -> 0 <= x ->
  canonical ((if s then lit "-" else []) ++ render_dec d x) (cond_Zopp s (d * 10 ^ x)).
Proof.
  intros P M X. destruct (render_plain d x P M) as (ds & (Ne & F & H & _) & <- & Pl).
  inversion Pl as [ds' n E1 E2 E3|a b E1 E2 E3 E4 E5|ds' n E1 E2 E3]; subst.
  - rewrite <- digit_text_app, <- dec_val_trailing. destruct ds as [|c ds]; [congruence|]. cbn [hd] in H. inversion F as [|? ? Dc Fc]; subst.
    cbn [app]. unfold is_digit in Dc. assert (Forall is_digit (ds ++ repeat 0 n)) by (apply Forall_app; split; auto; apply repeat_digits).
    destruct s; cbn [cond_Zopp]; constructor; auto; lia.
  - destruct b; [congruence|]. cbn in X. lia.
  - destruct ds; [congruence|]. cbn [List.length] in X. lia.
Qed.
Lemma point_no_numeral (s : bool) d x t z : 0 < d -> d mod 10 <> 0 -> x < 0 ->
  ~ numeral t ((if s then lit "-" else []) ++ render_dec d x) z.
Proof.
  intros P M X N.
  assert (Pt : In 46 ((if s then lit "-" else []) ++ render_dec d x)).
  { apply in_or_app. right. destruct (render_plain d x P M) as (ds & _ & _ & Pl). inversion Pl; subst; try lia.
    - apply in_or_app. right. left. reflexivity.
    - right. left. reflexivity. }
  pose proof (numeral_chars _ _ _ _ N Pt). lia.
Qed.

Lemma abs_whole s m e z : real (S754_finite s m e) = IZR z -> mag_of m e = IZR (Z.abs z) /\ cond_Zopp s (Z.abs z) = z /\ 0 < Z.abs z.
Proof.
  rewrite real_mag. intros E. pose proof (v_pos m e) as P. destruct s; cbn [signed_real cond_Zopp] in *.
  - assert (IZR z < IZR 0)%R by lra. apply lt_IZR in H. rewrite Z.abs_neq, opp_IZR by lia. split; [lra | lia].
  - assert (IZR 0 < IZR z)%R by lra. apply lt_IZR in H. rewrite Z.abs_eq by lia. split; [lra | lia].
Qed.

(** The text of a whole float is a canonical numeral, of the number itself up
    to 2^53, of a number that rounds to the float beyond. *)
Lemma whole_text f z : finite64 f -> real f = IZR z -> z <> 0 \/ negative f = false ->
  exists s z', into_string (VFloat f) = Ok s /\ canonical s z' /\ f64_of_Z z' = f /\ (Z.abs z <= 2 ^ 53 -> z' = z).
Proof.
  intros [V Fi] E N. destruct f as [sg|sg| |sg m e]; try contradiction.
  - assert (z = 0) by (apply eq_IZR; symmetry; exact E). subst. destruct N as [N|N]; [congruence|]. cbn in N. subst sg.
    exists (lit "0"), 0. split; [reflexivity|]. split; [constructor|]. split; [reflexivity | auto].
  - destruct (abs_whole sg m e z E) as (Ea & Es & Pa).
    destruct (shortest_dec (S754_finite sg m e) sg m e) as [d x] eqn:Sd.
    pose proof (whole_no_fraction sg m e V d x Sd _ Pa Ea) as X.
    destruct (shortest_best sg m e d x V Sd) as (Pd & M & _). destruct (shortest_sound sg m e d x V Sd) as [_ R].
    exists ((if sg then lit "-" else []) ++ render_dec d x), (cond_Zopp sg (d * 10 ^ x)).
    split; [cbn [into_string]; now rewrite (print_finite _ _ _ _ _ Sd)|].
    split; [apply render_canonical; auto; lia|].
    assert (Q : 0 < d * 10 ^ x) by (apply Z.mul_pos_pos; [lia | apply Z.pow_pos_nonneg; lia]).
    split.
    + rewrite <- dec_of_Z, <- R. replace (cond_Zopp sg (d * 10 ^ x) <? 0) with sg by (destruct sg; cbn [cond_Zopp]; symmetry; [apply Z.ltb_lt | apply Z.ltb_ge]; lia).
      apply dec_same; [destruct sg; cbn [cond_Zopp]; lia | lia|].
      replace (Z.abs (cond_Zopp sg (d * 10 ^ x))) with (d * 10 ^ x) by (destruct sg; cbn [cond_Zopp]; lia).
      rewrite (pow10_Z x) by lia. change (powerRZ 10 0) with 1%R. rewrite mult_IZR. ring.
    + intros B. destruct (whole_exact sg m e V d x Sd _ (conj Pa B) Ea) as [_ W]. rewrite W. exact Es.
Qed.
(** The text of any other float is no integer numeral. *)
Lemma not_whole_text f s t : f64_valid f = true -> into_string (VFloat f) = Ok s ->
  ~ (finite64 f /\ exists z, real f = IZR z) ->
  into_int t (VStr s) = Err (EConversion (lit "String") (type_name t) (lit "can't parse string")).
Proof.
  intros V S N. apply into_int_string_err. intros z [Nu _]. destruct f as [sg|sg| |sg m e].
  - apply N. split; [split; auto | exists 0; reflexivity].
  - cbn in S. injection S as <-. assert (H : 110 = 43 \/ 110 = 45 \/ 48 <= 110 <= 57); [|lia].
    eapply numeral_chars; [exact Nu|]. destruct sg; cbn; auto.
  - cbn in S. injection S as <-. assert (H : 97 = 43 \/ 97 = 45 \/ 48 <= 97 <= 57); [|lia].
    eapply numeral_chars; [exact Nu|]. cbn; auto.
  - destruct (shortest_dec (S754_finite sg m e) sg m e) as [d x] eqn:Sd.
    destruct (shortest_best sg m e d x V Sd) as (Pd & M & _).
    cbn [into_string] in S. rewrite (print_finite _ _ _ _ _ Sd) in S. injection S as <-.
    destruct (Z_lt_le_dec x 0) as [X|X]; [eapply point_no_numeral; eauto; lia|].
    apply N. split; [split; auto; exact I|]. destruct (no_fraction_whole sg m e V d x Sd X) as [A EA].
    exists (cond_Zopp sg A). now rewrite real_mag, EA, signed_IZR.
Qed.
