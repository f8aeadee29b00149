(** C10, C11, C15, C16, C68, C77: floats. *)
From Coq Require Import ZArith Reals Bool String Lia Lra List.
From Coq Require Import Floats.SpecFloat.
Import ListNotations.
From Verif.Model Require Import Text Num Flt Value Convert.
From Verif.Spec Require Import Numerals FloatSpec.
From Verif.Proofs Require Import Conversions FloatBase FloatConv FloatText Shortest.
Local Open Scope Z_scope.

(** ** C10 *)
Theorem C10_float_truncates_when_representable : forall t f n,
  finite64 f -> truncates (real f) n -> fits t n -> (t = U128 -> fits I128 n) ->
  into_int t (VFloat f) = Ok n.
Proof.
  intros t f n F T Fit H. apply float_fits; auto.
  assert (D : {t = U128} + {t <> U128}) by decide equality. destruct D as [E|N]; auto.
  apply fits_bounds in Fit. apply fits_bounds. destruct t; cbn [imin imax] in *; lia || congruence.
Qed.
Print Assumptions C10_float_truncates_when_representable.

(** What truncation is: every finite float truncates to exactly one integer. *)
Theorem C10_truncation_is_a_function : forall f, finite64 f ->
  exists n, truncates (real f) n /\ forall n', truncates (real f) n' -> n' = n.
Proof.
  intros f F. exists (f64_trunc f). split; [now apply f64_trunc_truncates|].
  intros n' T. eapply truncates_unique; eauto. now apply f64_trunc_truncates.
Qed.
Print Assumptions C10_truncation_is_a_function.

Theorem C10_small_types_reject_the_rest : forall t f n, In t [I8; I16; I32; U8; U16; U32] ->
  finite64 f -> truncates (real f) n -> ~ fits t n ->
  into_int t (VFloat f) = Err (EConversion (lit "f64") (type_name t) (lit "Number value is out of target bounds")).
Proof.
  intros t f n H F T N. destruct (beyond_or_fits t f (proj1 F)) as [->|[[s B]|[_ (n' & T' & Fit)]]].
  - destruct F as [_ []].
  - eapply float_out_of_range; eauto; cbn in H; repeat destruct H as [<-|H]; try discriminate; try tauto.
  - rewrite (truncates_unique _ _ _ T' T) in Fit. tauto.
Qed.
Print Assumptions C10_small_types_reject_the_rest.

(** u128 above i128::MAX: the result is silently wrong. *)
Theorem C10_u128_refuted : exists f n, finite64 f /\ truncates (real f) n /\ fits U128 n
  /\ into_int U128 (VFloat f) = Ok (2 ^ 127 - 1) /\ n <> 2 ^ 127 - 1.
Proof.
  exists (f64_of_Z (2 ^ 127)), (f64_trunc (f64_of_Z (2 ^ 127))).
  assert (F : finite64 (f64_of_Z (2 ^ 127))) by (split; [reflexivity | exact I]).
  split; auto. split; [now apply f64_trunc_truncates|].
  split; [apply fits_bounds; vm_compute; split; discriminate|]. split; [reflexivity | vm_compute; discriminate].
Qed.
Print Assumptions C10_u128_refuted.
(** -2.75 and 300.5 *)
Example C10_example :
  finite64 (S754_finite true 6192449487634432 (-51)) /\ truncates (real (S754_finite true 6192449487634432 (-51))) (-2)
  /\ fits I8 (-2) /\ into_int I8 (VFloat (S754_finite true 6192449487634432 (-51))) = Ok (-2)
  /\ exists e, into_int U8 (VFloat (S754_finite false 5287288976801792 (-44))) = Err e.
Proof.
  split; [split; [reflexivity | exact I]|]. split; [|split; [cbv; intuition discriminate | split; [reflexivity | eexists; reflexivity]]].
  change (-2) with (f64_trunc (S754_finite true 6192449487634432 (-51))).
  apply f64_trunc_truncates. split; [reflexivity | exact I].
Qed.

(** ** C11 *)
Theorem C11_nan_is_zero : forall t, into_int t (VFloat S754_nan) = Ok 0.
Proof. exact float_nan. Qed.
Print Assumptions C11_nan_is_zero.
Theorem C11_64_bit_and_i128_saturate : forall t f s, In t [I64; U64; I128] -> beyond t f s ->
  exists m, extreme t s m /\ into_int t (VFloat f) = Ok m.
Proof.
  intros t f s H B. exists (if s then imin t else imax t). split.
  - destruct s; [now apply extreme_min | now apply extreme_max].
  - apply float_saturates; auto. cbn in H; repeat destruct H as [<-|H]; cbn; tauto.
Qed.
Print Assumptions C11_64_bit_and_i128_saturate.
Theorem C11_small_types_are_errors : forall t f s, In t [I8; I16; I32; U8; U16; U32] -> beyond t f s ->
  into_int t (VFloat f) = Err (EConversion (lit "f64") (type_name t) (lit "Number value is out of target bounds")).
Proof.
  intros t f s H B. eapply float_out_of_range; eauto; cbn in H; repeat destruct H as [<-|H]; cbn; try tauto; discriminate.
Qed.
Print Assumptions C11_small_types_are_errors.
Theorem C11_u128 : forall f,
  (beyond I128 f false -> exists m, extreme I128 false m /\ into_int U128 (VFloat f) = Ok m)
  /\ (beyond U128 f true ->
      into_int U128 (VFloat f) = Err (EConversion (lit "f64") (lit "u128") (lit "Number value is out of target bounds"))).
Proof.
  intros f. split; intros H.
  - exists (imax I128). split; [now apply extreme_max | now apply float_u128_above].
  - now apply float_u128_below.
Qed.
Print Assumptions C11_u128.
(** The cases are exhaustive. *)
Theorem C11_every_float_is_covered : forall t f, f64_valid f = true ->
  f = S754_nan \/ (exists s, beyond t f s) \/ (finite64 f /\ exists n, truncates (real f) n /\ fits t n).
Proof. exact beyond_or_fits. Qed.
Print Assumptions C11_every_float_is_covered.
Example C11_example : beyond U64 (S754_infinity false) false /\ beyond U64 (f64_of_Z (-5)) true
  /\ into_int U64 (VFloat (f64_of_Z (-5))) = Ok 0 /\ into_int I64 (VFloat (f64_of_Z (10 ^ 30))) = Ok (2 ^ 63 - 1).
Proof.
  split; [constructor|]. split.
  - apply (BeBelow U64 (f64_of_Z (-5)) (f64_trunc (f64_of_Z (-5)))).
    + split; [reflexivity | exact I].
    + apply f64_trunc_truncates. split; [reflexivity | exact I].
    + apply below_min. reflexivity.
  - split; reflexivity.
Qed.

(** ** C15 *)
Theorem C15_integers_round_to_nearest : forall v z src f, wf v -> int_value v z src -> into_f64 v = Ok f ->
  nearest64 (IZR z) f /\ negative f = (z <? 0).
Proof.
  intros v z src f W I E.
  assert (f = f64_of_Z z) as -> by (inversion I; subst; cbn in E; congruence).
  apply (of_Z_rounds z). apply int_below_limit.
  inversion I; subst; cbn [wf] in W; apply in_range_fits, fits_bounds in W; cbn [imin imax] in W; lia.
Qed.
Print Assumptions C15_integers_round_to_nearest.
Theorem C15_always_succeeds : forall v z src, int_value v z src -> exists f, into_f64 v = Ok f.
Proof. intros v z src I; inversion I; subst; eexists; reflexivity. Qed.
Print Assumptions C15_always_succeeds.
Theorem C15_exact_up_to_2_53 : forall v z src f t, wf v -> int_value v z src -> Z.abs z <= 2 ^ 53 -> into_f64 v = Ok f ->
  finite64 f /\ real f = IZR z /\ (fits t z -> into_int t (VFloat f) = Ok z).
Proof.
  intros v z src f t W I B E.
  assert (f = f64_of_Z z) as -> by (inversion I; subst; cbn in E; congruence).
  destruct (of_Z_exact z B) as (F & R & T). split; auto. split; auto. intros Fit.
  apply float_fits; auto.
  - rewrite <- T at 2. now apply f64_trunc_truncates.
  - apply fits_bounds. cbn [imin imax]. lia.
Qed.
Print Assumptions C15_exact_up_to_2_53.
(** 2^53 + 1 lies half way between two floats: the even one is taken. *)
Example C15_example : wf (VInt (2 ^ 53 + 1)) /\ into_f64 (VInt (2 ^ 53 + 1)) = Ok (f64_of_Z (2 ^ 53))
  /\ into_f64 (VInt (2 ^ 53 + 3)) = Ok (f64_of_Z (2 ^ 53 + 4)).
Proof. repeat split. Qed.

(** ** C16 *)
Theorem C16_floats_survive_printing : forall f, f64_valid f = true ->
  exists s, into_string (from_f64 f) = Ok s /\ into_f64 (from_str s) = Ok f.
Proof. intros f V. exists (print_f64 f). split; [reflexivity|]. cbn. now rewrite print_parse. Qed.
Print Assumptions C16_floats_survive_printing.
Theorem C16_distinct_floats_print_differently : forall f g s, f64_valid f = true -> f64_valid g = true ->
  into_string (from_f64 f) = Ok s -> into_string (from_f64 g) = Ok s -> f = g.
Proof.
  intros f g s V W E E'. cbn in E, E'. injection E as <-. injection E' as E'.
  pose proof (print_parse f V) as P. pose proof (print_parse g W) as Q. congruence.
Qed.
Print Assumptions C16_distinct_floats_print_differently.
Example C16_example : f64_valid (dec_to_f64 false 1 (-1)) = true /\ into_string (from_f64 (dec_to_f64 false 1 (-1))) = Ok (lit "0.1")
  /\ into_string (from_f64 (dec_to_f64 true 15 20)) = Ok (lit "-1500000000000000000000").
Proof. repeat split; vm_compute; reflexivity. Qed.

(** ** C68 *)
Theorem C68_decimal_texts_round_to_nearest : forall s neg d e, decimal_text s neg d e ->
  exists f, into_f64 (VStr s) = Ok f /\ rounds_correctly (signed_real neg (IZR d * powerRZ 10 e)) neg f.
Proof.
  intros s neg d e H. exists (dec_to_f64 neg d e). cbn. rewrite (parse_decimal s neg d e H). split; auto.
  apply dec_rounds_correctly. destruct H as (u & _ & D). now apply decimal_nonneg in D.
Qed.
Print Assumptions C68_decimal_texts_round_to_nearest.
Theorem C68_special_words : forall s,
  (nan_text s -> into_f64 (VStr s) = Ok S754_nan)
  /\ (forall neg, inf_text s neg -> into_f64 (VStr s) = Ok (S754_infinity neg)).
Proof.
  intros s. split; [intros H|intros neg H]; cbn; [now rewrite (parse_nan s H) | now rewrite (parse_inf s neg H)].
Qed.
Print Assumptions C68_special_words.
Theorem C68_nothing_else_is_accepted : forall s,
  ~ nan_text s -> (forall neg, ~ inf_text s neg) -> (forall neg d e, ~ decimal_text s neg d e) ->
  into_f64 (VStr s) = Err (EConversion (lit "String") (lit "f64") (lit "can't parse string")).
Proof.
  intros s N I D. cbn. destruct (parse_f64 s) as [f|] eqn:E; [exfalso | reflexivity].
  destruct (parse_f64_accepts s f E) as [[H _]|[(neg & H & _)|(neg & d & e & H)]]; [tauto | eapply I; eauto | eapply D; eauto].
Qed.
Print Assumptions C68_nothing_else_is_accepted.
Example C68_example : decimal_text (lit "-12.50E+3") true 1250 1 /\ decimal_text (lit ".5") false 5 (-1)
  /\ nan_text (lit "-NaN") /\ inf_text (lit "+Infinity") false
  /\ (exists e, into_f64 (VStr (lit "1_0")) = Err e) /\ (exists e, into_f64 (VStr (lit " 1")) = Err e).
Proof.
  split.
  { exists (lit "12.50E+3"). split; [apply (WsMinus (lit "12.50E+3"))|].
    apply (DecPoint [1; 2] [5; 0] (lit "E+3") 3); try discriminate; try (repeat constructor; unfold is_digit; lia).
    apply (ExpPlus 69 [3]); auto; try discriminate. repeat constructor; unfold is_digit; lia. }
  split.
  { exists (lit ".5"). split; [apply WsNone|]. apply (DecPoint [] [5] [] 0); try discriminate; repeat constructor; unfold is_digit; lia. }
  split; [exists true, (lit "NaN"); split; [apply (WsMinus (lit "NaN"))|]; cbn; repeat (apply Forall2_cons; [unfold same_ignoring_case; lia|]); apply Forall2_nil|].
  split; [exists (lit "Infinity"); split; [apply (WsPlus (lit "Infinity"))|]; right; cbn; repeat (apply Forall2_cons; [unfold same_ignoring_case; lia|]); apply Forall2_nil|].
  split; eexists; reflexivity.
Qed.

(** ** C77 *)
Theorem C77_shortest_text_that_reads_back : forall f, finite64 f -> real f <> 0%R ->
  exists u ds x,
    into_string (from_f64 f) = Ok ((if negative f then lit "-" else []) ++ u)
    /\ plain u ds x /\ significant ds /\ (List.length ds <= 17)%nat
    /\ (forall t neg d' x' n, decimal_text t neg d' x' -> into_f64 (VStr t) = Ok f -> d' < 10 ^ Z.of_nat n ->
        (List.length ds <= n)%nat
        /\ (n = List.length ds ->
            (Rabs (real f - signed_real (negative f) (IZR (dec_val ds) * powerRZ 10 x))
             <= Rabs (real f - signed_real neg (IZR d' * powerRZ 10 x')))%R
            (* two equally near: the one of greater magnitude *)
            /\ (Rabs (real f - signed_real (negative f) (IZR (dec_val ds) * powerRZ 10 x))
                = Rabs (real f - signed_real neg (IZR d' * powerRZ 10 x')) ->
                IZR d' * powerRZ 10 x' <= IZR (dec_val ds) * powerRZ 10 x)%R)).
Proof.
  intros f [V Fi] Nz. destruct f as [s|s| |s m e]; try contradiction.
  destruct (shortest_dec (S754_finite s m e) s m e) as [d x] eqn:Es.
  destruct (shortest_full s m e d x V Es) as (P & M & B).
  destruct (render_plain d x ltac:(lia) M) as (ds & Sg & Vd & Pl).
  assert (Lo : 10 ^ (Z.of_nat (List.length ds) - 1) <= d).
  { destruct Sg as (N & F & H & _). destruct ds as [|c ds]; [congruence|]. cbn [hd] in H.
    inversion F as [|? ? Dc Fc]; subst. cbn [List.length dec_val]. rewrite Nat2Z.inj_succ.
    replace (Z.succ _ - 1) with (Z.of_nat (List.length ds)) by lia. pose proof (dec_val_nonneg ds Fc). unfold is_digit in Dc. nia. }
  assert (LE : forall n, d < 10 ^ Z.of_nat n -> (List.length ds <= n)%nat).
  { intros n Hn. assert (Z.of_nat (List.length ds) - 1 < Z.of_nat n) by (apply (Z.pow_lt_mono_r_iff 10); lia). lia. }
  exists (render_dec d x), ds, x. split.
  { cbn [into_string from_f64 print_f64 negative]. rewrite Es. destruct s; reflexivity. }
  split; [exact Pl|]. split; [exact Sg|]. split; [apply LE; exact (proj2 P)|].
  intros t neg d' x' n T R Bd. cbn [into_f64] in R. rewrite (parse_decimal _ _ _ _ T) in R. injection R as R.
  assert (P' : 0 < d').
  { destruct T as (u & _ & T). apply decimal_nonneg in T. destruct (Z.eq_dec d' 0) as [->|]; [discriminate R | lia]. }
  pose proof (reads_sign _ _ _ _ _ _ P' R) as Es'.
  subst neg. destruct (B d' x' (Z.of_nat n) ltac:(lia) R) as [B1 B2]. split; [now apply LE|].
  intros ->. specialize (B2 Lo). rewrite Vd, real_mag. cbn [negative]. rewrite !signed_abs. exact B2.
Qed.
Print Assumptions C77_shortest_text_that_reads_back.
Theorem C77_other_texts : forall s,
  into_string (from_f64 (S754_zero s)) = Ok (if s then lit "-0" else lit "0")
  /\ into_string (from_f64 (S754_infinity s)) = Ok (if s then lit "-inf" else lit "inf")
  /\ into_string (from_f64 S754_nan) = Ok (lit "NaN").
Proof. intros s. split; [|split]; reflexivity. Qed.
Print Assumptions C77_other_texts.
(** 1/3, 2^50 + 1/4 (a tie between .2 and .3) and 5e-324. *)
Example C77_example :
  into_string (from_f64 (dec_to_f64 false 33333333333333333333 (-20))) = Ok (lit "0.3333333333333333")
  /\ into_string (from_f64 (S754_finite true 4503599627370497 (-2))) = Ok (lit "-1125899906842624.3")
  /\ into_string (from_f64 (dec_to_f64 false 123 (-3))) = Ok (lit "0.123")
  /\ f64_valid (S754_finite true 4503599627370497 (-2)) = true.
Proof. split; [|split; [|split]]; vm_compute; reflexivity. Qed.
