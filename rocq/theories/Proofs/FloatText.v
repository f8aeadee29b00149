(** Decimal texts of floats: parsing is correctly rounded (C68) and printing
    is inverted by parsing (C16). *)
From Coq Require Import ZArith Reals Bool String Lia Lra List.
From Coq Require Import Floats.SpecFloat.
From Flocq Require Import Core BinarySingleNaN.
Import ListNotations.
From Verif.Model Require Import Text Num Flt Value Convert.
From Verif.Spec Require Import Numerals FloatSpec.
From Verif.Proofs Require Import Basics Conversions FloatBase FloatConv.
Local Open Scope Z_scope.

Definition radix10 : radix := Build_radix 10 eq_refl.
Lemma bpow10 e : bpow radix10 e = powerRZ 10 e.
Proof. exact (bpow_powerRZ radix10 e). Qed.
Lemma pow10_Z e : 0 <= e -> powerRZ 10 e = IZR (10 ^ e).
Proof. intros H. rewrite <- bpow10. symmetry. now apply (IZR_Zpower radix10). Qed.
Lemma pow10_neg q : powerRZ 10 (Z.neg q) = (/ IZR (10 ^ Z.pos q))%R.
Proof. rewrite <- pow10_Z by lia. rewrite <- !bpow10. apply (bpow_opp radix10 (Z.pos q)). Qed.

Lemma signed_mult s x y : signed_real s (x * y) = (signed_real s x * y)%R.
Proof. destruct s; cbn; ring. Qed.
Lemma signed_IZR s z : signed_real s (IZR z) = IZR (cond_Zopp s z).
Proof. destruct s; cbn [signed_real cond_Zopp]; [now rewrite opp_IZR | reflexivity]. Qed.

Lemma dec_rounds s d e : 0 < d -> rounds64 (signed_real s (IZR d * powerRZ 10 e)) s (dec_to_f64 s d e).
Proof.
  intros H. destruct d as [|p|p]; try lia. unfold dec_to_f64. destruct e as [|q|q].
  - cbn [powerRZ]. rewrite Rmult_1_r, signed_IZR.
    rewrite <- F2R_int. replace (Z.to_pos (Z.pos p * 10 ^ 0)) with p by (cbn; lia).
    apply binary_round_rounds; auto with typeclass_instances.
  - rewrite pow10_Z by lia. rewrite <- mult_IZR, signed_IZR, <- F2R_int.
    set (w := Z.pos p * 10 ^ Z.pos q). assert (W : 0 < w) by (unfold w; lia).
    rewrite <- (Z2Pos.id w) at 1 by auto. apply binary_round_rounds; auto with typeclass_instances.
  - rewrite pow10_neg, signed_mult, signed_IZR.
    assert (W : 0 < 10 ^ Z.pos q) by lia. destruct (10 ^ Z.pos q) as [|w|w] eqn:E; try lia.
    apply div_rounds; auto with typeclass_instances.
Qed.

(** The result depends only on the number denoted. *)
Lemma dec_same s d e d' e' : 0 < d -> 0 < d' -> (IZR d * powerRZ 10 e = IZR d' * powerRZ 10 e')%R ->
  dec_to_f64 s d e = dec_to_f64 s d' e'.
Proof.
  intros H H' E. eapply (rounds_to_unique 53 1024); [apply dec_rounds; auto|]. rewrite E. now apply dec_rounds.
Qed.
Lemma dec_zero s e : rounds_correctly (signed_real s (IZR 0 * powerRZ 10 e)) s (dec_to_f64 s 0 e).
Proof.
  apply rounds_correct. cbn [dec_to_f64].
  replace (signed_real s (0 * powerRZ 10 e)) with (SF2R radix2 (S754_zero s)) by (cbn; destruct s; cbn; ring).
  exact (self_rounds 53 1024 (S754_zero s) eq_refl eq_refl).
Qed.
Lemma dec_rounds_correctly s d e : 0 <= d ->
  rounds_correctly (signed_real s (IZR d * powerRZ 10 e)) s (dec_to_f64 s d e).
Proof.
  intros H. destruct (Z.eq_dec d 0) as [->|N]; [apply dec_zero | apply rounds_correct, dec_rounds; lia].
Qed.

(** ** Grammar *)
Definition no_digit (r : str) : Prop := match r with c :: _ => digit_val c = None | [] => True end.

Lemma digit_val_digit d : is_digit d -> digit_val (48 + d) = Some d.
Proof. intros H. apply digit_val_spec; auto. Qed.
Lemma span_digits_text ds r : Forall is_digit ds -> no_digit r ->
  span_digits (digit_text ds ++ r) = (digit_text ds, r).
Proof.
  intros F N. induction F as [|d ds D F IH].
  - cbn. destruct r as [|c r]; cbn in *; auto. now rewrite N.
  - change (digit_text (d :: ds) ++ r) with ((48 + d) :: (digit_text ds ++ r)). cbn [span_digits].
    rewrite digit_val_digit, IH by auto. reflexivity.
Qed.
Lemma span_digits_inv s a b : span_digits s = (a, b) ->
  exists ds, a = digit_text ds /\ Forall is_digit ds /\ s = a ++ b /\ no_digit b.
Proof.
  revert a b; induction s as [|c s IH]; intros a b H; cbn in H.
  - injection H as <- <-. exists []. repeat split; auto.
  - destruct (digit_val c) as [d|] eqn:E.
    + destruct (span_digits s) as [a' b'] eqn:Es. injection H as <- <-.
      destruct (IH _ _ eq_refl) as (ds & -> & F & -> & N). apply digit_val_spec in E as [D ->].
      exists (d :: ds). repeat split; auto.
    + injection H as <- <-. exists []. repeat split; auto.
Qed.
Lemma digits_val_text ds : Forall is_digit ds -> digits_val (digit_text ds) = dec_val ds.
Proof. intros F. unfold digits_val. rewrite parse_digits_text by auto. lia. Qed.
Lemma digit_text_app a b : digit_text (a ++ b) = digit_text a ++ digit_text b.
Proof. apply map_app. Qed.
Lemma digit_text_length a : List.length (digit_text a) = List.length a.
Proof. apply map_length. Qed.

Lemma parse_exp_spec s e : parse_exp s = Some e <-> exponent s e.
Proof.
  split.
  - destruct s as [|c t]; cbn [parse_exp]; [intros [= <-]; constructor|].
    destruct ((c =? 101) || (c =? 69)) eqn:Ec; [|discriminate].
    assert (Hc : c = 101 \/ c = 69) by lia.
    destruct t as [|x u]; [discriminate|].
    destruct (x =? 45) eqn:E45; [|destruct (x =? 43) eqn:E43].
    + assert (x = 45) by lia; subst x. destruct u as [|y u]; [discriminate|].
      destruct (parse_digits 0 (y :: u)) as [z|] eqn:Ep; [|discriminate]. intros [= <-].
      apply parse_digits_iff in Ep as (ds & Et & F & ->). rewrite Et. apply (ExpMinus c ds); auto. intros ->; discriminate.
    + assert (x = 43) by lia; subst x. destruct u as [|y u]; [discriminate|].
      destruct (parse_digits 0 (y :: u)) as [z|] eqn:Ep; [|discriminate]. intros [= <-].
      apply parse_digits_iff in Ep as (ds & Et & F & ->). rewrite Et. apply (ExpPlus c ds); auto. intros ->; discriminate.
    + destruct (parse_digits 0 (x :: u)) as [z|] eqn:Ep; [|discriminate]. intros [= <-].
      apply parse_digits_iff in Ep as (ds & Et & F & ->). rewrite Et. apply (ExpPlain c ds); auto. intros ->; discriminate.
  - intros H. inversion H as [|c ds Hc N F|c ds Hc N F|c ds Hc N F]; subst; [reflexivity| | |];
      cbn [parse_exp]; (replace ((c =? 101) || (c =? 69)) with true by (symmetry; lia)).
    + destruct ds as [|d ds]; [congruence|]. inversion F as [|? ? D F']; subst. unfold is_digit in D.
      change (digit_text (d :: ds)) with ((48 + d) :: digit_text ds).
      assert (E1 : (48 + d =? 45) = false) by lia. assert (E2 : (48 + d =? 43) = false) by lia.
      cbn [digit_text map] in *. rewrite E1, E2. fold (digit_text ds).
      change ((48 + d) :: digit_text ds) with (digit_text (d :: ds)).
      rewrite parse_digits_text by auto. f_equal; lia.
    + change (lit "+" ++ digit_text ds) with (43 :: digit_text ds). cbn [Z.eqb Pos.eqb].
      rewrite parse_digits_text by auto. destruct (digit_text ds) eqn:E; [apply (proj1 (digit_text_nil _)) in E; congruence|]. f_equal; lia.
    + change (lit "-" ++ digit_text ds) with (45 :: digit_text ds). cbn [Z.eqb Pos.eqb].
      rewrite parse_digits_text by auto. destruct (digit_text ds) eqn:E; [apply (proj1 (digit_text_nil _)) in E; congruence|]. f_equal; lia.
Qed.
Lemma exponent_head s e : exponent s e -> no_digit s /\ match s with c :: _ => c <> 46 | [] => True end.
Proof.
  intros H; inversion H as [|c ds Hc N F|c ds Hc N F|c ds Hc N F]; subst; cbn; auto; destruct Hc as [->| ->]; split; auto; discriminate.
Qed.

Lemma lower_word w s : Forall (fun d => 97 <= d <= 122) w ->
  eq_ignore_ascii_case s w = true <-> Forall2 same_ignoring_case s w.
Proof.
  intros F. unfold eq_ignore_ascii_case. rewrite str_eqb_eq. revert s; induction F as [|d w D F IH]; intros [|c s]; cbn [map].
  - split; auto.
  - split; [discriminate | intros H; inversion H].
  - split; [discriminate | intros H; inversion H].
  - assert (C : ascii_lower c = ascii_lower d <-> same_ignoring_case c d).
    { unfold ascii_lower, same_ignoring_case.
      replace ((65 <=? d) && (d <=? 90)) with false by (symmetry; lia).
      destruct ((65 <=? c) && (c <=? 90)) eqn:E; lia. }
    split.
    + intros H. injection H as H1 H2. constructor; [now apply C | now apply IH].
    + intros H. inversion H; subst. f_equal; [now apply C | now apply IH].
Qed.
Ltac letters := cbn; repeat (apply Forall_cons; [lia|]); apply Forall_nil.
Lemma nan_word s : eq_ignore_ascii_case s (lit "nan") = true <-> Forall2 same_ignoring_case s (lit "nan").
Proof. apply lower_word. letters. Qed.
Lemma inf_word s : eq_ignore_ascii_case s (lit "inf") = true <-> Forall2 same_ignoring_case s (lit "inf").
Proof. apply lower_word. letters. Qed.
Lemma infinity_word s : eq_ignore_ascii_case s (lit "infinity") = true <-> Forall2 same_ignoring_case s (lit "infinity").
Proof. apply lower_word. letters. Qed.

(** First characters. *)
Lemma not_word s c w d : 0 <= c <= 57 -> 97 <= d -> ~ Forall2 same_ignoring_case (c :: s) (d :: w).
Proof. intros C D H. inversion H as [|? ? ? ? S]; subst. unfold same_ignoring_case in S. lia. Qed.
Lemma eq_word_false s w : Forall (fun d => 97 <= d <= 122) w -> ~ Forall2 same_ignoring_case s w -> eq_ignore_ascii_case s w = false.
Proof. intros F N. destruct (eq_ignore_ascii_case s w) eqn:E; auto. apply lower_word in E; tauto. Qed.

Definition low_head (s : str) : Prop := match s with c :: _ => 46 <= c <= 57 /\ c <> 47 | [] => False end.
Lemma low_not_words s : low_head s ->
  eq_ignore_ascii_case s (lit "nan") = false /\ eq_ignore_ascii_case s (lit "inf") = false /\ eq_ignore_ascii_case s (lit "infinity") = false.
Proof.
  destruct s as [|c s]; [intros []|]. cbn [low_head]. intros H.
  repeat split; apply eq_word_false; try letters; (apply not_word; [lia | vm_compute; discriminate]).
Qed.

Lemma decimal_head s d e : decimal s d e -> low_head s.
Proof.
  intros H; inversion H as [ip ex e0 N F X|ip fp ex e0 N F1 F2 X]; subst.
  - destruct ip as [|x ip]; [congruence|]. inversion F; subst. unfold is_digit in *. cbn [digit_text map app low_head]. lia.
  - destruct ip as [|x ip].
    + cbn [digit_text map app]. change (low_head (46 :: (digit_text fp ++ ex))). cbn [low_head]. lia.
    + inversion F1; subst. unfold is_digit in *. cbn [digit_text map app low_head]. lia.
Qed.
Lemma decimal_nonneg s d e : decimal s d e -> 0 <= d.
Proof.
  intros H; inversion H; subst; apply dec_val_nonneg; auto. apply Forall_app; auto.
Qed.

Definition parse_body (sg : bool) (s : str) : option f64 :=
    let '(ip, r) := span_digits s in
    let '(fp, r') := match r with
                     | c :: t => if c =? 46 then span_digits t else ([], r)
                     | [] => ([], r)
                     end in
    match ip ++ fp with
    | [] => None
    | ds => match parse_exp r' with
            | Some ex => Some (dec_to_f64 sg (digits_val ds) (ex - Z.of_nat (List.length fp)))
            | None => None
            end
    end.

Lemma body_decimal sg s d e : decimal s d e -> parse_body sg s = Some (dec_to_f64 sg d e).
Proof.
  intros H; inversion H as [ip ex e0 N F X|ip fp ex e0 N F1 F2 X]; subst; unfold parse_body.
  - destruct (exponent_head _ _ X) as [X1 X2]. rewrite span_digits_text by auto.
    assert (E : (match ex with c :: t => if c =? 46 then span_digits t else ([], ex) | [] => ([], ex) end) = ([], ex)).
    { destruct ex as [|c t]; auto. replace (c =? 46) with false by (symmetry; lia). reflexivity. }
    rewrite E, app_nil_r. apply parse_exp_spec in X. rewrite X.
    destruct (digit_text ip) eqn:Et; [apply (proj1 (digit_text_nil _)) in Et; congruence|]. rewrite <- Et.
    rewrite digits_val_text by auto. cbn [List.length]. now rewrite Z.sub_0_r.
  - destruct (exponent_head _ _ X) as [X1 X2].
    change (lit "." ++ digit_text fp ++ ex) with (46 :: (digit_text fp ++ ex)).
    rewrite span_digits_text by (auto; reflexivity). rewrite Z.eqb_refl. rewrite span_digits_text by auto.
    rewrite <- digit_text_app. apply parse_exp_spec in X. rewrite X.
    destruct (digit_text (ip ++ fp)) eqn:Et; [apply (proj1 (digit_text_nil _)) in Et; congruence|]. rewrite <- Et.
    rewrite digits_val_text by (apply Forall_app; auto). now rewrite digit_text_length.
Qed.
Lemma body_inv sg s f : parse_body sg s = Some f -> exists d e, decimal s d e /\ f = dec_to_f64 sg d e.
Proof.
  unfold parse_body. destruct (span_digits s) as [ip r] eqn:E1.
  apply span_digits_inv in E1 as (ips & -> & F1 & -> & N1).
  destruct r as [|c t].
  - rewrite !app_nil_r. cbn [parse_exp List.length]. destruct (digit_text ips) eqn:Et; [discriminate|]. rewrite <- Et.
    intros [= <-]. exists (dec_val ips), 0. rewrite digits_val_text by auto. split; [|reflexivity].
    rewrite <- (app_nil_r (digit_text ips)). constructor; [intros ->; discriminate | auto | constructor].
  - destruct (c =? 46) eqn:Ec.
    + assert (c = 46) by lia; subst c. destruct (span_digits t) as [fp r'] eqn:E2.
      apply span_digits_inv in E2 as (fps & -> & F2 & -> & N2). rewrite <- digit_text_app.
      destruct (digit_text (ips ++ fps)) eqn:Et; [discriminate|]. rewrite <- Et.
      destruct (parse_exp r') as [ex|] eqn:Ex; [|discriminate]. intros [= <-].
      apply parse_exp_spec in Ex. exists (dec_val (ips ++ fps)), (ex - Z.of_nat (List.length fps)).
      rewrite digits_val_text by (apply Forall_app; auto). rewrite digit_text_length. split; [|reflexivity].
      change (46 :: digit_text fps ++ r') with (lit "." ++ digit_text fps ++ r'). constructor; auto.
      intros E; rewrite E in Et; discriminate.
    + rewrite app_nil_r. destruct (digit_text ips) eqn:Et; [discriminate|]. rewrite <- Et.
      destruct (parse_exp (c :: t)) as [ex|] eqn:Ex; [|discriminate]. intros [= <-].
      apply parse_exp_spec in Ex. exists (dec_val ips), ex.
      rewrite digits_val_text by auto. cbn [List.length]. rewrite Z.sub_0_r. split; [|reflexivity].
      constructor; auto. intros ->; discriminate.
Qed.

Lemma unsigned_decimal sg s d e : decimal s d e -> parse_f64_unsigned sg s = Some (dec_to_f64 sg d e).
Proof.
  intros H. pose proof (decimal_head _ _ _ H) as L. apply low_not_words in L as (A & B & C).
  unfold parse_f64_unsigned. rewrite A, B, C. cbn [orb]. now apply body_decimal.
Qed.

Lemma with_sign_parse s neg u : with_sign s neg u -> match u with c :: _ => c <> 45 /\ c <> 43 | [] => False end ->
  parse_f64 s = parse_f64_unsigned neg u.
Proof.
  intros W H; inversion W; subst.
  - destruct u as [|c u]; [tauto|]. cbn [parse_f64]. replace (c =? 45) with false by (symmetry; lia).
    replace (c =? 43) with false by (symmetry; lia). reflexivity.
  - reflexivity.
  - reflexivity.
Qed.
Lemma parse_with_sign s f : parse_f64 s = Some f -> exists neg u, with_sign s neg u /\ parse_f64_unsigned neg u = Some f.
Proof.
  destruct s as [|c s]; cbn [parse_f64]; [discriminate|].
  destruct (c =? 45) eqn:E; [assert (c = 45) by lia; subst; exists true, s; split; auto; apply (WsMinus s)|].
  destruct (c =? 43) eqn:E'; [assert (c = 43) by lia; subst; exists false, s; split; auto; apply (WsPlus s)|].
  intros H. exists false, (c :: s). split; auto. constructor.
Qed.
Lemma word_head_letter s d w : 97 <= d -> Forall2 same_ignoring_case s (d :: w) ->
  match s with c :: _ => c <> 45 /\ c <> 43 | [] => False end.
Proof. intros D H; inversion H as [|c ? ? ? S]; subst. unfold same_ignoring_case in S. lia. Qed.

Lemma words_disjoint s : Forall2 same_ignoring_case s (lit "inf") \/ Forall2 same_ignoring_case s (lit "infinity") ->
  ~ Forall2 same_ignoring_case s (lit "nan").
Proof.
  intros H N. inversion N as [|c d s' w S _ E1 E2]; subst.
  destruct H as [H|H]; inversion H as [|? ? ? ? S' _ E3 E4]; subst; unfold same_ignoring_case in *; lia.
Qed.

(** The three kinds of text, and nothing else. *)
Lemma parse_f64_accepts s f : parse_f64 s = Some f ->
  (nan_text s /\ f = S754_nan) \/ (exists neg, inf_text s neg /\ f = S754_infinity neg)
  \/ (exists neg d e, decimal_text s neg d e).
Proof.
  intros H. apply parse_with_sign in H as (neg & u & W & H). unfold parse_f64_unsigned in H.
  destruct (eq_ignore_ascii_case u (lit "nan")) eqn:En.
  { left. injection H as <-. split; auto. exists neg, u. split; auto. now apply nan_word. }
  destruct (eq_ignore_ascii_case u (lit "inf") || eq_ignore_ascii_case u (lit "infinity")) eqn:Ei.
  { right; left. injection H as <-. exists neg. split; auto. exists u. split; auto.
    apply orb_true_iff in Ei. rewrite inf_word, infinity_word in Ei. exact Ei. }
  right; right. apply (body_inv neg u) in H as (d & e & D & _). exists neg, d, e, u. auto.
Qed.
Lemma parse_nan s : nan_text s -> parse_f64 s = Some S754_nan.
Proof.
  intros (neg & u & W & H). rewrite (with_sign_parse _ _ _ W) by (eapply word_head_letter; [|exact H]; vm_compute; discriminate).
  unfold parse_f64_unsigned. apply nan_word in H. now rewrite H.
Qed.
Lemma parse_inf s neg : inf_text s neg -> parse_f64 s = Some (S754_infinity neg).
Proof.
  intros (u & W & H). pose proof (words_disjoint u H) as D.
  rewrite (with_sign_parse _ _ _ W) by (destruct H as [H|H]; (eapply word_head_letter; [|exact H]; vm_compute; discriminate)).
  unfold parse_f64_unsigned. rewrite (eq_word_false u (lit "nan")) by (auto; letters).
  replace (eq_ignore_ascii_case u (lit "inf") || eq_ignore_ascii_case u (lit "infinity")) with true; auto.
  symmetry. apply orb_true_iff. rewrite inf_word, infinity_word. exact H.
Qed.
Lemma parse_decimal s neg d e : decimal_text s neg d e -> parse_f64 s = Some (dec_to_f64 neg d e).
Proof.
  intros (u & W & D). rewrite (with_sign_parse _ _ _ W).
  - now apply unsigned_decimal.
  - pose proof (decimal_head _ _ _ D) as L. destruct u; cbn in *; lia.
Qed.

(** ** Printing *)
Lemma f64_same_eq a b : f64_same a b = true -> a = b.
Proof.
  destruct a as [s|s| |s m e], b as [s'|s'| |s' m' e']; cbn; try discriminate; auto.
  - intros H. apply eqb_prop in H. congruence.
  - intros H. apply eqb_prop in H. congruence.
  - rewrite !andb_true_iff. intros [[H1 H2] H3]. apply eqb_prop in H1. apply Pos.eqb_eq in H2. apply Z.eqb_eq in H3. congruence.
Qed.
Lemma search_sound f sg d e n nd c : search_digits f sg d e n nd = Some c ->
  0 < fst c /\ dec_to_f64 sg (fst c) (snd c) = f.
Proof.
  revert nd; induction n as [|n IH]; intros nd H; cbn [search_digits] in H; [discriminate|].
  destruct (find _ _) as [c'|] eqn:E; [|eauto]. injection H as ->.
  apply find_some in E as [_ E]. apply andb_true_iff in E as [E1 E2]. split; [lia | now apply f64_same_eq].
Qed.
Lemma exact_dec_value m e d x : exact_dec m e = (d, x) -> 0 < d /\ (IZR d * powerRZ 10 x = IZR (Zpos m) * powerRZ 2 e)%R.
Proof.
  unfold exact_dec. destruct e as [|q|q]; intros E; apply pair_equal_spec in E as [<- <-].
  - change (2 ^ 0) with 1. rewrite Z.mul_1_r. split; [lia | reflexivity].
  - split; [lia|]. rewrite mult_IZR. change (powerRZ 10 0) with 1%R. rewrite Rmult_1_r. f_equal.
    rewrite <- bpow2. apply (IZR_Zpower radix2). lia.
  - split; [lia|]. rewrite mult_IZR, pow10_neg, Rmult_assoc. f_equal.
    change (powerRZ 2 (Z.neg q)) with (powerRZ 2 (- Z.pos q)). rewrite <- bpow2, bpow_opp.
    replace (bpow radix2 (Z.pos q)) with (IZR (2 ^ Z.pos q)) by (apply (IZR_Zpower radix2); lia).
    replace (10 ^ Z.pos q) with (5 ^ Z.pos q * 2 ^ Z.pos q) by (rewrite <- Z.pow_mul_l; reflexivity).
    rewrite mult_IZR. field. split; apply not_0_IZR; lia.
Qed.
Lemma strip_zeros_value fuel d e d' e' : 0 < d -> strip_zeros fuel d e = (d', e') ->
  0 < d' /\ (IZR d * powerRZ 10 e = IZR d' * powerRZ 10 e')%R.
Proof.
  revert d e; induction fuel as [|fuel IH]; intros d e H E; cbn [strip_zeros] in E.
  - injection E as <- <-. auto.
  - destruct (d mod 10 =? 0) eqn:M; [|injection E as <- <-; auto].
    apply Z.eqb_eq in M. apply IH in E as [E1 E2].
    + split; auto. rewrite <- E2. pose proof (Z.div_mod d 10 ltac:(lia)) as D. rewrite M, Z.add_0_r in D.
      rewrite D at 1. rewrite mult_IZR. rewrite <- !bpow10, bpow_plus. change (bpow radix10 1) with (IZR 10). ring.
    + apply Z.div_str_pos. pose proof (Z.div_mod d 10 ltac:(lia)). lia.
Qed.
Lemma shortest_sound s m e d x : f64_valid (S754_finite s m e) = true ->
  shortest_dec (S754_finite s m e) s m e = (d, x) -> 0 < d /\ dec_to_f64 s d x = S754_finite s m e.
Proof.
  intros V. unfold shortest_dec. destruct (exact_dec m e) as [d0 x0] eqn:E0.
  destruct (exact_dec_value m e d0 x0 E0) as [P0 V0].
  assert (D0 : dec_to_f64 s d0 x0 = S754_finite s m e).
  { apply (rounds_self 53 1024 (signed_real s (IZR d0 * powerRZ 10 x0)) (S754_finite s m e) s V eq_refl eq_refl).
    - rewrite V0, <- real_SF2R. reflexivity.
    - now apply dec_rounds. }
  assert (G : exists d1 x1, match search_digits (S754_finite s m e) s d0 x0 17 1 with Some c => c | None => (d0, x0) end = (d1, x1)
     /\ 0 < d1 /\ dec_to_f64 s d1 x1 = S754_finite s m e).
  { destruct (search_digits _ _ _ _ _ _) as [[d1 x1]|] eqn:Es.
    - exists d1, x1. split; auto. exact (search_sound _ _ _ _ _ _ _ Es).
    - exists d0, x0. auto. }
  destruct G as (d1 & x1 & -> & P1 & D1). intros St.
  destruct (strip_zeros_value _ _ _ _ _ P1 St) as [P V1]. split; auto.
  rewrite <- D1. apply dec_same; auto.
Qed.

Lemma zeros_text n : zeros n = digit_text (repeat 0 (Z.to_nat n)).
Proof. unfold zeros, digit_text. generalize (Z.to_nat n) as k. intros k; induction k; cbn [repeat map]; [reflexivity|]. now rewrite IHk. Qed.
Lemma repeat_digits n : Forall is_digit (repeat 0 n).
Proof. apply Forall_forall. intros x H. apply repeat_spec in H as ->. unfold is_digit; lia. Qed.
Lemma In_firstn {A} k (l : list A) y : In y (firstn k l) -> In y l.
Proof. rewrite <- (firstn_skipn k l) at 2. intros H; apply in_or_app; auto. Qed.
Lemma In_skipn {A} k (l : list A) y : In y (skipn k l) -> In y l.
Proof. rewrite <- (firstn_skipn k l) at 2. intros H; apply in_or_app; auto. Qed.
Lemma dec_val_zeros n : dec_val (repeat 0 n) = 0.
Proof. induction n; cbn [repeat dec_val]; lia. Qed.

(** The rendered text denotes d * 10^e. *)
Lemma render_decimal d e : 0 < d -> exists d' e', decimal (render_dec d e) d' e' /\ 0 < d' /\
  (IZR d' * powerRZ 10 e' = IZR d * powerRZ 10 e)%R.
Proof.
  intros H. unfold render_dec. destruct (print_nat_spec d ltac:(lia)) as (x & ds & -> & F & V & _ & _).
  set (D := x :: ds) in *. assert (ND : D <> []) by discriminate. clearbody D.
  destruct (0 <=? e) eqn:Ee.
  - rewrite zeros_text, <- digit_text_app. exists (d * 10 ^ e), 0. split; [|split].
    + rewrite <- (app_nil_r (digit_text _)). replace (d * 10 ^ e) with (dec_val (D ++ repeat 0 (Z.to_nat e))).
      * constructor; [|apply Forall_app; auto using repeat_digits | constructor].
        intros E; apply app_eq_nil in E; tauto.
      * rewrite dec_val_app, dec_val_zeros, repeat_length, V. rewrite Z2Nat.id by lia. lia.
    + nia.
    + change (powerRZ 10 0) with 1%R. rewrite Rmult_1_r, pow10_Z by lia. apply mult_IZR.
  - exists d, e. split; [|split; auto]. rewrite digit_text_length.
    destruct (- e <? Z.of_nat (List.length D)) eqn:En.
    + set (k := Z.to_nat (Z.of_nat (List.length D) + e)).
      unfold digit_text. rewrite firstn_map, skipn_map.
      rewrite <- (firstn_skipn k D) in V.
      assert (Le : e = 0 - Z.of_nat (List.length (skipn k D))).
      { rewrite skipn_length. unfold k. lia. }
      rewrite Le at 1. rewrite <- V. rewrite <- (app_nil_r (map _ (skipn k D))).
      apply (DecPoint (firstn k D) (skipn k D) [] 0).
      * rewrite firstn_skipn; auto.
      * apply Forall_forall. intros y Hy. rewrite Forall_forall in F. apply F. eapply In_firstn; eauto.
      * apply Forall_forall. intros y Hy. rewrite Forall_forall in F. apply F. eapply In_skipn; eauto.
      * constructor.
    + rewrite zeros_text, <- digit_text_app. set (Zs := repeat 0 (Z.to_nat (- e - Z.of_nat (List.length D)))).
      assert (Le : e = 0 - Z.of_nat (List.length (Zs ++ D))).
      { rewrite app_length. unfold Zs. rewrite repeat_length. lia. }
      replace d with (dec_val ([0] ++ (Zs ++ D))).
      2:{ cbn [app dec_val]. rewrite dec_val_app. unfold Zs. rewrite dec_val_zeros. lia. }
      rewrite Le at 1. change (48 :: 46 :: digit_text (Zs ++ D)) with (digit_text [0] ++ lit "." ++ digit_text (Zs ++ D)).
      rewrite <- (app_nil_r (digit_text (Zs ++ D))). apply (DecPoint [0] (Zs ++ D) [] 0).
      * discriminate.
      * repeat constructor; unfold is_digit; lia.
      * apply Forall_app; split; auto. apply repeat_digits.
      * constructor.
Qed.

Lemma print_parse f : f64_valid f = true -> parse_f64 (print_f64 f) = Some f.
Proof.
  intros V. destruct f as [s|s| |s m e]; cbn [print_f64].
  - destruct s; reflexivity.
  - destruct s; reflexivity.
  - reflexivity.
  - destruct (shortest_dec (S754_finite s m e) s m e) as [d x] eqn:Es.
    destruct (shortest_sound s m e d x V Es) as [P D].
    destruct (render_decimal d x P) as (d' & x' & R & P' & E').
    rewrite (parse_decimal _ s d' x').
    + f_equal. rewrite <- D. apply dec_same; auto.
    + exists (render_dec d x). split; auto. destruct s; [apply (WsMinus (render_dec d x)) | apply WsNone].
Qed.
