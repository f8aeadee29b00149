(** Proofs about integer, string, boolean and char conversions. *)
From Coq Require Import ZArith List Bool Lia String.
From Coq Require Import ZifyBool.
From Coq Require Import Floats.SpecFloat.
Import ListNotations.
From Verif.Model Require Import Text Num Flt Value Convert.
From Verif.Spec Require Import Spec Numerals.
From Verif.Proofs Require Import Basics.
Open Scope Z_scope.

(** ** Ranges *)
Lemma in_range_fits t z : in_range t z = true <-> fits t z.
Proof.
  unfold in_range, fits. rewrite andb_true_iff, !Z.leb_le.
  destruct t; cbn [imin imax bits is_signed]; split; intros H; try (split; intros; cbn; lia);
    destruct H as [H1 H2]; try specialize (H1 I); try specialize (H2 (fun x => x)); cbn in *; lia.
Qed.
Lemma in_range_false t z : in_range t z = false <-> ~ fits t z.
Proof. rewrite <- in_range_fits. destruct (in_range t z); split; congruence. Qed.
Lemma ity_name_type_name t : ity_name t = type_name t.
Proof. destruct t; reflexivity. Qed.

Lemma to_number_ok z from t : fits t z -> to_number z from t = Ok z.
Proof. intros F; unfold to_number, try_from. apply in_range_fits in F; now rewrite F. Qed.
Lemma to_number_err z from t : ~ fits t z -> to_number z from t = Err (EConversion from (type_name t) out_of_bounds).
Proof.
  intros F; unfold to_number, try_from. apply in_range_false in F; rewrite F.
  now rewrite ity_name_type_name.
Qed.

Lemma into_int_int v z src t : wf v -> int_value v z src ->
  (fits t z -> into_int t v = Ok z)
  /\ (~ fits t z -> into_int t v = Err (EConversion src (type_name t) (lit "Number value is out of target bounds"))).
Proof.
  intros W H; inversion H; subst; cbn in W; apply in_range_fits in W;
  (split; intros F; [destruct t; cbn [into_int]; auto using to_number_ok |
     destruct t; cbn [into_int]; try (apply to_number_err; exact F);
     exfalso; apply F; clear - W;
     destruct W as [W1 W2]; cbn in *; try specialize (W1 I); try specialize (W2 (fun x => x));
     split; cbn; intros; try tauto; lia]).
Qed.

(** ** From and back *)
Lemma from_int_wf t z : fits t z -> wf (from_int t z).
Proof.
  intros F; destruct t; cbn [from_int wf]; apply in_range_fits; destruct F as [F1 F2];
    try specialize (F1 I); try specialize (F2 (fun x => x)); cbn in *; split; cbn; intros; try tauto; lia.
Qed.
Lemma from_int_value t z : exists src, int_value (from_int t z) z src.
Proof. destruct t; eexists; constructor. Qed.
Lemma from_into_int t z : fits t z -> into_int t (from_int t z) = Ok z.
Proof.
  intros F. destruct (from_int_value t z) as [src H].
  apply (into_int_int _ _ _ t (from_int_wf t z F) H), F.
Qed.
(** Conversions across types: value-preserving whenever possible. *)
Lemma from_into_int_cross t u z : fits t z -> fits u z -> into_int u (from_int t z) = Ok z.
Proof.
  intros F G. destruct (from_int_value t z) as [src H].
  apply (into_int_int _ _ _ u (from_int_wf t z F) H), G.
Qed.

(** ** Digits *)
Lemma digit_val_spec c d : digit_val c = Some d <-> is_digit d /\ c = 48 + d.
Proof.
  unfold digit_val, is_digit. destruct ((48 <=? c) && (c <=? 57)) eqn:E; split; intros H.
  - injection H as <-; lia.
  - f_equal; lia.
  - discriminate.
  - lia.
Qed.

Lemma parse_digits_text acc ds : Forall is_digit ds ->
  parse_digits acc (digit_text ds) = Some (acc * 10 ^ Z.of_nat (List.length ds) + dec_val ds).
Proof.
  revert acc; induction ds as [|d ds IH]; intros acc F.
  - cbn [digit_text map parse_digits dec_val List.length]. change (Z.of_nat 0) with 0.
    rewrite Z.pow_0_r. f_equal; lia.
  - inversion F as [|? ? Hd F']; subst. cbn [digit_text map parse_digits].
    rewrite (proj2 (digit_val_spec (48 + d) d)) by auto.
    change (map (fun d => 48 + d) ds) with (digit_text ds). rewrite IH by auto.
    f_equal. cbn [dec_val List.length]. rewrite Nat2Z.inj_succ, Z.pow_succ_r by lia. ring.
Qed.
Lemma parse_digits_inv s acc z : parse_digits acc s = Some z ->
  exists ds, s = digit_text ds /\ Forall is_digit ds.
Proof.
  revert acc; induction s as [|c s IH]; intros acc H.
  - exists []; auto.
  - cbn in H. destruct (digit_val c) as [d|] eqn:E; [|discriminate].
    apply digit_val_spec in E as [Hd ->]. destruct (IH _ H) as (ds & -> & F).
    exists (d :: ds); split; auto.
Qed.
Lemma parse_digits_iff s z : parse_digits 0 s = Some z <->
  exists ds, s = digit_text ds /\ Forall is_digit ds /\ z = dec_val ds.
Proof.
  split.
  - intros H. destruct (parse_digits_inv _ _ _ H) as (ds & -> & F).
    rewrite parse_digits_text in H by auto. injection H as <-. exists ds; repeat split; auto.
  - intros (ds & -> & F & ->). now rewrite parse_digits_text by auto.
Qed.
Lemma digit_text_nil ds : digit_text ds = [] <-> ds = [].
Proof. destruct ds; split; intros H; auto; discriminate. Qed.

Lemma signed_iff t : signed t = true <-> is_signed t.
Proof. destruct t; cbn; split; try tauto; discriminate. Qed.

Lemma parse_int_spec t s z : parse_int t s = Some z <-> numeral t s z /\ fits t z.
Proof.
  unfold parse_int. split.
  - destruct s as [|c rest]; [discriminate|].
    destruct (c =? 43) eqn:E43; [|destruct ((c =? 45) && signed t) eqn:E45].
    + destruct rest as [|r0 rest]; [discriminate|].
      destruct (parse_digits 0 (r0 :: rest)) as [n|] eqn:P; [|discriminate].
      unfold try_from; destruct (in_range t n) eqn:R; [|discriminate].
      intros H; injection H as <-. apply in_range_fits in R. split; auto.
      apply parse_digits_iff in P as (ds & E & F & ->). rewrite E.
      apply Z.eqb_eq in E43 as ->. change (43 :: digit_text ds) with (lit "+" ++ digit_text ds).
      constructor; auto. intros ->; discriminate.
    + destruct rest as [|r0 rest]; [discriminate|].
      destruct (parse_digits 0 (r0 :: rest)) as [n|] eqn:P; [|discriminate].
      unfold try_from; destruct (in_range t (- n)) eqn:R; [|discriminate].
      intros H; injection H as <-. apply in_range_fits in R. split; auto.
      apply parse_digits_iff in P as (ds & E & F & ->). rewrite E.
      apply andb_true_iff in E45 as [E45 Sg]. apply Z.eqb_eq in E45 as ->.
      change (45 :: digit_text ds) with (lit "-" ++ digit_text ds).
      constructor; auto; [now apply signed_iff | intros ->; discriminate].
    + destruct (parse_digits 0 (c :: rest)) as [n|] eqn:P; [|discriminate].
      unfold try_from; destruct (in_range t n) eqn:R; [|discriminate].
      intros H; injection H as <-. apply in_range_fits in R. split; auto.
      apply parse_digits_iff in P as (ds & E & F & ->). rewrite E.
      constructor; auto. intros ->; discriminate.
  - intros [H F]. apply in_range_fits in F. inversion H as [ds N D E1 E2|ds N D E1 E2|ds Sg N D E1 E2]; subst.
    + destruct ds as [|d ds]; [congruence|].
      assert (Hd : is_digit d) by (inversion D; subst; assumption). unfold is_digit in Hd.
      change (digit_text (d :: ds)) with ((48 + d) :: digit_text ds). cbv beta iota.
      destruct (48 + d =? 43) eqn:E43; [lia|]. destruct (48 + d =? 45) eqn:E45; [lia|]. cbn [andb].
      change ((48 + d) :: digit_text ds) with (digit_text (d :: ds)).
      rewrite parse_digits_text by auto. unfold try_from. now rewrite Z.mul_0_l, Z.add_0_l, F.
    + change (lit "+" ++ digit_text ds) with (43 :: digit_text ds). cbn [Z.eqb Pos.eqb].
      destruct (digit_text ds) eqn:E; [apply (proj1 (digit_text_nil ds)) in E; congruence|]. rewrite <- E.
      rewrite parse_digits_text by auto. unfold try_from. now rewrite Z.mul_0_l, Z.add_0_l, F.
    + change (lit "-" ++ digit_text ds) with (45 :: digit_text ds). cbn [Z.eqb Pos.eqb andb].
      rewrite (proj2 (signed_iff t) Sg).
      destruct (digit_text ds) eqn:E; [apply (proj1 (digit_text_nil ds)) in E; congruence|]. rewrite <- E.
      rewrite parse_digits_text by auto. unfold try_from. now rewrite Z.mul_0_l, Z.add_0_l, F.
Qed.

Lemma into_int_string t s z : into_int t (VStr s) = Ok z <-> numeral t s z /\ fits t z.
Proof.
  rewrite <- parse_int_spec. cbn. destruct (parse_int t s); split; intros H; try discriminate; congruence.
Qed.
Lemma into_int_string_err t s : (forall z, ~ (numeral t s z /\ fits t z)) ->
  into_int t (VStr s) = Err (EConversion (lit "String") (type_name t) (lit "can't parse string")).
Proof.
  intros H. cbn. destruct (parse_int t s) as [z|] eqn:E.
  - exfalso; apply (H z). now apply parse_int_spec.
  - rewrite ity_name_type_name; reflexivity.
Qed.

(** ** Printing integers *)
Lemma dec_val_nonneg ds : Forall is_digit ds -> 0 <= dec_val ds.
Proof.
  induction ds as [|d ds IH]; intros F; [cbn; lia|]. inversion F; subst. cbn [dec_val].
  specialize (IH H2). unfold is_digit in H1. assert (0 <= 10 ^ Z.of_nat (List.length ds)) by (apply Z.pow_nonneg; lia). nia.
Qed.
Lemma dec_val_bound ds : Forall is_digit ds -> dec_val ds < 10 ^ Z.of_nat (List.length ds).
Proof.
  induction ds as [|d ds IH]; intros F; [cbn; lia|]. inversion F; subst. cbn [dec_val List.length].
  specialize (IH H2). unfold is_digit in H1. rewrite Nat2Z.inj_succ, Z.pow_succ_r by lia. nia.
Qed.
Lemma dec_val_app a b : dec_val (a ++ b) = dec_val a * 10 ^ Z.of_nat (List.length b) + dec_val b.
Proof.
  induction a as [|d a IH]; cbn [app dec_val]; [lia|].
  rewrite IH, app_length, Nat2Z.inj_add, Z.pow_add_r by lia. ring.
Qed.

Lemma dec_digits_spec fuel n acc : 0 <= n -> (Z.to_nat (Z.log2 n) < fuel)%nat ->
  exists d ds, dec_digits fuel n acc = digit_text (d :: ds) ++ acc
    /\ Forall is_digit (d :: ds) /\ dec_val (d :: ds) = n /\ (0 < n -> 1 <= d) /\ (n = 0 -> d = 0 /\ ds = []).
Proof.
  revert n acc; induction fuel as [|f IH]; intros n acc Hn Hf; [lia|].
  cbn [dec_digits]. destruct (n <? 10) eqn:E.
  - exists n, []. cbn. repeat split; try lia; auto. constructor; [unfold is_digit; lia | constructor].
  - assert (H10 : 10 <= n) by lia.
    assert (Hq : 0 <= n / 10) by (apply Z.div_pos; lia).
    assert (Hlt : n / 10 < n) by (apply Z.div_lt; lia).
    assert (Hlog : Z.log2 (n / 10) < Z.log2 n).
    { apply Z.log2_lt_pow2; [apply Z.div_str_pos; lia|].
      pose proof (Z.log2_spec n ltac:(lia)) as [L1 L2]. 
      assert (3 <= Z.log2 n) by (apply Z.log2_le_pow2; lia).
      replace (Z.succ (Z.log2 n)) with (1 + Z.log2 n) in L2 by lia.
      rewrite Z.pow_add_r in L2 by lia. apply Z.div_lt_upper_bound; lia. }
    destruct (IH (n / 10) ((48 + n mod 10) :: acc) Hq) as (d & ds & E1 & F & V & P & _).
    { pose proof (Z.log2_nonneg (n/10)). lia. }
    exists d, (ds ++ [n mod 10]).
    assert (Hm : is_digit (n mod 10)) by (unfold is_digit; pose proof (Z.mod_pos_bound n 10); lia).
    split; [|split; [|split; [|split]]].
    + rewrite E1. unfold digit_text. cbn [map app]. rewrite map_app. cbn [map].
      rewrite <- app_assoc. reflexivity.
    + inversion F; subst. constructor; auto. apply Forall_app; split; auto.
    + change (d :: ds ++ [n mod 10]) with ((d :: ds) ++ [n mod 10]). rewrite dec_val_app, V.
      cbn [List.length dec_val]. change (Z.of_nat 1) with 1. change (Z.of_nat 0) with 0. rewrite Z.pow_1_r, Z.pow_0_r.
      pose proof (Z_div_mod_eq_full n 10). lia.
    + intros _. apply P. apply Z.div_str_pos; lia.
    + lia.
Qed.

Lemma print_nat_spec n : 0 <= n -> exists d ds, print_nat n = digit_text (d :: ds)
  /\ Forall is_digit (d :: ds) /\ dec_val (d :: ds) = n /\ (0 < n -> 1 <= d) /\ (n = 0 -> d = 0 /\ ds = []).
Proof.
  intros Hn. destruct (dec_digits_spec (S (Z.to_nat (Z.log2 n))) n [] Hn ltac:(lia)) as (d & ds & E & H).
  exists d, ds. unfold print_nat. rewrite E, app_nil_r. auto.
Qed.

Lemma print_int_canonical z : canonical (print_int z) z.
Proof.
  unfold print_int. destruct (z <? 0) eqn:E.
  - destruct (print_nat_spec (- z) ltac:(lia)) as (d & ds & P & F & V & H1 & _). rewrite P.
    change (45 :: digit_text (d :: ds)) with (lit "-" ++ digit_text (d :: ds)).
    replace z with (- dec_val (d :: ds)) by lia.
    inversion F; subst. constructor; auto. specialize (H1 ltac:(lia)). unfold is_digit in *; lia.
  - destruct (print_nat_spec z ltac:(lia)) as (d & ds & P & F & V & H1 & H0). rewrite P.
    destruct (Z.eq_dec z 0) as [->|N].
    + destruct (H0 eq_refl) as [-> ->]. constructor.
    + assert (V' := V). rewrite <- V. inversion F; subst. constructor; auto. specialize (H1 ltac:(lia)). unfold is_digit in *; lia.
Qed.

Lemma canonical_numeral t s z : (z < 0 -> is_signed t) -> canonical s z -> numeral t s z.
Proof.
  intros Hs H; inversion H; subst.
  - change (lit "0") with (digit_text [0]). change 0 with (dec_val [0]) at 2. constructor; [discriminate|].
    repeat constructor; cbn; lia.
  - constructor; [discriminate|]. constructor; auto. unfold is_digit; lia.
  - constructor; auto; [|discriminate | constructor; auto; unfold is_digit; lia].
    apply Hs. assert (0 <= dec_val ds) by (apply dec_val_nonneg; auto). cbn [dec_val].
    assert (0 < 10 ^ Z.of_nat (List.length ds)) by (apply Z.pow_pos_nonneg; lia). nia.
Qed.

Lemma fits_signed t z : fits t z -> z < 0 -> is_signed t.
Proof. intros [F1 F2] H. destruct t; cbn in *; auto; specialize (F2 (fun x => x)); lia. Qed.

Lemma int_string_round_trip t z : fits t z ->
  exists s, into_string (from_int t z) = Ok s /\ canonical s z /\ into_int t (from_str s) = Ok z.
Proof.
  intros F. exists (print_int z). split; [destruct t; reflexivity|]. split; [apply print_int_canonical|].
  apply into_int_string. split; auto. apply canonical_numeral; [|apply print_int_canonical].
  intros; eapply fits_signed; eauto.
Qed.

(** A canonical numeral has only one value. *)
Lemma numeral_fun t s z z' : numeral t s z -> numeral t s z' -> z = z'.
Proof.
  assert (INJ : forall a b, digit_text a = digit_text b -> a = b).
  { induction a as [|x a IH]; intros [|y b] E; cbn [digit_text map] in E; try discriminate; auto.
    pose proof (f_equal (hd 0) E) as E1; pose proof (f_equal (@tl Z) E) as E2; cbn [hd tl] in E1, E2.
    f_equal; [lia | now apply IH]. }
  assert (HD : forall ds c rest, Forall is_digit ds -> digit_text ds = c :: rest -> 48 <= c <= 57).
  { intros ds c rest F E. destruct ds; cbn [digit_text map] in E; [discriminate|].
    pose proof (f_equal (hd 0) E) as E1; cbn [hd] in E1. inversion F; subst. unfold is_digit in *; lia. }
  enough (G : forall s s' z z', numeral t s z -> numeral t s' z' -> s = s' -> z = z') by eauto.
  clear s z z'. intros s s' z z' H H' E.
  destruct H as [ds N D|ds N D|ds Sg N D], H' as [ds' N' D'|ds' N' D'|ds' Sg' N' D'];
  change (lit "+") with [43] in E; change (lit "-") with [45] in E; cbn [app] in E; try discriminate.
  - apply INJ in E; subst; auto.
  - apply HD in E; auto; lia.
  - apply HD in E; auto; lia.
  - symmetry in E. apply HD in E; auto; lia.
  - pose proof (f_equal (@tl Z) E) as E2; cbn [tl] in E2. apply INJ in E2; subst; auto.
  - symmetry in E. apply HD in E; auto; lia.
  - pose proof (f_equal (@tl Z) E) as E2; cbn [tl] in E2. apply INJ in E2; subst; auto.
Qed.
Lemma print_int_inj a b : print_int a = print_int b -> a = b.
Proof.
  intros E. eapply (numeral_fun I128).
  - apply canonical_numeral; [intros; exact I | apply print_int_canonical].
  - rewrite E. apply canonical_numeral; [intros; exact I | apply print_int_canonical].
Qed.

(** ** Booleans *)
Lemma lower_char_ascii c d : (97 <= d <= 122) -> d <> 105 -> d <> 107 ->
  (lower_char c = [d] <-> same_ignoring_case c d).
Proof.
  intros Hd N1 N2. unfold lower_char, same_ignoring_case.
  destruct ((65 <=? c) && (c <=? 90)) eqn:E1; [split; intros H; [injection H as <-; lia | f_equal; lia]|].
  destruct (c =? 8490) eqn:E2; [split; intros H; [injection H as H | exfalso]; lia|].
  destruct (c =? 304) eqn:E3; [split; intros H; [discriminate | exfalso; lia]|].
  split; intros H; [injection H as <-; auto | f_equal; lia].
Qed.
Lemma lower_char_cases c : (exists d, lower_char c = [d]) \/ lower_char c = [105; 775].
Proof. unfold lower_char. repeat destruct (_ : bool); eauto. Qed.

Lemma to_lowercase_lit w s :
  Forall (fun d => 97 <= d <= 122 /\ d <> 105 /\ d <> 107) w ->
  (to_lowercase s = w <-> Forall2 same_ignoring_case s w).
Proof.
  revert w; induction s as [|c s IH]; intros w F; cbn [to_lowercase flat_map].
  - split; [intros <-; constructor | intros H; inversion H; auto].
  - destruct w as [|d w].
    + split; [|intros H; inversion H]. intros H. destruct (lower_char_cases c) as [[x E]|E]; rewrite E in H; discriminate.
    + inversion F as [|? ? Hd F']; subst. specialize (IH w F'). destruct Hd as (Hd & N1 & N2).
      destruct (lower_char_cases c) as [[x E]|E].
      * rewrite E; cbn [app]. split.
        -- intros H; injection H as -> H. constructor; [now apply lower_char_ascii | now apply IH].
        -- intros H; inversion H as [|? ? ? ? Hc Hs]; subst. apply lower_char_ascii in Hc; auto.
           rewrite E in Hc; injection Hc as ->. f_equal. now apply IH.
      * rewrite E; cbn [app]. split.
        -- intros H; injection H as <- H. congruence.
        -- intros H; inversion H as [|? ? ? ? Hc Hs]; subst. apply lower_char_ascii in Hc; auto. congruence.
Qed.

Lemma into_bool_string s :
  (into_bool (VStr s) = Ok true <-> Forall2 same_ignoring_case s (lit "true"))
  /\ (into_bool (VStr s) = Ok false <-> Forall2 same_ignoring_case s (lit "false"))
  /\ (~ Forall2 same_ignoring_case s (lit "true") -> ~ Forall2 same_ignoring_case s (lit "false") ->
      into_bool (VStr s) = Err (EConversion (lit "String") (lit "bool") (lit "can't parse string as boolean"))).
Proof.
  rewrite <- !to_lowercase_lit by (repeat constructor; vm_compute; congruence).
  cbn [into_bool]. destruct (str_eqb_spec (to_lowercase s) (lit "true")) as [->|N];
    [|destruct (str_eqb_spec (to_lowercase s) (lit "false")) as [->|N']].
  - repeat split; try congruence; try discriminate.
  - repeat split; try congruence; try discriminate.
  - repeat split; intros; try congruence; try discriminate.
Qed.
Lemma into_bool_int v z src : int_value v z src -> into_bool v = Ok (negb (z =? 0)).
Proof. intros H; inversion H; subst; reflexivity. Qed.
Lemma into_bool_float f : into_bool (VFloat f) = Ok (match f with S754_zero _ => false | _ => true end).
Proof.
  cbn. f_equal. unfold f64_nonzero, f64_eqb, SFeqb. destruct f as [s|s| |s m e]; cbn; auto; destruct s; auto.
Qed.

(** ** Chars *)
Lemma into_char_int v z src : int_value v z src ->
  (0 <= z <= 255 -> into_char v = Ok z)
  /\ (~ 0 <= z <= 255 -> exists src', into_char v = Err (EConversion src' (lit "u8") (lit "Number value is out of target bounds"))
        /\ (src' = src \/ (src = lit "u128" /\ src' = lit "i64"))).
Proof.
  assert (F : forall z, fits U8 z <-> 0 <= z <= 255).
  { intros; unfold fits; cbn; split; [intros [_ H]; specialize (H (fun x => x)); lia | intros; split; [tauto | lia]]. }
  intros H; inversion H; subst; cbn [into_char]; (split; intros R; [rewrite to_number_ok; auto; now apply F|]);
    rewrite <- F in R; rewrite to_number_err by auto; eexists; split; try reflexivity; auto.
Qed.

(** ** No scalar *)
Lemma no_scalar_err v kind : no_scalar v kind ->
  into_bool v = Err (EConversion kind (lit "bool") (lit "conversion not supported"))
  /\ (forall t, into_int t v = Err (EConversion kind (type_name t) (lit "conversion not supported")))
  /\ into_f64 v = Err (EConversion kind (lit "f64") (lit "conversion not supported"))
  /\ into_char v = Err (EConversion kind (lit "char") (lit "conversion not supported"))
  /\ into_string v = Err (EConversion kind (lit "String") (lit "conversion not supported")).
Proof.
  intros H; inversion H; subst; repeat split; intros; cbn; rewrite ?ity_name_type_name; reflexivity.
Qed.
Lemma into_or_spec {A} (conv : value -> result A model_error) v d :
  (forall x, conv v = Ok x -> into_or conv v d = x)
  /\ (forall e, conv v = Err e -> into_or conv v d = d).
Proof. unfold into_or; split; intros ? ->; reflexivity. Qed.

(** ** Option, Vec, HashMap *)
Lemma from_map_fold {T} (into : T -> value) (m : list (str * T)) acc :
  NoDup (map fst m) -> (forall k, In k (map fst m) -> ~ In k (map fst acc)) ->
  fold_left (fun acc e => minsert (fst e) (into (snd e)) acc) m acc
  = acc ++ map (fun e => (fst e, into (snd e))) m.
Proof.
  revert acc; induction m as [|[k x] m IH]; intros acc ND H; cbn [fold_left map fst snd].
  - now rewrite app_nil_r.
  - inversion ND; subst. rewrite minsert_keys_new by (apply H; left; auto).
    rewrite IH; [now rewrite <- app_assoc | auto |].
    intros k' Hk'. rewrite map_app, in_app_iff; cbn. intros [Hin|[E|[]]].
    + eapply H; [right|]; eauto.
    + subst; auto.
Qed.
Lemma from_map_holds {T} (into : T -> value) (m : list (str * T)) :
  NoDup (map fst m) ->
  (forall k v, holds (from_map into m) k v <-> exists x, In (k, x) m /\ v = into x)
  /\ v_len (from_map into m) = List.length m.
Proof.
  intros ND. unfold from_map. rewrite from_map_fold; [|auto|intros; cbn; tauto]. cbn [app].
  split; [|cbn; apply map_length].
  intros k v. rewrite holds_map, in_map_iff. split.
  - intros ([k' x] & E & H). injection E as <- <-; eauto.
  - intros (x & H & ->). exists (k, x); auto.
Qed.
Lemma from_vec_at {T} (into : T -> value) (l : list T) i x :
  nth_error l i = Some x -> v_at (from_vec into l) i = into x.
Proof. intros H; cbn. now rewrite nth_error_map, H. Qed.

(** ** Packaging *)
Lemma into_int_no_wrap v z src t n : wf v -> int_value v z src ->
  into_int t v = Ok n -> n = z /\ fits t z.
Proof.
  intros W I E. destruct (into_int_int v z src t W I) as [H1 H2].
  destruct (in_range t z) eqn:R.
  - apply in_range_fits in R. rewrite H1 in E by auto. injection E as <-; auto.
  - apply in_range_false in R. rewrite H2 in E by auto. discriminate.
Qed.
Lemma from_into_int_wf t z : fits t z -> wf (from_int t z) /\ into_int t (from_int t z) = Ok z.
Proof. split; [now apply from_int_wf | now apply from_into_int]. Qed.
Lemma from_into_int_cross_iff t u z : fits t z ->
  (fits u z -> into_int u (from_int t z) = Ok z)
  /\ (~ fits u z -> exists e, into_int u (from_int t z) = Err e).
Proof.
  intros F. destruct (from_int_value t z) as [src H].
  destruct (into_int_int _ _ _ u (from_int_wf t z F) H) as [A B]. split; [exact A|].
  intros N; eexists; now apply B.
Qed.
Lemma scalars_round_trip :
  (forall b, into_bool (from_bool b) = Ok b)
  /\ (forall f, into_f64 (from_f64 f) = Ok f)
  /\ (forall s, into_string (from_str s) = Ok s)
  /\ (forall c s, into_char (from_str (c :: s)) = Ok c).
Proof. repeat split. Qed.
Lemma from_containers (T : Type) (into : T -> value) :
  from_option into None = VNone
  /\ (forall x, from_option into (Some x) = into x)
  /\ (forall l, v_len (from_vec into l) = List.length l
        /\ (forall i x, nth_error l i = Some x -> v_at (from_vec into l) i = into x)
        /\ (forall i, (List.length l <= i)%nat -> v_at (from_vec into l) i = VNone))
  /\ (forall m, NoDup (map fst m) ->
        (forall k v, holds (from_map into m) k v <-> exists x, In (k, x) m /\ v = into x)
        /\ (forall k x, In (k, x) m -> v_get (from_map into m) k = into x)
        /\ v_len (from_map into m) = List.length m).
Proof.
  split; [reflexivity|]. split; [reflexivity|]. split.
  - intros l. split; [cbn; apply map_length|]. split; [intros; now apply from_vec_at|].
    intros i H. cbn. now rewrite (proj2 (nth_error_None _ _)) by (now rewrite map_length).
  - intros m ND. destruct (from_map_holds into m ND) as [H L]. split; [exact H|]. split; [|exact L].
    intros k x Hin. unfold from_map in *. rewrite from_map_fold by (auto; intros; cbn; tauto). cbn [app v_get].
    rewrite (In_mget k (into x)); auto.
    + rewrite map_map; cbn; auto.
    + apply in_map_iff. exists (k, x); auto.
Qed.
Lemma int_strings_distinct t u a b s :
  into_string (from_int t a) = Ok s -> into_string (from_int u b) = Ok s -> a = b.
Proof.
  assert (P : forall t z, into_string (from_int t z) = Ok (print_int z)) by (intros []; reflexivity).
  rewrite !P. intros E F. apply print_int_inj. congruence.
Qed.
Lemma canonical_print s z : canonical s z -> s = print_int z.
Proof.
  assert (LEN : forall d ds d' ds', 1 <= d <= 9 -> 1 <= d' <= 9 -> Forall is_digit ds -> Forall is_digit ds' ->
     dec_val (d :: ds) = dec_val (d' :: ds') -> List.length ds = List.length ds').
  { intros d ds d' ds' H H' F F' E.
    assert (B : forall d ds, 1 <= d <= 9 -> Forall is_digit ds ->
       10 ^ Z.of_nat (List.length ds) <= dec_val (d :: ds) < 10 ^ (Z.of_nat (List.length ds) + 1)).
    { clear. intros d ds H F. pose proof (dec_val_nonneg ds F). pose proof (dec_val_bound ds F).
      cbn [dec_val]. rewrite Z.pow_add_r by lia. change (10 ^ 1) with 10. nia. }
    pose proof (B d ds H F) as B1. pose proof (B d' ds' H' F') as B2. rewrite E in B1.
    assert (Z.of_nat (List.length ds) < Z.of_nat (List.length ds') + 1) by (apply (Z.pow_lt_mono_r_iff 10); lia).
    assert (Z.of_nat (List.length ds') < Z.of_nat (List.length ds) + 1) by (apply (Z.pow_lt_mono_r_iff 10); lia).
    lia. }
  assert (EQ : forall l l', Forall is_digit l -> Forall is_digit l' -> List.length l = List.length l' ->
     dec_val l = dec_val l' -> l = l').
  { induction l as [|x l IH]; intros [|y l'] F F' L E; try discriminate; auto.
    inversion F; inversion F'; subst. injection L as L. cbn [dec_val] in E. rewrite L in E.
    pose proof (dec_val_nonneg l H2). pose proof (dec_val_bound l H2).
    pose proof (dec_val_nonneg l' H6). pose proof (dec_val_bound l' H6). rewrite L in H0.
    assert (x = y) by nia. subst. f_equal. apply IH; auto. nia. }
  assert (POS : forall d ds, 1 <= d <= 9 -> Forall is_digit ds -> 0 < dec_val (d :: ds)).
  { intros d ds H F. pose proof (dec_val_nonneg ds F). cbn [dec_val].
    assert (0 < 10 ^ Z.of_nat (List.length ds)) by (apply Z.pow_pos_nonneg; lia). nia. }
  intros H. pose proof (print_int_canonical z) as P.
  remember (print_int z) as s' eqn:Es. clear Es.
  inversion H; subst; inversion P; subst; auto;
   repeat match goal with
   | A : 1 <= ?d <= 9, B : Forall is_digit ?ds |- _ =>
     lazymatch goal with
     | _ : 0 < dec_val (d :: ds) |- _ => fail
     | _ => pose proof (POS d ds A B)
     end
   end; try (exfalso; cbn [dec_val] in *; lia).
  - f_equal. assert (dec_val (d :: ds) = dec_val (d0 :: ds0)) by (cbn [dec_val]; lia).
    apply EQ; try (constructor; auto; unfold is_digit; lia); auto.
    cbn [List.length]; f_equal; apply (LEN d ds d0 ds0); auto.
  - do 2 f_equal. assert (dec_val (d :: ds) = dec_val (d0 :: ds0)) by (cbn [dec_val]; lia).
    apply EQ; try (constructor; auto; unfold is_digit; lia); auto.
    cbn [List.length]; f_equal; apply (LEN d ds d0 ds0); auto.
Qed.
Lemma canonical_unique s s' z : canonical s z -> canonical s' z -> s = s'.
Proof. intros H H'. now rewrite (canonical_print _ _ H), (canonical_print _ _ H'). Qed.
Lemma into_bool_int_cases v z src : int_value v z src ->
  (z = 0 -> into_bool v = Ok false) /\ (z <> 0 -> into_bool v = Ok true).
Proof.
  intros H; rewrite (into_bool_int _ _ _ H). split; intros E; [subst; reflexivity|].
  rewrite (proj2 (Z.eqb_neq z 0) E); reflexivity.
Qed.
Lemma into_bool_float_cases :
  (forall sign, into_bool (VFloat (S754_zero sign)) = Ok false)
  /\ (forall f, (forall sign, f <> S754_zero sign) -> into_bool (VFloat f) = Ok true)
  /\ (forall b, into_bool (VBool b) = Ok b).
Proof.
  split; [|split].
  - intros; now rewrite into_bool_float.
  - intros f N. rewrite into_bool_float. destruct f; auto. now elim (N s).
  - reflexivity.
Qed.
Lemma into_char_source v z src : int_value v z src -> ~ 0 <= z <= 255 ->
  (src <> lit "u128" -> into_char v = Err (EConversion src (lit "u8") (lit "Number value is out of target bounds")))
  /\ (src = lit "u128" -> into_char v = Err (EConversion (lit "i64") (lit "u8") (lit "Number value is out of target bounds"))).
Proof.
  assert (F : forall z, fits U8 z <-> 0 <= z <= 255).
  { intros; unfold fits; cbn; split; [intros [_ H]; specialize (H (fun x => x)); lia | intros; split; [tauto | lia]]. }
  intros H R. rewrite <- F in R.
  inversion H; subst; cbn [into_char]; rewrite to_number_err by auto; split; intros E; try reflexivity;
    try (exfalso; congruence); exfalso; vm_compute in E; congruence.
Qed.
Lemma into_char_all v :
  (forall c s, v = VStr (c :: s) -> into_char v = Ok c)
  /\ (v = VStr [] -> into_char v = Err (EConversion (lit "String") (lit "char") (lit "can't parse string")))
  /\ (forall z src, int_value v z src -> 0 <= z <= 255 -> into_char v = Ok z)
  /\ (forall z src, int_value v z src -> ~ 0 <= z <= 255 ->
        exists src', into_char v = Err (EConversion src' (lit "u8") (lit "Number value is out of target bounds")))
  /\ (v = VBool true -> into_char v = Ok 49) /\ (v = VBool false -> into_char v = Ok 48)
  /\ (forall f, v = VFloat f -> into_char v = Err (EConversion (lit "Float") (lit "char") (lit "conversion not supported")))
  /\ (forall kind, no_scalar v kind ->
        into_char v = Err (EConversion kind (lit "char") (lit "conversion not supported"))).
Proof.
  repeat split; try (intros; subst; reflexivity).
  - intros z src H R; now apply (into_char_int v z src H).
  - intros z src H R. destruct (into_char_int v z src H) as [_ B]. destruct (B R) as (s' & E & _). eauto.
  - intros kind H. now apply (no_scalar_err v kind H).
Qed.
Lemma into_char_scalar v c : wf v -> into_char v = Ok c ->
  0 <= c <= 1114111 /\ ~ 55296 <= c <= 57343.
Proof.
  assert (N : forall z from, to_number z from U8 = Ok c -> 0 <= c <= 255).
  { intros z from. unfold to_number, try_from. destruct (in_range U8 z) eqn:R; [|discriminate].
    intros E; injection E as <-. unfold in_range in R; cbn in R. lia. }
  destruct v; intros W E; cbn [into_char] in E; try discriminate; try (apply N in E; lia).
  - destruct b; injection E as <-; lia.
  - destruct s as [|x s]; [discriminate|]. injection E as <-. cbn in W.
    apply andb_true_iff in W as [W _]. unfold is_scalar in W. lia.
Qed.
Lemma into_string_total v : (exists s, into_string v = Ok s) <-> ~ exists kind, no_scalar v kind.
Proof.
  split.
  - intros [s E] [kind H]. inversion H; subst; discriminate.
  - intros H. destruct v; cbn; eauto; exfalso; apply H; eexists; constructor.
Qed.
