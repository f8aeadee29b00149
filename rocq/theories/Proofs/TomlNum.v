(** Numbers and words of TOML text are read back as written. *)
From Coq Require Import ZArith Reals Bool String Lia.
From Coq Require Import Floats.SpecFloat.
From Coq Require Import List.
Import ListNotations.
From Verif.Model Require Import Text Num Flt Value Toml TomlText.
From Verif.Spec Require Import Numerals FloatSpec.
From Verif.Proofs Require Import Basics Conversions FloatText TomlLex.
Local Open Scope Z_scope.

Definition no_lead (ds : list Z) : Prop := ds <> [] /\ Forall is_digit ds /\ (hd 0 ds = 0 -> ds = [0]).
Definition dig (c : char) : bool := digit_char c.

Lemma dig_spec c : digit_char c = true <-> 48 <= c <= 57.
Proof. unfold digit_char. rewrite andb_true_iff, !Z.leb_le. tauto. Qed.
Lemma dig_text ds : Forall is_digit ds -> forallb digit_char (digit_text ds) = true.
Proof.
  induction 1 as [|d ds H F IH]; [reflexivity|]. cbn [digit_text map forallb]. fold (digit_text ds). rewrite IH, andb_true_r.
  apply dig_spec. unfold is_digit in H. lia.
Qed.
Lemma dig_tok c : digit_char c = true -> token_char c = true.
Proof. unfold token_char, bare_char. intros ->. now rewrite !orb_true_r. Qed.

Lemma underscored_all (f : char -> bool) s : s <> [] -> forallb f s = true -> f 95 = false -> underscored f s = Some s.
Proof.
  induction s as [|c s IH]; intros N A U; [congruence|]. cbn [forallb] in A. apply andb_true_iff in A as [A1 A2]. cbn [underscored]. rewrite A1.
  destruct s as [|x s]; [reflexivity|]. assert (x <> 95). { intros ->. cbn [forallb] in A2. rewrite U in A2. discriminate A2. }
  replace (x =? 95) with false by (symmetry; now apply Z.eqb_neq). rewrite IH by (auto; discriminate). reflexivity.
Qed.
Lemma underscored_stop s c t : forallb digit_char s = true -> digit_char c = false -> c <> 95 -> underscored digit_char (s ++ c :: t) = None.
Proof.
  intros A C N. induction s as [|x s IH]; cbn [app underscored]; [now rewrite C|]. cbn [forallb] in A. apply andb_true_iff in A as [A1 A2]. rewrite A1.
  specialize (IH A2). destruct s as [|y s]; cbn [app] in *.
  - replace (c =? 95) with false by (symmetry; now apply Z.eqb_neq). now rewrite IH.
  - replace (y =? 95) with false. + now rewrite IH.
    + cbn [forallb] in A2. apply andb_true_iff in A2 as [A2 _]. apply dig_spec in A2. symmetry. apply Z.eqb_neq. lia.
Qed.
Lemma number_in_app l1 l2 : number_in 10 (l1 ++ l2) = fold_left (fun a c => 10 * a + match hex_val c with Some x => x | None => 0 end) l2 (number_in 10 l1).
Proof. unfold number_in. apply fold_left_app. Qed.
Lemma number_in_text ds : Forall is_digit ds -> number_in 10 (digit_text ds) = dec_val ds.
Proof.
  induction ds as [|d ds IH] using rev_ind; intros F; [reflexivity|]. apply Forall_app in F as [F1 F2]. inversion F2; subst.
  rewrite digit_text_app, number_in_app, IH by auto. cbn [digit_text map fold_left].
  rewrite dec_val_app. cbn [List.length dec_val]. change (Z.of_nat 1) with 1. change (Z.of_nat 0) with 0.
  unfold hex_val. replace (digit_char (48 + d)) with true by (symmetry; apply dig_spec; unfold is_digit in *; lia). lia.
Qed.
Lemma lead_ok ds : no_lead ds -> dec_digits_ok (digit_text ds) = true.
Proof.
  intros (N & F & H). destruct ds as [|d [|d' ds]]; [congruence | |].
  - unfold digit_text, dec_digits_ok. cbn [map]. destruct (48 + d) as [|p|p]; try reflexivity. do 6 (destruct p as [p|p|]; try reflexivity).
  - assert (d <> 0). { intros ->. specialize (H eq_refl). discriminate H. }
    unfold digit_text, dec_digits_ok. cbn [map]. destruct (48 + d) as [|p|p] eqn:E; try reflexivity. do 6 (destruct p as [p|p|]; try reflexivity; try lia).
Qed.
Lemma dec_part_text ds : no_lead ds -> dec_part (digit_text ds) = Some (digit_text ds).
Proof.
  intros L. pose proof L as (N & F & _). unfold dec_part. rewrite underscored_all; auto using dig_text.
  - now rewrite lead_ok.
  - destruct ds; [congruence | discriminate].
Qed.

(** *** The text of a float *)
Definition point_zero (s : str) : str := if existsb (Z.eqb 46) s then s else s ++ lit ".0".
Lemma no_point ds : Forall is_digit ds -> existsb (Z.eqb 46) (digit_text ds) = false.
Proof.
  induction 1 as [|d ds H F IH]; [reflexivity|]. cbn [digit_text map existsb]. fold (digit_text ds). rewrite IH, orb_false_r.
  apply Z.eqb_neq. unfold is_digit in H. lia.
Qed.
Lemma point_zero_no s : existsb (Z.eqb 46) s = false -> point_zero s = s ++ lit ".0".
Proof. unfold point_zero. now intros ->. Qed.
Lemma point_zero_has s : existsb (Z.eqb 46) s = true -> point_zero s = s.
Proof. unfold point_zero. now intros ->. Qed.
Lemma has_point a b : existsb (Z.eqb 46) (a ++ 46 :: b) = true.
Proof. rewrite existsb_app. cbn [existsb]. rewrite Z.eqb_refl. now rewrite orb_true_r. Qed.
Lemma hd_firstn (k : nat) (D : list Z) : (0 < k)%nat -> hd 0 (firstn k D) = hd 0 D.
Proof. destruct k; [lia|]. destruct D; reflexivity. Qed.

Lemma render_form d e : 0 < d -> exists a b, no_lead a /\ b <> [] /\ Forall is_digit b /\
  ((render_dec d e = digit_text a /\ b = [0]) \/ render_dec d e = digit_text a ++ 46 :: digit_text b).
Proof.
  intros H. unfold render_dec. destruct (print_nat_spec d ltac:(lia)) as (x & ds & -> & F & V & H1 & _). specialize (H1 H).
  set (D := x :: ds) in *. assert (HD : hd 0 D <> 0) by (cbn; lia). assert (ND : D <> []) by discriminate. clearbody D.
  destruct (0 <=? e) eqn:Ee.
  - rewrite zeros_text, <- digit_text_app. exists (D ++ repeat 0 (Z.to_nat e)), [0]. split; [|split; [discriminate | split; [repeat constructor; unfold is_digit; lia | left; auto]]].
    split; [intros E; apply app_eq_nil in E; tauto|]. split; [apply Forall_app; auto using repeat_digits|].
    destruct D; [congruence|]. cbn [app hd] in *. congruence.
  - apply Z.leb_gt in Ee. rewrite digit_text_length. destruct (- e <? Z.of_nat (List.length D)) eqn:En.
    + apply Z.ltb_lt in En. set (k := Z.to_nat (Z.of_nat (List.length D) + e)). assert (Hk : (0 < k < List.length D)%nat) by (unfold k; lia).
      exists (firstn k D), (skipn k D). unfold digit_text. rewrite firstn_map, skipn_map.
      split; [|split; [|split; [|right; reflexivity]]].
      * split; [intros E; apply (f_equal (@List.length Z)) in E; rewrite firstn_length in E; cbn in E; lia|].
        split; [apply Forall_forall; intros y Hy; rewrite Forall_forall in F; apply F; eapply In_firstn; eauto|].
        rewrite hd_firstn by lia. congruence.
      * intros E. apply (f_equal (@List.length Z)) in E. rewrite skipn_length in E. cbn in E. lia.
      * apply Forall_forall; intros y Hy; rewrite Forall_forall in F; apply F; eapply In_skipn; eauto.
    + rewrite zeros_text, <- digit_text_app. exists [0], (repeat 0 (Z.to_nat (- e - Z.of_nat (List.length D))) ++ D).
      split; [|split; [|split; [|right; reflexivity]]].
      * split; [discriminate|]. split; [repeat constructor; unfold is_digit; lia | auto].
      * intros E; apply app_eq_nil in E; tauto.
      * apply Forall_app; auto using repeat_digits.
Qed.

Definition sign_text (s : bool) : str := if s then [45] else [].
(** Finite floats: sign, digits without leading zeros, a point, digits. *)
Lemma print_float_form f : f64_valid f = true -> (exists s, f = S754_zero s) \/ (exists s m e, f = S754_finite s m e) ->
  exists s a b, no_lead a /\ b <> [] /\ Forall is_digit b /\ print_float f = sign_text s ++ digit_text a ++ 46 :: digit_text b /\
    parse_f64 (print_float f) = Some f.
Proof.
  intros V [(s & ->)|(s & m & e & ->)].
  - exists s, [0], [0]. split; [split; [discriminate | split; [repeat constructor; unfold is_digit; lia | auto]]|]. split; [discriminate|].
    split; [repeat constructor; unfold is_digit; lia|]. destruct s; split; reflexivity.
  - pose proof (print_parse _ V) as PP. change (print_float (S754_finite s m e)) with (point_zero (print_f64 (S754_finite s m e))).
    assert (PF : print_f64 (S754_finite s m e) = sign_text s ++ (let '(d, ex) := shortest_dec (S754_finite s m e) s m e in render_dec d ex)).
    { cbn [print_f64]. now destruct (shortest_dec _ _ _ _). }
    rewrite PF in *. clear PF.
    destruct (shortest_dec (S754_finite s m e) s m e) as [d x] eqn:Es. destruct (shortest_sound s m e d x V Es) as [P D].
    destruct (render_form d x P) as (a & b & La & Nb & Fb & [[R Eb]|R]); exists s, a, b; (split; [exact La | split; [exact Nb | split; [exact Fb|]]]).
    + assert (Fa : Forall is_digit a) by apply La. rewrite R in PP |- *.
      assert (NP : existsb (Z.eqb 46) (sign_text s ++ digit_text a) = false).
      { rewrite existsb_app, no_point by auto. destruct s; reflexivity. }
      rewrite (point_zero_no _ NP). subst b. split; [now rewrite <- app_assoc|].
      assert (D1 : decimal_text (sign_text s ++ digit_text a) s (dec_val a) 0).
      { exists (digit_text a). split; [destruct s; [apply (WsMinus (digit_text a)) | apply WsNone]|].
        rewrite <- (app_nil_r (digit_text a)). apply (DecInt a [] 0); auto. - apply La. - constructor. }
      rewrite (parse_decimal _ _ _ _ D1) in PP. rewrite <- PP.
      assert (Pa : 0 < dec_val a).
      { destruct a as [|y a]; [destruct La; congruence|]. inversion Fa as [|? ? Fy Fa']; subst.
        pose proof (dec_val_nonneg a Fa') as Na. cbn [dec_val]. destruct (Z.eq_dec y 0) as [->|Ny].
        - destruct La as (_ & _ & L). specialize (L eq_refl). injection L as ->. exfalso. cbn [dec_val] in PP.
          assert (dec_to_f64 s (0 * 10 ^ Z.of_nat (List.length (@nil Z)) + 0) 0 = S754_zero s) by (destruct s; reflexivity). congruence.
        - assert (0 < 10 ^ Z.of_nat (List.length a)) by (apply Z.pow_pos_nonneg; lia). unfold is_digit in Fy. nia. }
      rewrite (parse_decimal _ s (dec_val (a ++ [0])) (0 - 1)).
      * f_equal. assert (Va : dec_val (a ++ [0]) = dec_val a * 10).
        { rewrite dec_val_app. cbn [List.length dec_val]. change (Z.of_nat 1) with 1. change (Z.of_nat 0) with 0. lia. }
        rewrite Va. apply dec_same; [lia | lia|]. rewrite mult_IZR. change (powerRZ 10 (0 - 1)) with (/ (10 * 1))%R. change (powerRZ 10 0) with 1%R. field.
      * exists (digit_text a ++ lit "." ++ digit_text [0] ++ []). split.
        -- rewrite <- !app_assoc. destruct s; [apply (WsMinus (digit_text a ++ lit "." ++ digit_text [0] ++ [])) | apply WsNone].
        -- apply (DecPoint a [0] [] 0); auto; [intros E; apply app_eq_nil in E; destruct E; discriminate | constructor].
    + rewrite R in PP |- *.
      rewrite point_zero_has by (rewrite app_assoc; apply has_point). split; [reflexivity | exact PP].
Qed.

(** *** Tokens *)
Definition dec_token (s : str) : option toml_value :=
  let '(neg, u) := sign_of s in
  match dec_part u with
  | Some ds => int_in_range (if neg then - number_in 10 ds else number_in 10 ds)
  | None =>
    match float_value s with
    | Some f => Some f
    | None => match date_value s with Some d => Some (TvDate d) | None => None end
    end
  end.
Definition no_base (s : str) : Prop := match s with a :: b :: _ => a = 48 -> b <> 120 /\ b <> 111 /\ b <> 98 | _ => True end.
Lemma token_dec s : str_eqb s (lit "true") = false -> str_eqb s (lit "false") = false ->
  str_eqb (snd (sign_of s)) (lit "inf") = false -> str_eqb (snd (sign_of s)) (lit "nan") = false -> no_base s ->
  token_value s = dec_token s.
Proof.
  intros T F I N B. unfold token_value, dec_token. rewrite T, F. destruct (sign_of s) as [neg u]. cbn [snd] in I, N. rewrite I, N.
  destruct s as [|a [|b s]]; try reflexivity.
  - destruct a as [|p|p]; try reflexivity. do 6 (destruct p as [p|p|]; try reflexivity).
  - cbn [no_base] in B. destruct (Z.eq_dec a 48) as [->|Na].
    + destruct (B eq_refl) as (B1 & B2 & B3). destruct b as [|p|p]; try reflexivity. do 7 (destruct p as [p|p|]; try reflexivity; try congruence).
    + destruct a as [|p|p]; try reflexivity. do 6 (destruct p as [p|p|]; try reflexivity; try congruence).
Qed.
Lemma str_eqb_head c t d u : c <> d -> str_eqb (c :: t) (d :: u) = false.
Proof. intros N. apply not_true_is_false. intros E. apply str_eqb_eq in E. congruence. Qed.
Definition digit_head (u : str) : Prop := match u with c :: _ => digit_char c = true | [] => False end.
Lemma sign_of_text sg u : digit_head u -> sign_of (sign_text sg ++ u) = (sg, u).
Proof.
  intros H. destruct sg; [reflexivity|]. destruct u as [|c u]; [destruct H|]. cbn in H. apply dig_spec in H. cbn [sign_text app sign_of].
  destruct c as [|p|p]; try reflexivity. do 6 (destruct p as [p|p|]; try reflexivity; try lia).
Qed.
Lemma token_number sg u : digit_head u -> no_base (sign_text sg ++ u) -> token_value (sign_text sg ++ u) = dec_token (sign_text sg ++ u).
Proof.
  intros H B. assert (E := sign_of_text sg u H). destruct u as [|c u]; [destruct H|]. cbn in H. apply dig_spec in H.
  apply token_dec; auto; try rewrite E; cbn [snd].
  - destruct sg; [reflexivity|]. apply (str_eqb_head c u 116). lia.
  - destruct sg; [reflexivity|]. apply (str_eqb_head c u 102). lia.
  - apply (str_eqb_head c u 105). lia.
  - apply (str_eqb_head c u 110). lia.
Qed.
Lemma digit_head_text a r : no_lead a -> digit_head (digit_text a ++ r).
Proof.
  intros (N & F & _). destruct a as [|d a]; [congruence|]. inversion F; subst. cbn [digit_text map app digit_head]. apply dig_spec. unfold is_digit in *. lia.
Qed.
Lemma no_base_text sg a r : no_lead a -> match r with c :: _ => c <> 120 /\ c <> 111 /\ c <> 98 | [] => True end -> no_base (sign_text sg ++ digit_text a ++ r).
Proof.
  intros (N & F & _) R. destruct a as [|d a]; [congruence|]. destruct sg; [intros [=]|]. cbn [sign_text app digit_text map]. fold (digit_text a).
  destruct a as [|d' a].
  - cbn [digit_text map app]. unfold no_base. destruct r; auto.
  - cbn [digit_text map app]. unfold no_base. intros _. inversion F as [|? ? _ F']; subst. inversion F'; subst. unfold is_digit in *. lia.
Qed.

Lemma print_int_form z : exists sg a, no_lead a /\ print_int z = sign_text sg ++ digit_text a /\ z = (if sg then - dec_val a else dec_val a).
Proof.
  unfold print_int. destruct (z <? 0) eqn:E.
  - apply Z.ltb_lt in E. destruct (print_nat_spec (- z) ltac:(lia)) as (d & ds & P & F & V & H1 & _). exists true, (d :: ds).
    split; [|split; [now rewrite P | lia]]. split; [discriminate | split; auto]. cbn. lia.
  - apply Z.ltb_ge in E. destruct (print_nat_spec z ltac:(lia)) as (d & ds & P & F & V & H1 & H0). exists false, (d :: ds).
    split; [|split; [now rewrite P | lia]]. split; [discriminate | split; auto]. cbn [hd]. intros ->.
    destruct (Z.eq_dec z 0) as [Z0|Z0]; [destruct (H0 Z0) as [_ ->]; reflexivity | lia].
Qed.
Lemma token_int z : fits I64 z -> token_value (print_int z) = Some (TvInt z).
Proof.
  intros F. destruct (print_int_form z) as (sg & a & La & -> & V). rewrite <- (app_nil_r (digit_text a)).
  rewrite token_number by (auto using digit_head_text, no_base_text). unfold dec_token. rewrite sign_of_text by auto using digit_head_text.
  rewrite app_nil_r, dec_part_text by auto. rewrite number_in_text by apply La. rewrite <- V.
  unfold int_in_range. apply in_range_fits in F. now rewrite F.
Qed.
Lemma span_none f s : forallb f s = true -> span f s = (s, []).
Proof. intros H. rewrite <- (app_nil_r s) at 1. apply span_all; auto. exact I. Qed.
Lemma float_text_value sg a b f : no_lead a -> b <> [] -> Forall is_digit b ->
  parse_f64 (sign_text sg ++ digit_text a ++ 46 :: digit_text b) = Some f -> f <> S754_infinity false ->
  float_value (sign_text sg ++ digit_text a ++ 46 :: digit_text b) = Some (TvFloat f).
Proof.
  intros La Nb Fb P NI. unfold float_value. rewrite sign_of_text by auto using digit_head_text.
  assert (Da : forallb (not_one_of [46; 101; 69]) (digit_text a) = true).
  { apply forallb_forall. intros c H. assert (D := dig_text a (proj1 (proj2 La))). rewrite forallb_forall in D. apply D, dig_spec in H.
    unfold not_one_of. cbn [existsb]. lia. }
  rewrite span_all by (auto; reflexivity).
  rewrite span_none.
  2:{ cbn [forallb]. apply andb_true_iff. split; [reflexivity|]. apply forallb_forall. intros c H. assert (D := dig_text b Fb). rewrite forallb_forall in D.
      apply D, dig_spec in H. unfold not_one_of. cbn [existsb]. lia. }
  rewrite dec_part_text by auto. cbn [frac_part]. rewrite Z.eqb_refl. rewrite underscored_all; auto using dig_text.
  2:{ destruct b; [congruence | discriminate]. }
  cbn [exp_part]. rewrite app_nil_r.
  match goal with |- context [parse_f64 ?x] => change (parse_f64 x) with (parse_f64 (sign_text sg ++ digit_text a ++ 46 :: digit_text b)) end. rewrite P.
  destruct f as [|[]| |]; congruence.
Qed.
Lemma token_float_text sg a b f : no_lead a -> b <> [] -> Forall is_digit b ->
  parse_f64 (sign_text sg ++ digit_text a ++ 46 :: digit_text b) = Some f -> f <> S754_infinity false ->
  token_value (sign_text sg ++ digit_text a ++ 46 :: digit_text b) = Some (TvFloat f).
Proof.
  intros La Nb Fb P NI. pose proof (float_text_value _ _ _ _ La Nb Fb P NI) as FV.
  rewrite token_number; [ | now apply digit_head_text | now apply no_base_text].
  unfold dec_token. rewrite sign_of_text by now apply digit_head_text. rewrite FV.
  replace (dec_part (digit_text a ++ 46 :: digit_text b)) with (@None str); [reflexivity|].
  unfold dec_part. rewrite underscored_stop; auto; [apply dig_text, La | discriminate].
Qed.
Lemma token_float f : f64_valid f = true -> token_value (print_float f) = Some (TvFloat f).
Proof.
  intros V. destruct f as [s|s| |s m e] eqn:Ef.
  2:{ destruct s; reflexivity. } 2: reflexivity.
  all: rewrite <- Ef in *; assert (K : (exists s, f = S754_zero s) \/ (exists s m e, f = S754_finite s m e)) by (subst; eauto);
    destruct (print_float_form f V K) as (sg & a & b & La & Nb & Fb & E & P); rewrite E in *; apply token_float_text; auto; subst; discriminate.
Qed.

Lemma token_chars_text sg a r : no_lead a -> forallb token_char r = true -> forallb token_char (sign_text sg ++ digit_text a ++ r) = true.
Proof.
  intros La R. rewrite !forallb_app, R, andb_true_r. apply andb_true_iff. split; [destruct sg; reflexivity|].
  apply forallb_forall. intros c H. assert (D := dig_text a (proj1 (proj2 La))). rewrite forallb_forall in D. now apply dig_tok, D.
Qed.
Lemma token_chars_int z : forallb token_char (print_int z) = true.
Proof. destruct (print_int_form z) as (sg & a & La & -> & V). rewrite <- (app_nil_r (digit_text a)). now apply token_chars_text. Qed.
Lemma token_chars_float f : f64_valid f = true -> forallb token_char (print_float f) = true.
Proof.
  intros V. destruct f as [s|s| |s m e] eqn:Ef.
  2:{ destruct s; reflexivity. } 2: reflexivity.
  all: rewrite <- Ef in *; assert (K : (exists s, f = S754_zero s) \/ (exists s m e, f = S754_finite s m e)) by (subst; eauto);
    destruct (print_float_form f V K) as (sg & a & b & La & Nb & Fb & -> & P); apply token_chars_text; auto;
    cbn [forallb]; apply andb_true_iff; (split; [reflexivity|]); apply forallb_forall; intros c H; assert (D := dig_text b Fb);
    rewrite forallb_forall in D; now apply dig_tok, D.
Qed.

(** What follows a value. *)
Inductive ends_value : str -> Prop :=
| EvEnd : ends_value []
| EvLine t : ends_value (10 :: t)
| EvComma t : ends_value (44 :: t)
| EvBracket t : ends_value (93 :: t)
| EvBrace t : ends_value (32 :: 125 :: t).
Lemma ends_not_quote r : ends_value r -> not_quote r.
Proof. intros []; reflexivity || exact I. Qed.
Lemma token_end_read s rest : forallb token_char s = true -> ends_value rest -> token_end (s ++ rest) = (s, rest).
Proof.
  intros T E. unfold token_end. rewrite span_all; auto; [|destruct E; reflexivity || exact I]. destruct E; reflexivity.
Qed.
