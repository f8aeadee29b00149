(** C129: how numbers, booleans and texts may be written in a TOML file. *)
From Coq Require Import ZArith Reals Bool String Lia.
From Coq Require Import Floats.SpecFloat.
From Coq Require Import List.
Import ListNotations.
From Verif.Model Require Import Text Num Flt Value Serde Visitor Layers Toml TomlText.
From Verif.Spec Require Import Spec Numerals FloatSpec TomlSpec TomlTextSpec.
From Verif.Proofs Require Import Basics Conversions FloatText TomlProofs TomlLex TomlNum TomlValues TomlDoc TomlProper TomlSim TomlHand TomlWords.
Local Open Scope Z_scope.

(** A word is loaded as an integer exactly when it is one, of i64. *)
Theorem C129_integers : forall lim r k s z, (2 <= lim)%nat -> bare_key k -> word s ->
  (toml_from_str (toml_codec r (toml_text lim)) (setting_line k s) = Ok (VMap [(k, VInt z)]) <-> toml_integer s z /\ fits I64 z).
Proof.
  intros lim r k s z L B W. split.
  - intros E. destruct (word_loaded _ _ _ _ _ L B W E) as (t & T & V). injection V as V. destruct t; try discriminate V. injection V as <-.
    pose proof (token_integer_inv _ _ T) as I. split; [exact I|]. apply token_integer in I as (T2 & _). rewrite T in T2. unfold int_token in T2. destruct (in_range I64 z) eqn:R; [|discriminate T2]. now apply in_range_fits.
  - intros [I F]. apply token_integer in I as (T & _). apply in_range_fits in F. unfold int_token in T. rewrite F in T. exact (proj1 (word_line r lim k s L B W) _ T).
Qed.
Print Assumptions C129_integers.
Theorem C129_integers_out_of_range_are_refused : forall lim r k s z, (2 <= lim)%nat -> bare_key k -> toml_integer s z ->
  word s /\ (~ fits I64 z -> exists msg, toml_from_str (toml_codec r (toml_text lim)) (setting_line k s) = Err msg).
Proof.
  intros lim r k s z L B H. pose proof (integer_word s z H) as W. split; [exact W|]. intros F. apply (word_line r lim k s L B W). apply token_integer in H as (T & _).
  apply in_range_false in F. unfold int_token in T. now rewrite F in T.
Qed.
Print Assumptions C129_integers_out_of_range_are_refused.

(** Numbers with a fraction or an exponent are rounded to the nearest float;
    what is too great is refused; nothing else is loaded as a float. *)
Theorem C129_floats : forall lim r k s, (2 <= lim)%nat -> bare_key k -> word s ->
  (forall f, toml_from_str (toml_codec r (toml_text lim)) (setting_line k s) = Ok (VMap [(k, VFloat f)]) -> toml_float s f)
  /\ (forall neg u d e, with_sign s neg u -> toml_decimal u d e ->
        exists f, rounds_correctly (signed_real neg (IZR d * powerRZ 10 e)%R) neg f
          /\ (f <> S754_infinity false -> toml_from_str (toml_codec r (toml_text lim)) (setting_line k s) = Ok (VMap [(k, VFloat f)]))
          /\ (f = S754_infinity false -> exists msg, toml_from_str (toml_codec r (toml_text lim)) (setting_line k s) = Err msg))
  /\ (forall neg, with_sign s neg (lit "inf") -> toml_from_str (toml_codec r (toml_text lim)) (setting_line k s) = Ok (VMap [(k, VFloat (S754_infinity neg))]))
  /\ (forall neg, with_sign s neg (lit "nan") -> toml_from_str (toml_codec r (toml_text lim)) (setting_line k s) = Ok (VMap [(k, VFloat S754_nan)])).
Proof.
  intros lim r k s L B W. destruct (word_line r lim k s L B W) as [Y N]. split; [|split; [|split]].
  - intros f E. destruct (word_loaded _ _ _ _ _ L B W E) as (t & T & V). injection V as V. destruct t; try discriminate V. injection V as <-. now apply token_float_inv.
  - intros neg u d e Sg D. destruct (token_float s neg u d e Sg D) as [T P]. exists (dec_to_f64 neg d e). split; [now apply dec_rounds_correctly|]. split.
    + intros F. apply (Y (TvFloat (dec_to_f64 neg d e))). rewrite T. unfold float_result. destruct (dec_to_f64 neg d e) as [|[|]| |]; auto. congruence.
    + intros F. apply N. rewrite T, F. reflexivity.
  - intros neg Sg. exact (Y _ (inf_token _ _ Sg)).
  - intros neg Sg. exact (Y _ (nan_token _ _ Sg)).
Qed.
Print Assumptions C129_floats.
Theorem C129_decimals_are_words : forall s neg u d e, with_sign s neg u -> toml_decimal u d e -> word s.
Proof. exact decimal_word. Qed.
Print Assumptions C129_decimals_are_words.

Theorem C129_booleans : forall lim r k s b, (2 <= lim)%nat -> bare_key k -> word s ->
  (toml_from_str (toml_codec r (toml_text lim)) (setting_line k s) = Ok (VMap [(k, VBool b)]) <-> s = if b then lit "true" else lit "false").
Proof.
  intros lim r k s b L B W. rewrite <- token_bool. split.
  - intros E. destruct (word_loaded _ _ _ _ _ L B W E) as (t & T & V). injection V as V. destruct t; try discriminate V. now injection V as <-.
  - intros T. exact (proj1 (word_line r lim k s L B W) _ T).
Qed.
Print Assumptions C129_booleans.

(** Texts in quotes are taken as they stand; without quotes there is no text. *)
Theorem C129_texts : forall lim r k s, (2 <= lim)%nat -> bare_key k -> one_line s ->
  (~ In 34 s -> ~ In 92 s -> toml_from_str (toml_codec r (toml_text lim)) (setting_line k ([34] ++ s ++ [34])) = Ok (VMap [(k, VStr s)]))
  /\ (~ In 39 s -> toml_from_str (toml_codec r (toml_text lim)) (setting_line k ([39] ++ s ++ [39])) = Ok (VMap [(k, VStr s)])).
Proof.
  intros lim r k s L B O. assert (K : forall q, q = 34 \/ q = 39 -> ~ In q s -> (q = 34 -> ~ In 92 s) -> toml_from_str (toml_codec r (toml_text lim)) (setting_line k ([q] ++ s ++ [q])) = Ok (VMap [(k, VStr s)])).
  { intros q Q N1 N2. apply (line_loads r lim k _ (TvStr s)); auto.
    - rewrite !is_text_app. destruct O as [T _]. rewrite T. destruct Q as [-> | ->]; reflexivity.
    - destruct Q as [-> | ->]; reflexivity.
    - exact I.
    - intros f. rewrite value_at_eq. unfold value_step. cbn [app]. replace ((q =? 34) || (q =? 39)) with true by lia. rewrite <- app_assoc. pose proof (quoted_value q s Q O N1 N2) as E. cbn [app]. match goal with |- context [string_value ?x] => replace (string_value x) with (Some (s, [10])) by (symmetry; exact E) end. reflexivity. }
  split; [intros N1 N2; now apply K; auto | intros N; apply K; auto; discriminate].
Qed.
Print Assumptions C129_texts.
Theorem C129_words_are_not_texts : forall lim r k s v, (2 <= lim)%nat -> bare_key k -> word s ->
  toml_from_str (toml_codec r (toml_text lim)) (setting_line k s) = Ok v -> forall t, v <> VMap [(k, VStr t)].
Proof.
  intros lim r k s v L B W E t ->. destruct (word_loaded _ _ _ _ _ L B W E) as (x & T & V). injection V as V. destruct (token_leaf _ _ T) as [_ N]. destruct x; try discriminate V. exact (N _ eq_refl).
Qed.
Print Assumptions C129_words_are_not_texts.

Lemma digits_1e : spelled 10 [1; 0; 0] (lit "1_00").
Proof. apply (SpUnder 10 1 49 [0; 0] (lit "00")); [unfold digit_as; lia|]. apply (SpMore 10 0 48 [0] (lit "0")); [unfold digit_as; lia|]. apply (SpOne 10 0 48). unfold digit_as; lia. Qed.
Example C129_example : bare_key (lit "max-size") /\ word (lit "0xF_f") /\ toml_integer (lit "0xF_f") 255 /\ fits I64 255
  /\ toml_from_str (toml_codec false (toml_text 80)) (setting_line (lit "max-size") (lit "0xF_f")) = Ok (VMap [(lit "max-size", VInt 255)])
  /\ toml_integer (lit "+1_00") 100 /\ with_sign (lit "-1_00.1_00e+1_00") true (lit "1_00.1_00e+1_00") /\ toml_decimal (lit "1_00.1_00e+1_00") 100100 97
  /\ one_line (lit "C:\new")  /\ ~ In 39 (lit "C:\new") /\ one_line (lit "it's") /\ ~ In 34 (lit "it's") /\ ~ In 92 (lit "it's")
  /\ (exists msg, toml_from_str (toml_codec false (toml_text 80)) (setting_line (lit "n") (lit "007")) = Err msg).
Proof.
  assert (W : forall s, forallb token_char s = true -> s <> [] -> word s) by (intros s; apply tok_word).
  split; [split; [discriminate|]; intros c I; vm_compute in I; repeat (destruct I as [<-|I]; [lia|]); destruct I|]. split; [apply W; [reflexivity | discriminate]|].
  split. { apply (TiHex [15; 15] (lit "F_f")). apply (SpUnder 16 15 70 [15] (lit "f")); [unfold digit_as; lia|]. apply (SpOne 16 15 102). unfold digit_as; lia. }
  split; [now apply in_range_fits|]. split; [vm_compute; reflexivity|]. split; [apply (TiPlus [1; 0; 0] (lit "1_00") digits_1e); right; discriminate|]. split; [exact (WsMinus (lit "1_00.1_00e+1_00"))|].
  split. { apply (TdSome [1; 0; 0] [1; 0; 0] (lit "1_00") (lit ".1_00") (lit "e+1_00") 100 digits_1e); [right; discriminate | exact (TfrSome _ _ digits_1e) | | left; discriminate].
    exact (TexSome 101 (lit "+1_00") (lit "1_00") false [1; 0; 0] (or_introl eq_refl) (WsPlus (lit "1_00")) digits_1e). }
  assert (O : forall s, forallb (fun c => is_scalar c && (32 <=? c) && negb (c =? 127)) s = true -> one_line s).
  { intros s H. rewrite forallb_forall in H. split; [unfold is_text; apply forallb_forall; intros c I; specialize (H c I); rewrite !andb_true_iff in H; apply H|]. intros c I. specialize (H c I). rewrite !andb_true_iff in H. destruct H as [[_ H1] H2]. lia. }
  split; [now apply O|]. split; [intros I; vm_compute in I; intuition discriminate|]. split; [now apply O|]. split; [intros I; vm_compute in I; intuition discriminate|].
  split; [intros I; vm_compute in I; intuition discriminate|]. eexists. vm_compute. reflexivity.
Qed.
