(** C132: dates, times and long texts in TOML files. *)
From Coq Require Import ZArith Reals Bool String Lia.
From Coq Require Import Floats.SpecFloat.
From Coq Require Import List.
Import ListNotations.
From Verif.Model Require Import Text Num Flt Value Convert Serde Visitor Layers Toml TomlText.
From Verif.Spec Require Import Spec Numerals FloatSpec TomlSpec TomlTextSpec TomlDates TomlGrammar.
From Verif.Proofs Require Import Basics Conversions FloatText TomlProofs TomlLex TomlNum TomlValues TomlDoc TomlProper TomlSim TomlHand TomlWords TomlReadLong TomlReadValues TomlDates.
Local Open Scope Z_scope.

(** A word is loaded as a date or time exactly when it is one. *)
Theorem C132_dates_and_times : forall lim r k s n, (2 <= lim)%nat -> bare_key k -> word s ->
  (toml_from_str (toml_codec r (toml_text lim)) (setting_line k s) = Ok (VMap [(k, moment n)]) <-> moment_text s n).
Proof.
  intros lim r k s n L B W. rewrite <- token_date. split.
  - intros E. destruct (word_loaded _ _ _ _ _ L B W E) as (t & T & V). injection V as V. destruct t; try discriminate V.
    + cbn [doc_value] in V. injection V as ->. exact T.
    + exfalso. exact (proj1 (token_leaf _ _ T)).
  - intros T. exact (proj1 (word_line r lim k s L B W) _ T).
Qed.
Print Assumptions C132_dates_and_times.
(** So is a day and a time with a space between them, which is not one word. *)
Theorem C132_day_and_time_with_a_space : forall lim r k d t n z o, (2 <= lim)%nat -> bare_key k -> date_text d -> time_text t n -> offset_text z o ->
  toml_from_str (toml_codec r (toml_text lim)) (setting_line k (d ++ lit " " ++ t ++ z)) = Ok (VMap [(k, moment (d ++ lit "T" ++ n ++ o))]).
Proof.
  intros lim r k d t n z o L B D T O. apply (line_loads r lim k _ (TvDate (d ++ [84] ++ n ++ o))); auto.
  - assert (K : forall s, (forall c, In c s -> token_char c = true) -> is_text s = true).
    { intros s H. unfold is_text. apply forallb_forall. intros c J. specialize (H c J). unfold is_scalar, token_char, bare_char, digit_char in *. lia. }
    rewrite !is_text_app, (K d), (K t), (K z); eauto using date_chars, time_chars, offset_chars.
  - destruct (date_head d D) as (c & u & -> & C). cbn [app starts]. unfold value_start, is_ws, token_char, bare_char, digit_char in *. lia.
  - exact I.
  - intros f. apply (spaced_read lim f 0 d t n z o [10]); auto. reflexivity.
Qed.
Print Assumptions C132_day_and_time_with_a_space.

(** A word is loaded exactly when it is an integer of 64 bits, a float, a
    boolean, a date or a time; every other word is refused. *)
Theorem C132_what_a_word_can_be : forall lim r k s, (2 <= lim)%nat -> bare_key k -> word s ->
  ((exists v, toml_from_str (toml_codec r (toml_text lim)) (setting_line k s) = Ok v)
   <-> (exists z, toml_integer s z /\ fits I64 z) \/ (exists f, toml_float s f) \/ s = lit "true" \/ s = lit "false" \/ (exists n, moment_text s n)).
Proof.
  intros lim r k s L B W. destruct (word_line r lim k s L B W) as [Y N]. split.
  - intros (v & E). destruct (word_loaded _ _ _ _ _ L B W E) as (t & T & _). destruct (token_leaf _ _ T) as [Lf Ns]. destruct t.
    + apply token_bool in T. destruct b; auto.
    + left. exists z. pose proof (token_integer_inv _ _ T) as J. split; [exact J|]. apply token_integer in J as (T2 & _). rewrite T in T2. unfold int_token in T2. destruct (in_range I64 z) eqn:R; [|discriminate T2]. now apply in_range_fits.
    + right. left. exists f. now apply token_float_inv.
    + now destruct (Ns _ eq_refl).
    + right. right. right. right. eexists. apply token_date. exact T.
    + destruct Lf.
    + destruct Lf.
  - intros H. assert (X : exists t, token_value s = Some t); [|destruct X as (t & T); exact (ex_intro _ _ (Y t T))].
    destruct H as [(z & J & F)|[(f & F)|[->|[->|(n & M)]]]].
    + apply token_integer in J as (T & _). apply in_range_fits in F. unfold int_token in T. rewrite F in T. eauto.
    + destruct F as [neg u d e f Sg D Rd Nf|neg Sg|neg Sg]; [|eexists; exact (inf_token _ _ Sg)|eexists; exact (nan_token _ _ Sg)].
      destruct (token_float s neg u d e Sg D) as [T P]. pose proof (dec_rounds_correctly neg d e P) as Rc. exists (TvFloat (dec_to_f64 neg d e)). rewrite T. unfold float_result.
      assert (Q : dec_to_f64 neg d e <> S754_infinity false); [|destruct (dec_to_f64 neg d e) as [|[|]| |]; congruence].
      intros Q. rewrite Q in Rc. destruct Rc as [R1 R2], Rd as [R3 R4]. destruct (Rlt_or_le (Rabs (signed_real neg (IZR d * powerRZ 10 e))) f64_limit) as [Lt|Le].
      * destruct (R1 Lt) as [[[_ Fi] _] _]. exact Fi.
      * apply R2 in Le as X. apply R4 in Le. congruence.
    + eexists. reflexivity.
    + eexists. reflexivity.
    + exists (TvDate n). now apply token_date.
Qed.
Print Assumptions C132_what_a_word_can_be.

(** A date is a map with one text, not a text: it cannot be read as one, and
    it is not saved as a date. *)
Theorem C132_dates_as_texts_refuted : forall n, exists msg, of_result (into_string (moment n)) = Fail msg /\ de TString (moment n) = Fail msg.
Proof. intros n. eexists. split; reflexivity. Qed.
Print Assumptions C132_dates_as_texts_refuted.
Theorem C132_dates_are_saved_as_dates_refuted : exists s v s', toml_from_str (toml_codec false (toml_text 80)) s = Ok v
  /\ s = setting_line (lit "day") (lit "1979-05-27") /\ toml_to_string (toml_codec false (toml_text 80)) v = Ok s'
  /\ s' = lit "[day]" ++ [10] ++ lit """$__toml_private_datetime"" = ""1979-05-27""" ++ [10].
Proof. do 3 eexists. split; [|split; [reflexivity|split; [|reflexivity]]]; [vm_compute; reflexivity|]. vm_compute. reflexivity. Qed.
Print Assumptions C132_dates_are_saved_as_dates_refuted.

(** Texts in three quotes: several lines, a line end after the opening quotes
    left out, lines joined by a backslash, up to two quotes in a row. *)
Theorem C132_texts_in_three_quotes : forall lim r k f s x q, (2 <= lim)%nat -> bare_key k -> is_text s = true -> opening f s ->
  (long_text x s -> q = [] \/ few_quotes 34 q ->
     toml_from_str (toml_codec r (toml_text lim)) (setting_line k ([34; 34; 34] ++ f ++ s ++ q ++ [34; 34; 34])) = Ok (VMap [(k, VStr (x ++ q))]))
  /\ (long_plain x s -> q = [] \/ few_quotes 39 q ->
     toml_from_str (toml_codec r (toml_text lim)) (setting_line k ([39; 39; 39] ++ f ++ s ++ q ++ [39; 39; 39])) = Ok (VMap [(k, VStr (x ++ q))])).
Proof.
  intros lim r k f s x q L B Tx O. assert (Tf : is_text f = true) by (destruct O as [[->| ->]|[-> _]]; reflexivity). split; intros H Q; apply (line_loads r lim k _ (TvStr (x ++ q))); auto; try reflexivity; try exact I.
  - rewrite !is_text_app, Tx, Tf. destruct Q as [->|[->| ->]]; reflexivity.
  - intros g. apply va_string. rewrite <- !app_assoc. apply long_value_read; auto. discriminate.
  - rewrite !is_text_app, Tx, Tf. destruct Q as [->|[->| ->]]; reflexivity.
  - intros g. apply va_string. rewrite <- !app_assoc. apply long_plain_value_read; auto. discriminate.
Qed.
Print Assumptions C132_texts_in_three_quotes.

(** The hypotheses are met. *)
Lemma two_of a b : 0 <= a <= 9 -> 0 <= b <= 9 -> two_digits (digit_text [a; b]) (10 * a + b).
Proof. intros A B. exists a, b. repeat split; unfold is_digit; lia. Qed.
Lemma leap_day : date_text (lit "2000-02-29").
Proof.
  exists 20, 0, 2, 29, (lit "20"), (lit "00"), (lit "02"), (lit "29"). split; [exact (two_of 2 0 ltac:(lia) ltac:(lia))|]. split; [exact (two_of 0 0 ltac:(lia) ltac:(lia))|]. split; [exact (two_of 0 2 ltac:(lia) ltac:(lia))|].
  split; [exact (two_of 2 9 ltac:(lia) ltac:(lia))|]. split; [|reflexivity]. split; [lia|]. right. right. right. split; [reflexivity|]. split; [|reflexivity]. right. now exists 5.
Qed.
Lemma some_time : time_text (lit "07:32:60.120") (lit "07:32:60.12").
Proof.
  exists 7, 32, 60, (lit "07"), (lit "32"), (lit "60"), (lit ".120"), (lit ".12"). split; [exact (two_of 0 7 ltac:(lia) ltac:(lia))|]. split; [exact (two_of 3 2 ltac:(lia) ltac:(lia))|]. split; [exact (two_of 6 0 ltac:(lia) ltac:(lia))|].
  repeat (split; [lia|]). split; [|split; reflexivity]. apply (FrSome [1; 2; 0] [1] 2 [0]); [repeat constructor; unfold is_digit; lia | reflexivity | lia | repeat constructor].
Qed.
Example C132_example : bare_key (lit "at") /\ word (lit "2000-02-29T07:32:60.120-00:00") /\ moment_text (lit "2000-02-29T07:32:60.120-00:00") (lit "2000-02-29T07:32:60.12+00:00")
  /\ toml_from_str (toml_codec false (toml_text 80)) (setting_line (lit "at") (lit "2000-02-29 07:32:60.120z")) = Ok (VMap [(lit "at", moment (lit "2000-02-29T07:32:60.12Z"))])
  /\ (exists msg, toml_from_str (toml_codec false (toml_text 80)) (setting_line (lit "at") (lit "1900-02-29")) = Err msg)
  /\ opening [10] (lit "a ""b"" \" ++ [10; 10] ++ lit "  c" ++ [10] ++ lit "d") /\ long_text (lit "a ""b"" c" ++ [10] ++ lit "d") (lit "a ""b"" \" ++ [10; 10] ++ lit "  c" ++ [10] ++ lit "d").
Proof.
  split; [split; [discriminate|]; intros c J; vm_compute in J; repeat (destruct J as [<-|J]; [lia|]); destruct J|].
  split; [apply tok_word; [reflexivity | discriminate]|].
  split; [apply (MoBoth (lit "2000-02-29") (lit "T") (lit "07:32:60.120") (lit "07:32:60.12") (lit "-00:00") (lit "+00:00")); [exact leap_day | now left | exact some_time | apply (OfZero (lit "-")); now right]|].
  split; [apply (C132_day_and_time_with_a_space 80 false (lit "at") (lit "2000-02-29") (lit "07:32:60.120") (lit "07:32:60.12") (lit "z") (lit "Z")); [lia | | exact leap_day | exact some_time | apply OfUtc; now right]|].
  { split; [discriminate|]; intros c J; vm_compute in J; repeat (destruct J as [<-|J]; [lia|]); destruct J. }
  split; [eexists; vm_compute; reflexivity|]. split; [left; now left|].
  assert (P : forall c k s, is_scalar c && (32 <=? c) && negb (c =? 127) && negb (c =? 34) && negb (c =? 92) = true -> long_text k s -> long_text (c :: k) (c :: s)).
  { intros c k s H1 H. rewrite !andb_true_iff in H1. destruct H1 as [[[[S1 S2] S3] S4] S5]. apply (LtChar c [c] k s); [|exact H]. apply QcPlain; [split; [exact S1 | lia] | intros ->; discriminate S4 | intros ->; discriminate S5]. }
  apply P; [reflexivity|]. apply P; [reflexivity|]. apply (LtQuotes [34]); [now left | discriminate | intros c t [= <- _] [J|[]]; discriminate J |]. apply P; [reflexivity|].
  apply (LtQuotes [34]); [now left | discriminate | intros c t [= <- _] [J|[]]; discriminate J |]. apply P; [reflexivity|].
  apply (LtJoin [] [10] (10 :: lit "  ") (lit "c" ++ [10] ++ lit "d") (lit "c" ++ [10] ++ lit "d")); [intros c [] | now left | apply (WhLine [10] (lit "  ")); [now left|]; apply (WhBlank (lit "  ") []); [|constructor] | |].
  - intros c J. vm_compute in J. destruct J as [<-|[<-|[]]]; now left.
  - intros c t [= <- _] J. vm_compute in J. repeat (destruct J as [J|J]; [discriminate J|]). destruct J.
  - apply P; [reflexivity|]. apply (LtBreak [10]); [now left|]. apply P; [reflexivity|]. constructor.
Qed.
