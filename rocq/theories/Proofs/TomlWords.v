(** Numbers and texts in TOML files (C129). *)
From Coq Require Import ZArith Bool String Lia SpecFloat.
From Coq Require Import List.
Import ListNotations.
From Verif.Model Require Import Text Num Flt Value Serde Visitor Layers Toml TomlText.
From Verif.Spec Require Import Spec Numerals FloatSpec TomlSpec TomlTextSpec.
From Verif.Proofs Require Import Basics Conversions FloatText TomlProofs TomlLex TomlNum TomlValues TomlDoc TomlProper TomlSim TomlJoin TomlFrame TomlHand.
Local Open Scope Z_scope.

(** ** Lines with one setting *)
Lemma bare_all k : bare_key k -> forallb bare_char k = true.
Proof.
  intros [_ H]. apply forallb_forall. intros c I. specialize (H c I). unfold bare_char, digit_char. lia.
Qed.
Lemma bare_print k : bare_key k -> print_key k = k.
Proof. intros B. pose proof (bare_all k B) as A. destruct B as [N _]. unfold print_key. destruct k; [congruence|]. now rewrite A. Qed.
Lemma bare_is_text k : bare_key k -> is_text k = true.
Proof. intros B. exact (bare_txt k (bare_all k B)). Qed.
Lemma line_root lim k x y : (2 <= lim)%nat -> bare_key k -> starts x ->
  (forall f, value_at lim (S f) 0 (x ++ [10]) = match y with Some t => Some (t, [10]) | None => None end) ->
  doc_root lim (setting_line k x) = match y with Some t => Some [(k, NVal t)] | None => None end.
Proof.
  intros L B St V. pose proof (bare_is_text k B) as T. unfold doc_root.
  assert (E : unmark (setting_line k x) = print_key k ++ 32 :: 61 :: 32 :: (x ++ [10])).
  { rewrite (bare_print k B). unfold setting_line. rewrite unmark_eq. destruct B as [N H]. destruct k as [|c k]; [congruence|].
    cbn [app]. specialize (H c ltac:(now left)). destruct (Z.eqb_spec c 65279); [lia|]. reflexivity. }
  rewrite E.
  assert (K : statement_at lim (print_key k ++ 32 :: 61 :: 32 :: (x ++ [10])) = match y with Some t => Some (SEntry [k] t, [10]) | None => None end).
  { rewrite statement_entry by (apply key_no_bracket; auto). rewrite key_eq_read by (auto; lia). cbn [List.length].
    replace (Nat.leb lim 1) with false by (symmetry; apply Nat.leb_gt; lia). change (skip_ws (32 :: x ++ [10])) with (skip_ws (x ++ [10])).
    rewrite start_ws by (now apply starts_app). match goal with |- context [value_at lim ?n 0 _] => let Q := fresh in assert (Q : exists f, n = S f) by (eexists; rewrite Nat.add_comm; reflexivity); destruct Q as [f Q]; rewrite Q end. rewrite V. now destruct y. }
  destruct y as [t|].
  - assert (R : reads lim (print_key k ++ 32 :: 61 :: 32 :: (x ++ [10])) [SEntry [k] t]).
    { apply reads_line with []; [apply starts_app, key_starts, T | len | exact K | apply reads_nil]. }
    unfold stms. rewrite (R _ (Nat.lt_succ_diag_r _)). reflexivity.
  - assert (Z : stms lim (print_key k ++ 32 :: 61 :: 32 :: (x ++ [10])) = None); [|now rewrite Z].
    unfold stms. rewrite statements_step. pose proof (starts_app _ (32 :: 61 :: 32 :: x ++ [10]) (key_starts k T)) as Ss. rewrite (start_ws _ Ss).
    destruct (print_key k ++ 32 :: 61 :: 32 :: x ++ [10]) as [|c u]; [destruct Ss|]. cbn [starts] in Ss. rewrite start_no_line by exact Ss. now rewrite K.
Qed.
Lemma line_text k x : bare_key k -> is_text x = true -> is_text (setting_line k x) = true.
Proof. intros B T. unfold setting_line. rewrite !is_text_app, (bare_is_text k B), T. reflexivity. Qed.
(** What is loaded. *)
Definition leaf (t : toml_value) : Prop := match t with TvArr _ | TvTab _ => False | _ => True end.
Lemma line_loads r lim k x t : (2 <= lim)%nat -> bare_key k -> is_text x = true -> starts x -> leaf t ->
  (forall f, value_at lim (S f) 0 (x ++ [10]) = Some (t, [10])) ->
  toml_from_str (toml_codec r (toml_text lim)) (setting_line k x) = Ok (VMap [(k, doc_value t)]).
Proof.
  intros L B T St Sc V. pose proof (line_root lim k x (Some t) L B St V) as R.
  cbn [toml_codec toml_from_str]. unfold format_from_str. cbn [toml_format fmt_present].
  assert (P : ts_parse (toml_text lim) (setting_line k x) = Ok (TvTab [(k, t)])) by (apply crate_parse; split; [now apply line_text|]; eexists; split; [exact R|]; reflexivity).
  rewrite P. destruct t; cbn in Sc; try (destruct Sc; fail); reflexivity.
Qed.
Lemma line_fails r lim k x : (2 <= lim)%nat -> bare_key k -> starts x -> (forall f, value_at lim (S f) 0 (x ++ [10]) = None) ->
  exists msg, toml_from_str (toml_codec r (toml_text lim)) (setting_line k x) = Err msg.
Proof.
  intros L B St V. pose proof (line_root lim k x None L B St V) as R.
  cbn [toml_codec toml_from_str]. unfold format_from_str. cbn [toml_format fmt_present].
  destruct (ts_parse (toml_text lim) (setting_line k x)) as [t|m] eqn:P; [|cbn; eauto]. apply crate_parse in P as (_ & m & R' & _). congruence.
Qed.

(** ** Numbers *)
Lemma digit_hex b d c : digit_as b d c -> hex_val c = Some d.
Proof.
  intros [H [[H1 ->]|[H1 [->| ->]]]]; unfold hex_val, digit_char.
  - replace ((48 <=? 48 + d) && (48 + d <=? 57)) with true by lia. f_equal. lia.
  - replace ((48 <=? 87 + d) && (87 + d <=? 57)) with false by lia. replace ((65 <=? 87 + d) && (87 + d <=? 70)) with false by lia.
    replace ((97 <=? 87 + d) && (87 + d <=? 102)) with true by lia. f_equal. lia.
  - replace ((48 <=? 55 + d) && (55 + d <=? 57)) with false by lia. replace ((65 <=? 55 + d) && (55 + d <=? 70)) with true by lia. f_equal. lia.
Qed.
Lemma spelled_read b f : f 95 = false -> (forall d c, digit_as b d c -> f c = true) ->
  forall ds s, spelled b ds s -> exists cs, underscored f s = Some cs /\ Forall2 (digit_as b) ds cs.
Proof.
  intros F95 F ds s H. induction H as [d c D|d c ds s D H (cs & E & A)|d c ds s D H (cs & E & A)].
  - exists [c]. cbn [underscored]. rewrite (F d c D). auto.
  - exists (c :: cs). split; [|auto]. cbn [underscored]. rewrite (F d c D). destruct s as [|x s]; [inversion H|].
    assert (X : f x = true) by (inversion H; subst; eauto). destruct (Z.eqb_spec x 95) as [->|]; [congruence|]. now rewrite E.
  - exists (c :: cs). split; [|auto]. cbn [underscored]. rewrite (F d c D). cbn [Z.eqb Pos.eqb]. now rewrite E.
Qed.
Lemma number_in_fold b ds cs : Forall2 (digit_as b) ds cs -> forall a, fold_left (fun a c => b * a + match hex_val c with Some x => x | None => 0 end) cs a = a * b ^ Z.of_nat (List.length ds) + base_val b ds.
Proof.
  induction 1 as [|d c ds cs D H IH]; intros a; [cbn; lia|]. cbn [fold_left base_val List.length]. rewrite IH, (digit_hex b d c D), Nat2Z.inj_succ, Z.pow_succ_r by lia. ring.
Qed.
Lemma number_in_spelled b ds cs : Forall2 (digit_as b) ds cs -> number_in b cs = base_val b ds.
Proof. intros H. unfold number_in. rewrite (number_in_fold b ds cs H). lia. Qed.
Lemma spelled_nonempty b ds s : spelled b ds s -> exists c t, s = c :: t /\ digit_as b (hd 0 ds) c.
Proof. intros H. inversion H; subst; eexists _, _; split; eauto. Qed.
Lemma spelled_tok b ds s : spelled b ds s -> forallb token_char s = true.
Proof.
  assert (D : forall d c, digit_as b d c -> token_char c = true).
  { intros d c [H [[H1 ->]|[H1 [->| ->]]]]; unfold token_char, bare_char, digit_char; lia. }
  induction 1 as [d c H|d c ds s H _ IH|d c ds s H _ IH]; cbn [forallb]; rewrite (D _ _ H); auto.
Qed.
Definition int_token (z : Z) : option toml_value := if in_range I64 z then Some (TvInt z) else None.
Lemma spelled_dec ds s : spelled 10 ds s -> List.length ds = 1%nat \/ hd 0 ds <> 0 -> exists cs, dec_part s = Some cs /\ number_in 10 cs = base_val 10 ds.
Proof.
  intros H Ld. destruct (spelled_read 10 digit_char eq_refl) with (ds := ds) (s := s) as (cs & E & A); auto.
  { intros d c [H1 [[H2 ->]|[H2 _]]]; [|lia]. apply dig_spec. lia. }
  exists cs. split; [|now apply number_in_spelled]. unfold dec_part. rewrite E. replace (dec_digits_ok cs) with true; [reflexivity|]. symmetry.
  inversion A as [|d c ds' cs' D A' E1 E2]; subst; [reflexivity|]. cbn [hd List.length] in Ld. destruct cs' as [|c' cs'].
  - unfold dec_digits_ok. destruct c as [|p|p]; try reflexivity. do 6 (destruct p as [p|p|]; try reflexivity).
  - assert (c <> 48). { inversion A'; subst. destruct Ld as [Ld|Ld]; [discriminate Ld|]. destruct D as [D0 [[D1 ->]|[D1 _]]]; unfold char in *; lia. }
    unfold dec_digits_ok. destruct c as [|p|p]; try reflexivity. do 6 (destruct p as [p|p|]; try reflexivity; try congruence).
Qed.
Lemma spelled_head ds s : spelled 10 ds s -> digit_head s.
Proof. intros H. destruct (spelled_nonempty _ _ _ H) as (c & t & -> & D). cbn [digit_head]. apply dig_spec. destruct D as [D1 [[D2 ->]|[D2 _]]]; lia. Qed.
Lemma spelled_no_base ds s : spelled 10 ds s -> List.length ds = 1%nat \/ hd 0 ds <> 0 -> no_base s.
Proof.
  intros H Ld. assert (D48 : forall d, digit_as 10 d 48 -> d = 0) by (intros d [D1 [[D2 D3]|[D2 _]]]; lia).
  inversion H as [d c D|d c ds' s' D H'|d c ds' s' D H']; subst; cbn [no_base]; auto.
  - destruct s'; auto. intros ->. apply D48 in D. subst d. destruct Ld as [Ld|Ld]; [destruct ds'; [inversion H' | discriminate Ld] | cbn in Ld; congruence].
  - intros ->. repeat split; discriminate.
Qed.
Lemma token_plain ds s : spelled 10 ds s -> List.length ds = 1%nat \/ hd 0 ds <> 0 -> token_value s = int_token (base_val 10 ds).
Proof.
  intros H Ld. destruct (spelled_dec ds s H Ld) as (cs & E & V). pose proof (token_number false s (spelled_head _ _ H) (spelled_no_base _ _ H Ld)) as T.
  cbn [sign_text app] in T. rewrite T. unfold dec_token. pose proof (sign_of_text false s (spelled_head _ _ H)) as Sg. cbn [sign_text app] in Sg. rewrite Sg, E, V. reflexivity.
Qed.
Lemma token_minus ds s : spelled 10 ds s -> List.length ds = 1%nat \/ hd 0 ds <> 0 -> token_value (45 :: s) = int_token (- base_val 10 ds).
Proof.
  intros H Ld. destruct (spelled_dec ds s H Ld) as (cs & E & V).
  assert (T : token_value (45 :: s) = dec_token (45 :: s)) by (apply (token_number true s (spelled_head _ _ H)); cbn; destruct s; [exact I | intros [=]]).
  rewrite T. unfold dec_token. cbn [sign_of]. rewrite E, V. reflexivity.
Qed.
Lemma token_plus ds s : spelled 10 ds s -> List.length ds = 1%nat \/ hd 0 ds <> 0 -> token_value (43 :: s) = int_token (base_val 10 ds).
Proof.
  intros H Ld. destruct (spelled_dec ds s H Ld) as (cs & E & V). pose proof (spelled_head _ _ H) as Hd.
  assert (T : token_value (43 :: s) = dec_token (43 :: s)).
  { destruct s as [|c s]; [destruct Hd|]. cbn in Hd. apply dig_spec in Hd. apply token_dec; cbn [sign_of snd]; try reflexivity; try (intros [=]; fail); [apply (str_eqb_head c s 105) | apply (str_eqb_head c s 110)]; lia. }
  rewrite T. unfold dec_token. cbn [sign_of]. rewrite E, V. reflexivity.
Qed.
Lemma token_based b x f ds s : (x = 120 /\ b = 16 /\ f = is_hex) \/ (x = 111 /\ b = 8 /\ f = (fun c => (48 <=? c) && (c <=? 55))) \/ (x = 98 /\ b = 2 /\ f = (fun c => (48 <=? c) && (c <=? 49))) ->
  spelled b ds s -> token_value (48 :: x :: s) = int_token (base_val b ds).
Proof.
  intros C H. assert (K : exists cs, underscored f s = Some cs /\ Forall2 (digit_as b) ds cs).
  { apply spelled_read with (b := b); auto.
    - destruct C as [(_ & _ & ->)|[(_ & _ & ->)|(_ & _ & ->)]]; reflexivity.
    - intros d c D. destruct C as [(_ & -> & ->)|[(_ & -> & ->)|(_ & -> & ->)]].
      + unfold is_hex. now rewrite (digit_hex _ _ _ D).
      + destruct D as [D1 [[D2 ->]|[D2 _]]]; lia.
      + destruct D as [D1 [[D2 ->]|[D2 _]]]; lia. }
  destruct K as (cs & E & A). pose proof (number_in_spelled _ _ _ A) as V.
  destruct C as [(-> & -> & ->)|[(-> & -> & ->)|(-> & -> & ->)]].
  - change (token_value (48 :: 120 :: s)) with (based_int 16 is_hex s). unfold based_int. now rewrite E, V.
  - change (token_value (48 :: 111 :: s)) with (based_int 8 (fun c => (48 <=? c) && (c <=? 55)) s). unfold based_int. now rewrite E, V.
  - change (token_value (48 :: 98 :: s)) with (based_int 2 (fun c => (48 <=? c) && (c <=? 49)) s). unfold based_int. now rewrite E, V.
Qed.
Lemma token_integer s z : toml_integer s z -> token_value s = int_token z /\ forallb token_char s = true /\ s <> [].
Proof.
  intros [ds t H L|ds t H L|ds t H L|ds t H|ds t H|ds t H]; pose proof (spelled_tok _ _ _ H) as T; cbn [lit String.length app] in *.
  - split; [now apply token_plain|]. split; auto. destruct (spelled_nonempty _ _ _ H) as (c & u & -> & _). discriminate.
  - split; [now apply (token_plus ds)|]. split; [exact T | discriminate].
  - split; [now apply (token_minus ds)|]. split; [exact T | discriminate].
  - split; [apply (token_based 16 120 is_hex); auto|]. split; [exact T | discriminate].
  - split; [apply (token_based 8 111 (fun c => (48 <=? c) && (c <=? 55))); auto|]. split; [exact T | discriminate].
  - split; [apply (token_based 2 98 (fun c => (48 <=? c) && (c <=? 49))); auto|]. split; [exact T | discriminate].
Qed.
Lemma word_value lim f s : forallb token_char s = true -> s <> [] ->
  value_at lim (S f) 0 (s ++ [10]) = match token_value s with Some t => Some (t, [10]) | None => None end.
Proof.
  intros T N. destruct (token_value s) as [t|] eqn:V; [apply va_word; auto; apply EvLine|].
  rewrite value_at_eq. unfold value_step. pose proof (token_end_read s [10] T (EvLine [])) as E. destruct s as [|c s]; [congruence|]. cbn [app] in *.
  cbn [forallb] in T. apply andb_true_iff in T as [T _].
  replace ((c =? 34) || (c =? 39)) with false by (unfold token_char, bare_char, digit_char in T; lia).
  replace (c =? 91) with false by (unfold token_char, bare_char, digit_char in T; lia). replace (c =? 123) with false by (unfold token_char, bare_char, digit_char in T; lia).
  rewrite E. cbn [fst snd]. now rewrite V.
Qed.

(** ** Texts *)
Lemma one_plain s c : one_line s -> In c s -> plain_char c = true /\ is_scalar c = true.
Proof.
  intros [T H] I. split.
  - unfold plain_char. destruct (H c I) as [->|[]]; [reflexivity | lia].
  - unfold is_text in T. rewrite forallb_forall in T. auto.
Qed.
Lemma basic_plain s rest : one_line s -> ~ In 34 s -> ~ In 92 s -> basic_string (s ++ 34 :: rest) = Some (s, rest).
Proof.
  intros O N1 N2. assert (P : forall c, In c s -> plain_char c = true) by (intros c I; eapply one_plain; eauto). clear O.
  induction s as [|c s IH]; [reflexivity|]. cbn [app]. assert (c <> 34) by (intros ->; apply N1; now left). assert (c <> 92) by (intros ->; apply N2; now left).
  assert (E : basic_string (c :: s ++ 34 :: rest) = if c =? 34 then Some ([], s ++ 34 :: rest) else if plain_char c then push c (basic_string (s ++ 34 :: rest)) else None).
  { cbn [basic_string]. destruct (Z.eqb_spec c 34); [congruence|]. destruct (Z.eqb_spec c 92); [congruence|]. reflexivity. }
  rewrite E, (P c ltac:(now left)). destruct (Z.eqb_spec c 34); [congruence|]. rewrite IH; [reflexivity|..]; [intros I; apply N1 | intros I; apply N2 | intros x I; apply P]; now right.
Qed.
Lemma literal_plain s rest : one_line s -> ~ In 39 s -> literal_string (s ++ 39 :: rest) = Some (s, rest).
Proof.
  intros O N1. assert (P : forall c, In c s -> plain_char c = true) by (intros c I; eapply one_plain; eauto). clear O.
  induction s as [|c s IH]; [reflexivity|]. cbn [app literal_string]. assert (c <> 39) by (intros ->; apply N1; now left).
  destruct (Z.eqb_spec c 39); [congruence|]. rewrite (P c ltac:(now left)), IH; [reflexivity|..]; [intros I; apply N1 | intros x I; apply P]; now right.
Qed.
Lemma quoted_value q s : q = 34 \/ q = 39 -> one_line s -> ~ In q s -> (q = 34 -> ~ In 92 s) -> string_value (q :: s ++ [q; 10]) = Some (s, [10]).
Proof.
  intros Q O N B. rewrite string_q3. assert (Z : q3 q (s ++ [q; 10]) = false).
  { destruct s as [|a [|b s]]; cbn [q3 app].
    - now destruct Q as [-> | ->].
    - assert (a <> q) by (intros ->; apply N; now left). destruct (Z.eqb_spec a q); [congruence | reflexivity].
    - assert (a <> q) by (intros ->; apply N; now left). destruct (Z.eqb_spec a q); [congruence | reflexivity]. }
  rewrite Z. destruct Q as [-> | ->]; cbn [Z.eqb Pos.eqb].
  - apply basic_plain; auto.
  - now apply literal_plain.
Qed.

(** ** What is read as a number is one *)
Lemma hex_digit_as c d : hex_val c = Some d -> digit_as 16 d c.
Proof.
  unfold hex_val, digit_char, digit_as. destruct ((48 <=? c) && (c <=? 57)) eqn:A; [intros [= <-]; lia|].
  destruct ((65 <=? c) && (c <=? 70)) eqn:B; [intros [= <-]; lia|]. destruct ((97 <=? c) && (c <=? 102)) eqn:C; [intros [= <-]; lia | discriminate].
Qed.
Lemma underscored_spelled b f : (forall c, f c = true -> exists d, digit_as b d c) ->
  forall n s cs, (List.length s <= n)%nat -> underscored f s = Some cs -> exists ds, spelled b ds s /\ Forall2 (digit_as b) ds cs.
Proof.
  intros F n. induction n as [|n IH]; intros s cs L E.
  - destruct s; [discriminate E | cbn in L; lia].
  - destruct s as [|c t]; [discriminate E|]. cbn [underscored] in E. destruct (f c) eqn:Fc; [|discriminate E]. destruct (F c Fc) as (d & D). destruct t as [|x t'].
    + injection E as <-. exists [d]. split; [now constructor | auto].
    + cbn in L. destruct (Z.eqb_spec x 95) as [->|N].
      * destruct (underscored f t') as [r|] eqn:R; [|discriminate E]. injection E as <-. destruct (IH t' r) as (ds & Sp & A); [cbn in *; lia | auto |]. exists (d :: ds). split; [now constructor | auto].
      * destruct (underscored f (x :: t')) as [r|] eqn:R; [|discriminate E]. injection E as <-. destruct (IH (x :: t') r) as (ds & Sp & A); [cbn in *; lia | auto |]. exists (d :: ds). split; [now constructor | auto].
Qed.
Lemma dec_part_spelled s cs : dec_part s = Some cs -> exists ds, spelled 10 ds s /\ number_in 10 cs = base_val 10 ds /\ (List.length ds = 1%nat \/ hd 0 ds <> 0).
Proof.
  unfold dec_part. destruct (underscored digit_char s) as [l|] eqn:U; [|discriminate]. destruct (dec_digits_ok l) eqn:O; [|discriminate]. intros [= <-].
  destruct (underscored_spelled 10 digit_char) with (n := List.length s) (s := s) (cs := l) as (ds & Sp & A); auto.
  { intros c H. apply dig_spec in H. exists (c - 48). unfold digit_as. lia. }
  exists ds. split; [exact Sp|]. split; [now apply number_in_spelled|]. inversion A as [|d c ds' cs' D A' E1 E2]; subst; [inversion Sp|]. inversion A' as [|d' c' ds'' cs'' D' A'' E1 E2]; subst; [now left|].
  right. cbn [hd]. intros ->. destruct D as [_ [[_ ->]|[D _]]]; [discriminate O | lia].
Qed.
Lemma based_spelled b f s z : (forall c, f c = true -> exists d, digit_as b d c) -> based_int b f s = Some (TvInt z) -> exists ds, spelled b ds s /\ z = base_val b ds.
Proof.
  intros F. unfold based_int. destruct (underscored f s) as [cs|] eqn:U; [|discriminate]. destruct (underscored_spelled b f F (List.length s) s cs (le_n _) U) as (ds & Sp & A).
  rewrite (number_in_spelled _ _ _ A). unfold int_in_range. destruct (in_range I64 _); [|discriminate]. intros [= <-]. eauto.
Qed.
Lemma float_no_int s z : float_value s <> Some (TvInt z).
Proof.
  unfold float_value. destruct (sign_of s) as [ng u]. destruct (span _ u) as [ip r]. destruct (span _ r) as [fp ep]. destruct (dec_part ip); [|discriminate]. destruct (frac_part fp); [|discriminate].
  destruct (exp_part ep); [|discriminate]. destruct (parse_f64 _) as [[| [|] | |]|]; discriminate.
Qed.
Lemma sign_of_inv s ng u : sign_of s = (ng, u) -> (ng = true /\ s = 45 :: u) \/ (ng = false /\ s = 43 :: u) \/ (ng = false /\ s = u).
Proof.
  unfold sign_of. destruct s as [|c s]; [intros [= <- <-]; auto|]. destruct c as [|p|p]; try (intros [= <- <-]; auto; fail).
  do 6 (destruct p as [p|p|]; try (intros [= <- <-]; auto; fail)).
Qed.
Lemma dec_int s z : dec_token s = Some (TvInt z) -> toml_integer s z.
Proof.
  unfold dec_token. destruct (sign_of s) as [ng u] eqn:Sg. apply sign_of_inv in Sg. destruct (dec_part u) as [cs|] eqn:D.
  - destruct (dec_part_spelled u cs D) as (ds & Sp & V & L). rewrite V. unfold int_in_range. destruct (in_range I64 _); [|discriminate]. intros [= <-].
    destruct Sg as [[-> ->]|[[-> ->]|[-> ->]]]; [exact (TiMinus ds u Sp L) | exact (TiPlus ds u Sp L) | exact (TiPlain ds u Sp L)].
  - destruct (float_value s) as [t|] eqn:E; [intros [= ->]; destruct (float_no_int _ _ E)|]. destruct (date_value s); discriminate.
Qed.
Lemma based_digits : (forall c, is_hex c = true -> exists d, digit_as 16 d c) /\ (forall c, (48 <=? c) && (c <=? 55) = true -> exists d, digit_as 8 d c) /\ (forall c, (48 <=? c) && (c <=? 49) = true -> exists d, digit_as 2 d c).
Proof.
  split; [|split].
  - intros c H. unfold is_hex in H. destruct (hex_val c) as [d|] eqn:E; [|discriminate H]. exists d. now apply hex_digit_as.
  - intros c H. exists (c - 48). unfold digit_as. lia.
  - intros c H. exists (c - 48). unfold digit_as. lia.
Qed.
Lemma token_value_cases s : token_value s = dec_token s
  \/ (exists u, s = 48 :: 120 :: u /\ token_value s = based_int 16 is_hex u)
  \/ (exists u, s = 48 :: 111 :: u /\ token_value s = based_int 8 (fun c => (48 <=? c) && (c <=? 55)) u)
  \/ (exists u, s = 48 :: 98 :: u /\ token_value s = based_int 2 (fun c => (48 <=? c) && (c <=? 49)) u)
  \/ (exists b, token_value s = Some (TvBool b)) \/ (exists f, token_value s = Some (TvFloat f)).
Proof.
  destruct (str_eqb s (lit "true")) eqn:T; [do 4 right; left; exists true; unfold token_value; now rewrite T|].
  destruct (str_eqb s (lit "false")) eqn:F; [do 4 right; left; exists false; unfold token_value; now rewrite T, F|].
  destruct (str_eqb (snd (sign_of s)) (lit "inf")) eqn:I; [do 5 right; exists (S754_infinity (fst (sign_of s))); unfold token_value; rewrite T, F; destruct (sign_of s); cbn [fst snd] in *; now rewrite I|].
  destruct (str_eqb (snd (sign_of s)) (lit "nan")) eqn:N; [do 5 right; exists S754_nan; unfold token_value; rewrite T, F; destruct (sign_of s); cbn [fst snd] in *; now rewrite I, N|].
  assert (Nb : no_base s -> token_value s = dec_token s) by (intros B; now apply token_dec).
  destruct s as [|a [|b u]]; [left; apply Nb; exact Logic.I..|]. destruct (Z.eq_dec a 48) as [->|Na]; [|left; apply Nb; intros ->; congruence].
  destruct (Z.eq_dec b 120) as [->|N1]; [right; left; exists u; split; reflexivity|].
  destruct (Z.eq_dec b 111) as [->|N2]; [do 2 right; left; exists u; split; reflexivity|].
  destruct (Z.eq_dec b 98) as [->|N3]; [do 3 right; left; exists u; split; reflexivity|].
  left. apply Nb. intros _. auto.
Qed.
Lemma token_integer_inv s z : token_value s = Some (TvInt z) -> toml_integer s z.
Proof.
  intros E. destruct based_digits as (B1 & B2 & B3). destruct (token_value_cases s) as [C|[(u & -> & C)|[(u & -> & C)|[(u & -> & C)|[(b & C)|(f & C)]]]]]; rewrite C in E; try discriminate E.
  - now apply dec_int.
  - destruct (based_spelled _ _ _ _ B1 E) as (ds & Sp & ->). exact (TiHex ds u Sp).
  - destruct (based_spelled _ _ _ _ B2 E) as (ds & Sp & ->). exact (TiOct ds u Sp).
  - destruct (based_spelled _ _ _ _ B3 E) as (ds & Sp & ->). exact (TiBin ds u Sp).
Qed.

(** ** Floats *)
Lemma digit10 d c : digit_as 10 d c -> is_digit d /\ c = 48 + d.
Proof. unfold digit_as, is_digit. lia. Qed.
Lemma digits10 ds cs : Forall2 (digit_as 10) ds cs -> Forall is_digit ds /\ cs = digit_text ds.
Proof.
  induction 1 as [|d c ds cs D H [IH1 ->]]; [split; auto|]. apply digit10 in D as [D ->]. split; [auto | reflexivity].
Qed.
Lemma base_dec ds : base_val 10 ds = dec_val ds.
Proof. induction ds as [|d ds IH]; [reflexivity|]. cbn [base_val dec_val]. now rewrite IH. Qed.
Lemma spelled_under ds s : spelled 10 ds s -> underscored digit_char s = Some (digit_text ds) /\ Forall is_digit ds /\ ds <> [].
Proof.
  intros H. destruct (spelled_read 10 digit_char eq_refl) with (ds := ds) (s := s) as (cs & E & A); auto.
  { intros d c D. apply digit10 in D as [D ->]. apply dig_spec. unfold is_digit in D. lia. }
  apply digits10 in A as [A ->]. split; auto. split; auto. inversion H; discriminate.
Qed.
Lemma under_spelled s cs : underscored digit_char s = Some cs -> exists ds, spelled 10 ds s /\ cs = digit_text ds /\ Forall is_digit ds.
Proof.
  intros U. destruct (underscored_spelled 10 digit_char) with (n := List.length s) (s := s) (cs := cs) as (ds & Sp & A); auto.
  { intros c H. apply dig_spec in H. exists (c - 48). unfold digit_as. lia. }
  apply digits10 in A as [A ->]. eauto.
Qed.
Lemma spelled_chars ds s : spelled 10 ds s -> forall c, In c s -> c = 95 \/ 48 <= c <= 57.
Proof.
  induction 1 as [d c H|d c ds s H _ IH|d c ds s H _ IH]; intros x I; apply digit10 in H as [H E]; unfold is_digit in H; cbn [In] in I.
  - destruct I as [<-|[]]. lia.
  - destruct I as [<-|I]; [lia | auto].
  - destruct I as [<-|[<-|I]]; [lia | auto | auto].
Qed.
Definition lead_ok (ds : list Z) : Prop := List.length ds = 1%nat \/ hd 0 ds <> 0.
Lemma spelled_dec_part ds s : spelled 10 ds s -> lead_ok ds -> dec_part s = Some (digit_text ds).
Proof.
  intros H L. destruct (spelled_dec ds s H L) as (cs & E & _). destruct (spelled_under ds s H) as (U & _ & _). unfold dec_part in *. rewrite U in *. destruct (dec_digits_ok _); [reflexivity | discriminate E].
Qed.
Lemma dec_part_spelled2 s cs : dec_part s = Some cs -> exists ds, spelled 10 ds s /\ cs = digit_text ds /\ Forall is_digit ds /\ lead_ok ds.
Proof.
  intros D. destruct (dec_part_spelled s cs D) as (ds & Sp & _ & L). exists ds. rewrite (spelled_dec_part ds s Sp L) in D. injection D as <-. destruct (spelled_under ds s Sp) as (_ & F & _). auto.
Qed.
(** The parts of the text handed to the parser of the standard library. *)
Definition sgn (neg : bool) : str := if neg then [45] else [].
Lemma sign_of_with s neg u : with_sign s neg u -> digit_head u -> sign_of s = (neg, u).
Proof.
  intros W H. destruct W as [u|u|u]; try reflexivity. exact (sign_of_text false u H).
Qed.
Lemma exp_read c ex : toml_exponent c ex -> exists t, exp_part c = Some t /\ exponent t ex /\ (c <> [] -> t <> []).
Proof.
  intros [|x s u neg ds X W Sp]; [exists []; repeat split; auto; constructor|]. destruct (spelled_under ds u Sp) as (U & F & N). cbn [exp_part].
  rewrite (sign_of_with _ _ _ W (spelled_head _ _ Sp)), U. eexists. split; [reflexivity|]. split; [|discriminate]. rewrite base_dec. destruct neg.
  - exact (ExpMinus 101 ds (or_introl eq_refl) N F).
  - exact (ExpPlain 101 ds (or_introl eq_refl) N F).
Qed.
Lemma exp_inv c t : exp_part c = Some t -> (forall x y, c = x :: y -> x = 101 \/ x = 69) -> exists ex, toml_exponent c ex /\ exponent t ex.
Proof.
  intros E H. destruct c as [|x y]; [injection E as <-; exists 0; split; constructor|]. specialize (H x y eq_refl). cbn [exp_part] in E.
  destruct (sign_of y) as [ng u] eqn:Sg. destruct (underscored digit_char u) as [cs|] eqn:U; [|discriminate E]. injection E as <-.
  destruct (under_spelled u cs U) as (ds & Sp & -> & F). assert (N : ds <> []) by (inversion Sp; discriminate). apply sign_of_inv in Sg.
  assert (W : with_sign y ng u) by (destruct Sg as [[-> ->]|[[-> ->]|[-> ->]]]; [exact (WsMinus u) | exact (WsPlus u) | exact (WsNone u)]).
  exists (if ng then - base_val 10 ds else base_val 10 ds). split; [econstructor; eauto|]. rewrite base_dec. destruct ng; [exact (ExpMinus 101 ds (or_introl eq_refl) N F) | exact (ExpPlain 101 ds (or_introl eq_refl) N F)].
Qed.
Lemma frac_read b fp : toml_fraction b fp -> Forall is_digit fp /\ frac_part b = Some (match b with [] => [] | _ => 46 :: digit_text fp end) /\ (b = [] -> fp = []).
Proof.
  intros [|ds s Sp]; [repeat split; auto|]. destruct (spelled_under ds s Sp) as (U & F & N). change (lit "." ++ s) with (46 :: s). cbn [frac_part Z.eqb Pos.eqb]. rewrite U. repeat split; auto. discriminate.
Qed.
Lemma frac_inv b t : frac_part b = Some t -> exists fp, toml_fraction b fp /\ Forall is_digit fp /\ t = match b with [] => [] | _ => 46 :: digit_text fp end /\ (b = [] -> fp = []).
Proof.
  destruct b as [|x b]; [intros [= <-]; exists []; repeat split; auto; constructor|]. cbn [frac_part]. destruct (Z.eqb_spec x 46) as [->|]; [|discriminate].
  destruct (underscored digit_char b) as [cs|] eqn:U; [|discriminate]. intros [= <-]. destruct (under_spelled b cs U) as (ds & Sp & -> & F). exists ds. split; [exact (TfrSome ds b Sp)|]. repeat split; auto. discriminate.
Qed.
Lemma sent_decimal ip fp (b : str) t ex : ip <> [] -> Forall is_digit ip -> Forall is_digit fp -> (b = [] -> fp = []) -> exponent t ex ->
  decimal (digit_text ip ++ match b with [] => [] | _ :: _ => 46 :: digit_text fp end ++ t) (dec_val (ip ++ fp)) (ex - Z.of_nat (List.length fp)).
Proof.
  intros N F1 F2 Nb E. destruct b as [|x b].
  - rewrite (Nb eq_refl), app_nil_r. cbn [List.length app]. rewrite Z.sub_0_r. now constructor.
  - change ((46 :: digit_text fp) ++ t) with (lit "." ++ digit_text fp ++ t). constructor; auto. intros Z. apply app_eq_nil in Z as [Z _]. congruence.
Qed.
Lemma sgn_sign neg u : with_sign (sgn neg ++ u) neg u.
Proof. destruct neg; [exact (WsMinus u) | exact (WsNone u)]. Qed.
Lemma not_in_span l s : (forall c, In c s -> ~ In c l) -> forallb (not_one_of l) s = true.
Proof.
  intros H. apply forallb_forall. intros c I. unfold not_one_of. apply negb_true_iff. apply not_true_is_false. intros X. apply existsb_exists in X as (x & I2 & E). apply Z.eqb_eq in E. subst x. exact (H c I I2).
Qed.
Lemma span_parts f s a b : span f s = (a, b) -> s = a ++ b /\ forallb f a = true /\ head_not f b.
Proof.
  revert a b. induction s as [|c s IH]; intros a b E; cbn [span] in E; [injection E as <- <-; cbn; auto|]. destruct (f c) eqn:F.
  - destruct (span f s) as [x y]. injection E as <- <-. destruct (IH x y eq_refl) as (-> & A & B). cbn [forallb app]. rewrite F. auto.
  - injection E as <- <-. repeat split; auto.
Qed.
Definition float_result (f : f64) : option toml_value := match f with S754_infinity false => None | _ => Some (TvFloat f) end.
Lemma float_read s neg u d e : with_sign s neg u -> toml_decimal u d e -> float_value s = float_result (dec_to_f64 neg d e) /\ 0 <= d.
Proof.
  intros W D. destruct D as [ip fp a b c ex Sp L Fr Ex Nbc]. destruct (spelled_under ip a Sp) as (_ & Fi & Ni).
  assert (Ea : forall x, In x a -> ~ In x [46; 101; 69]) by (intros x I; pose proof (spelled_chars _ _ Sp x I); cbn [In]; unfold char in *; lia).
  assert (Hd : digit_head (a ++ b ++ c)) by (pose proof (spelled_head _ _ Sp) as Hd; destruct a; [destruct Hd | exact Hd]).
  unfold float_value. rewrite (sign_of_with _ _ _ W Hd). rewrite (span_all (not_one_of [46; 101; 69]) a (b ++ c)).
  2: { now apply not_in_span. }
  2: { destruct Fr as [|fd s2 Sp2]; [|reflexivity]. destruct Ex as [|x s3 u3 n3 d3 [-> | ->] _ _]; [exact I | reflexivity..]. }
  rewrite (span_all (not_one_of [101; 69]) b c).
  2: { apply not_in_span. intros x I. destruct Fr as [|fd s2 Sp2]; [destruct I|]. cbn in I. destruct I as [<-|I]; [cbn; lia|]. pose proof (spelled_chars _ _ Sp2 x I). cbn [In]. unfold char in *; lia. }
  2: { destruct Ex as [|x s3 u3 n3 d3 [-> | ->] _ _]; [exact I | reflexivity..]. }
  rewrite (spelled_dec_part ip a Sp L). destruct (frac_read b fp Fr) as (Ff & -> & Nb). destruct (exp_read c ex Ex) as (t & -> & Et & _). fold (sgn neg).
  assert (P : decimal_text (sgn neg ++ digit_text ip ++ match b with [] => [] | _ :: _ => 46 :: digit_text fp end ++ t) neg (dec_val (ip ++ fp)) (ex - Z.of_nat (List.length fp))).
  { eexists. split; [apply sgn_sign | now apply sent_decimal]. }
  pose proof (parse_decimal _ _ _ _ P) as Q. match goal with |- context [parse_f64 ?x] => replace (parse_f64 x) with (Some (dec_to_f64 neg (dec_val (ip ++ fp)) (ex - Z.of_nat (List.length fp)))) by (symmetry; exact Q) end. rewrite base_dec. split; [|destruct P as (v & _ & D); now apply decimal_nonneg in D]. unfold float_result. destruct (dec_to_f64 _ _ _) as [|[|]| |]; reflexivity.
Qed.
Lemma float_inv s f : float_value s = Some (TvFloat f) -> (forall x, dec_part (snd (sign_of s)) <> Some x) -> exists neg u d e, with_sign s neg u /\ toml_decimal u d e /\ 0 <= d /\ f = dec_to_f64 neg d e /\ f <> S754_infinity false.
Proof.
  unfold float_value. destruct (sign_of s) as [ng u] eqn:Sg. cbn [snd]. apply sign_of_inv in Sg.
  assert (W : with_sign s ng u) by (destruct Sg as [[-> ->]|[[-> ->]|[-> ->]]]; [exact (WsMinus u) | exact (WsPlus u) | exact (WsNone u)]).
  destruct (span _ u) as [a r] eqn:S1. apply span_parts in S1 as (-> & A1 & H1). destruct (span _ r) as [b c] eqn:S2. apply span_parts in S2 as (-> & A2 & H2).
  destruct (dec_part a) as [a'|] eqn:Da; [|discriminate]. destruct (frac_part b) as [b'|] eqn:Db; [|discriminate]. destruct (exp_part c) as [c'|] eqn:Dc; [|discriminate]. intros E Nd.
  destruct (dec_part_spelled2 a a' Da) as (ip & Sp & -> & Fi & L). destruct (frac_inv b b' Db) as (fp & Fr & Ff & -> & Nb).
  assert (Hc : forall x y, c = x :: y -> x = 101 \/ x = 69).
  { intros x y ->. cbn [head_not] in H2. unfold not_one_of in H2. apply negb_false_iff in H2. cbn [existsb] in H2. lia. }
  destruct (exp_inv c c' Dc Hc) as (ex & Ex & Et). assert (Ni : ip <> []) by (inversion Sp; discriminate). fold (sgn ng) in E.
  assert (P : decimal_text (sgn ng ++ digit_text ip ++ match b with [] => [] | _ :: _ => 46 :: digit_text fp end ++ c') ng (dec_val (ip ++ fp)) (ex - Z.of_nat (List.length fp))).
  { eexists. split; [apply sgn_sign | now apply sent_decimal]. }
  pose proof (parse_decimal _ _ _ _ P) as Q. match type of E with context [parse_f64 ?x] => replace (parse_f64 x) with (Some (dec_to_f64 ng (dec_val (ip ++ fp)) (ex - Z.of_nat (List.length fp)))) in E by (symmetry; exact Q) end. rewrite <- base_dec in *. exists ng, (a ++ b ++ c), (base_val 10 (ip ++ fp)), (ex - Z.of_nat (List.length fp)).
  split; [exact W|]. split.
  { constructor; auto. destruct b; [|left; discriminate]. destruct c; [|right; discriminate]. cbn [app] in Nd. rewrite app_nil_r in Nd. destruct (Nd _ Da). }
  split; [destruct P as (v & _ & D); now apply decimal_nonneg in D|]. destruct (dec_to_f64 _ _ _) as [|[|]| |]; try discriminate E; injection E as <-; split; auto; discriminate.
Qed.
Lemma decimal_not_int u d e : toml_decimal u d e -> dec_part u = None.
Proof.
  intros [ip fp a b c ex Sp L Fr Ex Nbc]. destruct (dec_part (a ++ b ++ c)) as [x|] eqn:D; [|reflexivity]. exfalso.
  destruct (dec_part_spelled2 _ _ D) as (ds & Sp2 & _). pose proof (spelled_chars _ _ Sp2) as H.
  destruct Fr as [|fd s2 Sp3].
  - destruct Ex as [|x' s3 u3 n3 d3 X _ _]; [destruct Nbc; congruence|]. specialize (H x'). rewrite in_app_iff in H. cbn [app In] in H. specialize (H ltac:(right; now left)). lia.
  - specialize (H 46). rewrite in_app_iff in H. specialize (H ltac:(right; cbn; now left)). lia.
Qed.
(** A number is no date: dates have two dashes, times have colons. *)
Definition dashes (s : str) : nat := count_occ Z.eq_dec s 45.
Lemma dashes_app a b : dashes (a ++ b) = (dashes a + dashes b)%nat.
Proof. apply count_occ_app. Qed.
Lemma dashes_none s : ~ In 45 s -> dashes s = 0%nat.
Proof. apply count_occ_not_In. Qed.
Lemma decimal_marks u d e : toml_decimal u d e -> (dashes u <= 1)%nat /\ ~ In 58 u.
Proof.
  assert (K : forall ds s, spelled 10 ds s -> dashes s = 0%nat /\ ~ In 58 s).
  { intros ds s Sp. split; [apply dashes_none|]; intros I; pose proof (spelled_chars _ _ Sp _ I); lia. }
  intros [ip fp a b c ex Sp L Fr Ex _]. destruct (K _ _ Sp) as [A1 A2].
  assert (B : dashes b = 0%nat /\ ~ In 58 b).
  { destruct Fr as [|fd s2 Sp3]; [split; auto|]. destruct (K _ _ Sp3) as [B1 B2]. rewrite dashes_app, in_app_iff, B1. split; [reflexivity|]. intros [[E|[]]|I]; [discriminate E | auto]. }
  assert (C : (dashes c <= 1)%nat /\ ~ In 58 c).
  { destruct Ex as [|x s3 u3 n3 d3 X W Sp3]; [split; auto|]. destruct (K _ _ Sp3) as [C1 C2]. change (x :: s3) with ([x] ++ s3). rewrite dashes_app, in_app_iff.
    assert (dashes [x] = 0%nat) by (apply dashes_none; cbn; lia). assert (~ In 58 [x]) by (cbn; lia).
    destruct W; rewrite ?dashes_app, ?in_app_iff; (split; [cbn in *; lia|]); cbn in *; intuition discriminate. }
  rewrite !dashes_app, !in_app_iff. split; [lia | tauto].
Qed.
Lemma date_marks s x t : read_date s = Some (x, t) -> (2 <= dashes s)%nat /\ digit_head s.
Proof.
  destruct s as [|y1 [|y2 [|y3 [|y4 [|p [|m1 [|m2 [|q [|d1 [|d2 s]]]]]]]]]]; cbn [read_date]; try discriminate; try (destruct p as [|p|p]; try discriminate; do 6 (destruct p as [p|p|]; try discriminate); try (destruct q as [|q|q]; try discriminate; do 6 (destruct q as [q|q|]; try discriminate)); fail).
  destruct (Z.eq_dec p 45) as [->|Np]; [|destruct p as [|p|p]; try discriminate; do 6 (destruct p as [p|p|]; try discriminate; try congruence)].
  destruct (Z.eq_dec q 45) as [->|Nq]; [|destruct q as [|q|q]; try discriminate; do 6 (destruct q as [q|q|]; try discriminate; try congruence)].
  destruct (two y1 y2) eqn:T; [|discriminate]. intros _. split.
  - change (y1 :: y2 :: y3 :: y4 :: 45 :: m1 :: m2 :: 45 :: d1 :: d2 :: s) with ([y1; y2; y3; y4] ++ [45] ++ [m1; m2] ++ [45] ++ d1 :: d2 :: s). rewrite !dashes_app. change (dashes [45]) with 1%nat. generalize (dashes [y1; y2; y3; y4]) (dashes [m1; m2]) (dashes (d1 :: d2 :: s)). clear. intros. lia.
  - unfold two in T. destruct (digit_char y1) eqn:D; [exact D | discriminate T].
Qed.
Lemma time_marks s x : read_time s = Some x -> In 58 s.
Proof.
  destruct s as [|h1 [|h2 [|p s]]]; cbn [read_time]; try discriminate. destruct (Z.eq_dec p 58) as [->|Np]; [intros _; cbn; auto|].
  destruct p as [|p|p]; try discriminate. do 6 (destruct p as [p|p|]; try discriminate; try congruence).
Qed.
Lemma decimal_no_date s neg u d e : with_sign s neg u -> toml_decimal u d e -> date_value s = None.
Proof.
  intros W D. destruct (decimal_marks u d e D) as [M1 M2]. unfold date_value. destruct (read_date s) as [[x t]|] eqn:R.
  - exfalso. apply date_marks in R as [R1 R2]. destruct W; cbn in R2; try discriminate R2. unfold dashes, str, char in *. lia.
  - destruct (read_time s) as [[x t]|] eqn:Tm; [|reflexivity]. exfalso. apply time_marks in Tm. destruct W; auto; cbn in Tm; destruct Tm as [E|Tm]; auto; discriminate E.
Qed.
Lemma token_float s neg u d e : with_sign s neg u -> toml_decimal u d e -> token_value s = float_result (dec_to_f64 neg d e) /\ 0 <= d.
Proof.
  intros W D. destruct (float_read s neg u d e W D) as [Fv Nn]. split; [|exact Nn]. pose proof (decimal_not_int u d e D) as Dn.
  assert (Hd : digit_head u /\ no_base u).
  { destruct D as [ip fp a b c ex Sp L Fr Ex _]. split; [pose proof (spelled_head _ _ Sp) as Hd; destruct a; [destruct Hd | exact Hd]|].
    pose proof (spelled_no_base _ _ Sp L) as B. destruct a as [|x [|y a]]; [inversion Sp | | exact B]. cbn [app]. destruct Fr as [|fd s2 Sp3]; cbn [app].
    - destruct Ex as [|x' s3 u3 n3 d3 X _ _]; [exact I|]. intros _. destruct X as [-> | ->]; repeat split; discriminate.
    - intros _. repeat split; discriminate. }
  destruct Hd as [Hd Nb]. assert (T : token_value s = dec_token s).
  { destruct W as [u|u|u].
    - exact (token_number false u Hd Nb).
    - change (lit "+" ++ u) with (43 :: u). destruct u as [|c u]; [destruct Hd|]. cbn in Hd. apply dig_spec in Hd. apply token_dec; cbn [sign_of snd]; try reflexivity; try (intros [=]; fail); [apply (str_eqb_head c u 105) | apply (str_eqb_head c u 110)]; lia.
    - apply (token_number true u Hd). cbn. destruct u; [exact I | intros [=]]. }
  rewrite T. unfold dec_token. rewrite (sign_of_with _ _ _ W Hd), Dn, Fv. unfold float_result. destruct (dec_to_f64 _ _ _) as [|[|]| |]; try reflexivity.
  now rewrite (decimal_no_date s neg u d e W D).
Qed.
Lemma inf_token s neg : with_sign s neg (lit "inf") -> token_value s = Some (TvFloat (S754_infinity neg)).
Proof. intros W. remember (lit "inf") as u eqn:E. destruct W; subst u; reflexivity. Qed.
Lemma nan_token s neg : with_sign s neg (lit "nan") -> token_value s = Some (TvFloat S754_nan).
Proof. intros W. remember (lit "nan") as u eqn:E. destruct W; subst u; reflexivity. Qed.
Lemma dec_float s f : dec_token s = Some (TvFloat f) -> toml_float s f.
Proof.
  unfold dec_token. destruct (sign_of s) as [ng u] eqn:Sg. destruct (dec_part u) as [cs|] eqn:D.
  - unfold int_in_range. destruct (in_range I64 _); discriminate.
  - destruct (float_value s) as [t|] eqn:E; [|destruct (date_value s); discriminate]. intros [= ->]. destruct (float_inv s f E) as (neg & v & d & e & W & Dv & N & -> & Ni).
    { rewrite Sg. cbn [snd]. rewrite D. discriminate. }
    eapply TfNumber; eauto. now apply dec_rounds_correctly.
Qed.
Lemma token_float_inv s f : token_value s = Some (TvFloat f) -> toml_float s f.
Proof.
  intros E. destruct (str_eqb (snd (sign_of s)) (lit "inf")) eqn:I.
  { apply str_eqb_eq in I. destruct (sign_of s) as [ng u] eqn:Sg. cbn [snd] in I. subst u. apply sign_of_inv in Sg.
    assert (W : with_sign s ng (lit "inf")) by (destruct Sg as [[-> ->]|[[-> ->]|[-> ->]]]; [exact (WsMinus _) | exact (WsPlus _) | exact (WsNone _)]).
    rewrite (inf_token _ _ W) in E. injection E as <-. exact (TfInf s ng W). }
  destruct (str_eqb (snd (sign_of s)) (lit "nan")) eqn:N.
  { apply str_eqb_eq in N. destruct (sign_of s) as [ng u] eqn:Sg. cbn [snd] in N. subst u. apply sign_of_inv in Sg.
    assert (W : with_sign s ng (lit "nan")) by (destruct Sg as [[-> ->]|[[-> ->]|[-> ->]]]; [exact (WsMinus _) | exact (WsPlus _) | exact (WsNone _)]).
    rewrite (nan_token _ _ W) in E. injection E as <-. exact (TfNan s ng W). }
  destruct (str_eqb s (lit "true")) eqn:T; [unfold token_value in E; rewrite T in E; discriminate E|].
  destruct (str_eqb s (lit "false")) eqn:F; [unfold token_value in E; rewrite T, F in E; discriminate E|].
  assert (Bi : forall b g w, based_int b g w <> Some (TvFloat f)) by (intros b g w; unfold based_int, int_in_range; destruct (underscored g w); [|discriminate]; destruct (in_range I64 _); discriminate).
  assert (Nb : no_base s -> toml_float s f) by (intros B; apply dec_float; rewrite <- (token_dec s T F I N B); exact E).
  destruct s as [|a [|b u]]; [apply Nb; exact Logic.I..|]. destruct (Z.eq_dec a 48) as [->|Na]; [|apply Nb; intros ->; congruence].
  destruct (Z.eq_dec b 120) as [->|N1]; [exfalso; apply (Bi 16 is_hex u); exact E|].
  destruct (Z.eq_dec b 111) as [->|N2]; [exfalso; apply (Bi 8 (fun c => (48 <=? c) && (c <=? 55)) u); exact E|].
  destruct (Z.eq_dec b 98) as [->|N3]; [exfalso; apply (Bi 2 (fun c => (48 <=? c) && (c <=? 49)) u); exact E|].
  apply Nb. intros _. auto.
Qed.
Lemma token_bool s b : token_value s = Some (TvBool b) <-> s = if b then lit "true" else lit "false".
Proof.
  split; [|destruct b; intros ->; reflexivity]. intros E. destruct (str_eqb s (lit "true")) eqn:T.
  { unfold token_value in E. rewrite T in E. injection E as <-. now apply str_eqb_eq. }
  destruct (str_eqb s (lit "false")) eqn:F.
  { unfold token_value in E. rewrite T, F in E. injection E as <-. now apply str_eqb_eq. }
  exfalso. unfold token_value in E. rewrite T, F in E. destruct (sign_of s) as [ng u]. destruct (str_eqb u _); [discriminate E|]. destruct (str_eqb u _); [discriminate E|].
  assert (Bi : forall b' g w, based_int b' g w <> Some (TvBool b)) by (intros b' g w; unfold based_int, int_in_range; destruct (underscored g w); [|discriminate]; destruct (in_range I64 _); discriminate).
  assert (Fl : float_value s <> Some (TvBool b)).
  { unfold float_value. destruct (sign_of s) as [ng' u']. destruct (span _ u') as [ip r]. destruct (span _ r) as [fp ep]. destruct (dec_part ip); [|discriminate]. destruct (frac_part fp); [|discriminate].
    destruct (exp_part ep); [|discriminate]. destruct (parse_f64 _) as [[| [|] | |]|]; discriminate. }
  assert (Dt : match dec_part u with Some ds => int_in_range (if ng then - number_in 10 ds else number_in 10 ds) | None => match float_value s with Some f => Some f | None => match date_value s with Some d => Some (TvDate d) | None => None end end end <> Some (TvBool b)).
  { destruct (dec_part u); [unfold int_in_range; destruct (in_range I64 _); discriminate|]. destruct (float_value s) as [t|]; [congruence|]. destruct (date_value s); discriminate. }
  destruct s as [|a [|x w]]; [exact (Dt E)|..].
  - apply Dt. rewrite <- E. destruct a as [|p|p]; try reflexivity. do 6 (destruct p as [p|p|]; try reflexivity).
  - destruct (Z.eq_dec a 48) as [->|Na].
    + destruct (Z.eq_dec x 120) as [->|N1]; [exact (Bi _ _ _ E)|]. destruct (Z.eq_dec x 111) as [->|N2]; [exact (Bi _ _ _ E)|]. destruct (Z.eq_dec x 98) as [->|N3]; [exact (Bi _ _ _ E)|].
      apply Dt. rewrite <- E. destruct x as [|p|p]; try reflexivity. do 7 (destruct p as [p|p|]; try reflexivity; try congruence).
    + apply Dt. rewrite <- E. destruct a as [|p|p]; try reflexivity. do 6 (destruct p as [p|p|]; try reflexivity; try congruence).
Qed.
(** ** Words *)
Lemma word_tok s : word s -> forallb token_char s = true /\ s <> [].
Proof.
  intros [N H]. split; [|exact N]. apply forallb_forall. intros c I. specialize (H c I). unfold token_char, bare_char, digit_char. lia.
Qed.
Lemma tok_word s : forallb token_char s = true -> s <> [] -> word s.
Proof.
  intros T N. split; [exact N|]. intros c I. rewrite forallb_forall in T. specialize (T c I). unfold token_char, bare_char, digit_char in T. lia.
Qed.
Lemma word_text s : word s -> is_text s = true.
Proof. intros [_ H]. unfold is_text. apply forallb_forall. intros c I. specialize (H c I). unfold is_scalar. lia. Qed.
Lemma word_starts s : word s -> starts s.
Proof.
  intros W. apply word_tok in W as [T N]. now apply token_start.
Qed.

Lemma token_leaf s t : token_value s = Some t -> leaf t /\ forall x, t <> TvStr x.
Proof.
  intros E. assert (G : exists u, u = Some t /\ forall y, u = Some y -> leaf y /\ forall x, y <> TvStr x); [|destruct G as (u & -> & G); now apply G].
  exists (token_value s). split; [exact E|].
  assert (Bi : forall b g w y, based_int b g w = Some y -> leaf y /\ forall x, y <> TvStr x) by (intros b g w y; unfold based_int, int_in_range; destruct (underscored g w); [|discriminate]; destruct (in_range I64 _); [|discriminate]; intros [= <-]; split; [exact I | discriminate]).
  assert (Fl : forall y, float_value s = Some y -> leaf y /\ forall x, y <> TvStr x).
  { intros y. unfold float_value. destruct (sign_of s) as [ng' u']. destruct (span _ u') as [ip r]. destruct (span _ r) as [fp ep]. destruct (dec_part ip); [|discriminate]. destruct (frac_part fp); [|discriminate].
    destruct (exp_part ep); [|discriminate]. destruct (parse_f64 _) as [[| [|] | |]|]; try discriminate; intros [= <-]; (split; [exact I | discriminate]). }
  clear E t. intros y E. destruct (token_value_cases s) as [C|[(u & -> & C)|[(u & -> & C)|[(u & -> & C)|[(b & C)|(f & C)]]]]]; rewrite C in E; eauto; try (injection E as <-; split; [exact I | discriminate]).
  unfold dec_token in E. destruct (sign_of s) as [ng u]. destruct (dec_part u).
  - unfold int_in_range in E. destruct (in_range I64 _); [|discriminate E]. injection E as <-. split; [exact I | discriminate].
  - destruct (float_value s) as [t|]; [injection E as <-; auto|]. destruct (date_value s); [|discriminate E]. injection E as <-. split; [exact I | discriminate].
Qed.
(** A line with one word is loaded exactly when the word has a value. *)
Lemma word_line r lim k s : (2 <= lim)%nat -> bare_key k -> word s ->
  (forall t, token_value s = Some t -> toml_from_str (toml_codec r (toml_text lim)) (setting_line k s) = Ok (VMap [(k, doc_value t)]))
  /\ (token_value s = None -> exists msg, toml_from_str (toml_codec r (toml_text lim)) (setting_line k s) = Err msg).
Proof.
  intros L B W. destruct (word_tok s W) as [T N]. split.
  - intros t E. apply line_loads; auto using word_text, word_starts; [exact (proj1 (token_leaf _ _ E))|]. intros f. rewrite word_value by auto. now rewrite E.
  - intros E. apply line_fails; auto using word_starts. intros f. rewrite word_value by auto. now rewrite E.
Qed.
Lemma word_loaded r lim k s v : (2 <= lim)%nat -> bare_key k -> word s -> toml_from_str (toml_codec r (toml_text lim)) (setting_line k s) = Ok v ->
  exists t, token_value s = Some t /\ v = VMap [(k, doc_value t)].
Proof.
  intros L B W E. destruct (word_line r lim k s L B W) as [A C]. destruct (token_value s) as [t|].
  - rewrite (A t eq_refl) in E. injection E as <-. eauto.
  - destruct (C eq_refl) as (m & X). congruence.
Qed.
Lemma integer_word s z : toml_integer s z -> word s.
Proof. intros H. apply token_integer in H as (_ & T & N). now apply tok_word. Qed.
Lemma decimal_word s neg u d e : with_sign s neg u -> toml_decimal u d e -> word s.
Proof.
  intros W D. destruct D as [ip fp a b c ex Sp L Fr Ex _]. assert (T : forallb token_char (a ++ b ++ c) = true).
  { rewrite !forallb_app, (spelled_tok _ _ _ Sp). cbn [andb]. apply andb_true_iff. split.
    - destruct Fr as [|fd s2 Sp2]; [reflexivity|]. rewrite forallb_app, (spelled_tok _ _ _ Sp2). reflexivity.
    - destruct Ex as [|x s3 u3 n3 d3 X W3 Sp3]; [reflexivity|]. cbn [forallb]. apply andb_true_iff. split; [destruct X as [-> | ->]; reflexivity|].
      destruct W3; rewrite ?forallb_app, (spelled_tok _ _ _ Sp3); reflexivity. }
  assert (N : a ++ b ++ c <> []) by (destruct a; [inversion Sp | discriminate]). revert T N W. generalize (a ++ b ++ c). clear. intros v T N W. apply tok_word.
  - destruct W; exact T.
  - destruct W; [exact N | discriminate | discriminate].
Qed.
