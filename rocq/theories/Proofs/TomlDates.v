(** Dates and times of TOML files: the reader against Spec/TomlDates.v. *)
From Coq Require Import ZArith Bool String Lia.
From Coq Require Import List.
Import ListNotations.
From Verif.Model Require Import Text Num Flt Value Toml TomlText.
From Verif.Spec Require Import Spec Numerals TomlTextSpec TomlDates.
From Verif.Proofs Require Import Basics TomlProofs TomlLex TomlNum TomlValues TomlDoc TomlProper TomlWords.
Local Open Scope Z_scope.

Lemma two_some a b n : two a b = Some n <-> two_digits [a; b] n.
Proof.
  unfold two, two_digits, is_digit, digit_text, digit_char. split.
  - destruct (_ && _) eqn:E; [|discriminate]. intros [= <-]. exists (a - 48), (b - 48). split; [lia|]. split; [lia|]. split; [cbn [map]; now rewrite !Zplus_minus | reflexivity].
  - intros (x & y & X & Y & E & ->). cbn [map] in E. assert (a = 48 + x) as -> by congruence. assert (b = 48 + y) as -> by congruence. clear E. replace ((48 <=? 48 + x) && (48 + x <=? 57) && ((48 <=? 48 + y) && (48 + y <=? 57))) with true by (symmetry; lia). f_equal. clear. change (10 * (48 + x - 48) + (48 + y - 48) = 10 * x + y). ring.
Qed.
Lemma two_shape s n : two_digits s n -> exists a b, s = [a; b] /\ two a b = Some n /\ digit_char a = true /\ digit_char b = true.
Proof. intros H. pose proof H as (x & y & X & Y & -> & _). exists (48 + x), (48 + y). repeat split; [now apply two_some|..]; unfold digit_char, is_digit in *; lia. Qed.
Lemma two_nonneg a b n : two a b = Some n -> 0 <= n <= 99.
Proof. intros H. apply two_some in H as (x & y & X & Y & _ & ->). unfold is_digit in *. lia. Qed.

Lemma divide_mod a b : 0 < a -> (b mod a =? 0) = true <-> (a | b).
Proof. intros A. rewrite Z.eqb_eq. apply Z.mod_divide. lia. Qed.
Lemma leap_ok y : ((y mod 4 =? 0) && negb (y mod 100 =? 0)) || (y mod 400 =? 0) = true <-> leap y.
Proof.
  unfold leap. rewrite orb_true_iff, andb_true_iff, negb_true_iff, <- not_true_iff_false, !divide_mod by lia. reflexivity.
Qed.
Lemma month_ok y m d : (1 <=? m) && (m <=? 12) && (1 <=? d) && (d <=? days_in y m) = true <-> in_month y m d.
Proof.
  unfold in_month, days_in. cbn [In]. pose proof (leap_ok y) as L. destruct (((y mod 4 =? 0) && negb (y mod 100 =? 0)) || (y mod 400 =? 0)) eqn:E; split.
  - intros H. assert (leap y) by now apply L. destruct (Z.eqb_spec m 2) as [->|N].
    + split; [lia|]. destruct (Z.eq_dec d 29) as [->|]; [tauto | right; right; left; lia].
    + destruct ((m =? 4) || (m =? 6) || (m =? 9) || (m =? 11)) eqn:F; (split; [lia|]); [right; left | left]; lia.
  - intros (H1 & [[A B]|[[A B]|[[A B]|(A & _ & B)]]]).
    + destruct (Z.eqb_spec m 2) as [->|N]; [lia|]. destruct ((m =? 4) || (m =? 6) || (m =? 9) || (m =? 11)) eqn:F; lia.
    + destruct (Z.eqb_spec m 2) as [->|N]; [lia|]. destruct ((m =? 4) || (m =? 6) || (m =? 9) || (m =? 11)) eqn:F; lia.
    + rewrite A. cbn [Z.eqb Pos.eqb]. lia.
    + rewrite A. cbn [Z.eqb Pos.eqb]. lia.
  - intros H. destruct (Z.eqb_spec m 2) as [->|N].
    + split; [lia|]. right; right; left; lia.
    + destruct ((m =? 4) || (m =? 6) || (m =? 9) || (m =? 11)) eqn:F; (split; [lia|]); [right; left | left]; lia.
  - intros (H1 & [[A B]|[[A B]|[[A B]|(A & Ly & B)]]]).
    + destruct (Z.eqb_spec m 2) as [->|N]; [lia|]. destruct ((m =? 4) || (m =? 6) || (m =? 9) || (m =? 11)) eqn:F; lia.
    + destruct (Z.eqb_spec m 2) as [->|N]; [lia|]. destruct ((m =? 4) || (m =? 6) || (m =? 9) || (m =? 11)) eqn:F; lia.
    + rewrite A. cbn [Z.eqb Pos.eqb]. lia.
    + apply L in Ly. discriminate Ly.
Qed.

(** ** Dates *)
Lemma read_date_some s d t : read_date s = Some (d, t) <-> s = d ++ t /\ date_text d.
Proof.
  split.
  - intros H. destruct s as [|y1 [|y2 [|y3 [|y4 [|p [|m1 [|m2 [|q [|d1 [|d2 s]]]]]]]]]]; cbn [read_date] in H; try discriminate H; try (bits p H; fail); try (bits p H; bits q H; fail).
    destruct (Z.eq_dec p 45) as [->|Np]; [|exfalso; bits p H; now apply Np].
    destruct (Z.eq_dec q 45) as [->|Nq]; [|exfalso; bits q H; now apply Nq].
    destruct (two y1 y2) as [a|] eqn:E1; [|discriminate H]. destruct (two y3 y4) as [b|] eqn:E2; [|discriminate H]. destruct (two m1 m2) as [m|] eqn:E3; [|discriminate H]. destruct (two d1 d2) as [e|] eqn:E4; [|discriminate H].
    destruct ((1 <=? m) && _ && _ && _) eqn:M in H; [|discriminate H]. apply month_ok in M. cbn [firstn] in H. injection H as <- <-. split; [reflexivity|].
    exists a, b, m, e, [y1; y2], [y3; y4], [m1; m2], [d1; d2]. repeat split; try (now apply two_some); try apply M.
  - intros [-> (a & b & m & e & sa & sb & sm & se & A & B & M & D & I & ->)].
    destruct (two_shape _ _ A) as (a1 & a2 & -> & A' & _). destruct (two_shape _ _ B) as (b1 & b2 & -> & B' & _). destruct (two_shape _ _ M) as (m1 & m2 & -> & M' & _). destruct (two_shape _ _ D) as (e1 & e2 & -> & D' & _).
    cbn [app lit]. change (lit "-") with [45]. cbn [app]. cbn [read_date]. rewrite A', B', M', D'. apply month_ok in I. rewrite I. reflexivity.
Qed.
Lemma date_length d : date_text d -> List.length d = 10%nat.
Proof. intros (a & b & m & e & sa & sb & sm & se & (x1 & x2 & _ & _ & -> & _) & (x3 & x4 & _ & _ & -> & _) & (x5 & x6 & _ & _ & -> & _) & (x7 & x8 & _ & _ & -> & _) & _ & ->). reflexivity. Qed.

(** ** Fractions *)
Lemma drop_zeros_spec l : Forall is_digit l -> exists zs, Forall (eq 0) zs /\
  ((l = zs /\ drop_while (Z.eqb 48) (digit_text l) = []) \/ (exists d ks, l = zs ++ d :: ks /\ d <> 0 /\ drop_while (Z.eqb 48) (digit_text l) = digit_text (d :: ks))).
Proof.
  induction 1 as [|d l D F (zs & Z0 & IH)]; [exists []; split; [constructor | left; auto]|]. unfold is_digit in D. destruct (Z.eq_dec d 0) as [->|N].
  - exists (0 :: zs). split; [now constructor|]. change (drop_while (Z.eqb 48) (digit_text (0 :: l))) with (drop_while (Z.eqb 48) (digit_text l)).
    destruct IH as [[-> IH]|(e & ks & -> & Ne & IH)]; [left; auto | right; exists e, ks; auto].
  - exists []. split; [constructor|]. right. exists d, l. split; [reflexivity|]. split; [exact N|]. cbn [digit_text map drop_while]. replace (48 =? 48 + d) with false by (symmetry; lia). reflexivity.
Qed.
Lemma digit_text_rev l : digit_text (rev l) = rev (digit_text l).
Proof. apply map_rev. Qed.
Lemma trim_spec l : Forall is_digit l -> (Forall (eq 0) l /\ trim_zeros (digit_text l) = []) \/ (exists ks d zs, l = ks ++ [d] ++ zs /\ d <> 0 /\ Forall (eq 0) zs /\ trim_zeros (digit_text l) = digit_text (ks ++ [d])).
Proof.
  intros F. unfold trim_zeros. rewrite <- digit_text_rev. destruct (drop_zeros_spec (rev l)) as (zs & Z0 & [[E ->]|(d & ks & E & N & ->)]).
  - now apply Forall_rev.
  - left. split; [|reflexivity]. rewrite <- (rev_involutive l). apply Forall_rev. now rewrite E.
  - right. exists (rev ks), d, (rev zs). rewrite <- (rev_involutive l), E, rev_app_distr. cbn [rev]. rewrite <- app_assoc. repeat split; auto.
    + now apply Forall_rev.
    + rewrite <- digit_text_rev. reflexivity.
Qed.
Lemma trim_last ks d zs : d <> 0 -> Forall is_digit (ks ++ [d] ++ zs) -> Forall (eq 0) zs -> trim_zeros (digit_text (ks ++ [d] ++ zs)) = digit_text (ks ++ [d]).
Proof.
  intros N F Z0. unfold trim_zeros. rewrite <- digit_text_rev. transitivity (rev (digit_text (rev (ks ++ [d])))); [|rewrite digit_text_rev; apply rev_involutive]. f_equal.
  rewrite app_assoc, rev_app_distr. rewrite Forall_app in F. destruct F as [_ F]. rewrite Forall_app in F. destruct F as [Fd _]. inversion Fd; subst. unfold is_digit in *.
  assert (G : Forall (eq 0) (rev zs)) by now apply Forall_rev. induction G as [|z l <- _ IH]; [|exact IH].
  rewrite rev_app_distr. cbn [rev app digit_text map drop_while]. replace (48 =? 48 + d) with false by (symmetry; lia). reflexivity.
Qed.
Lemma digits_chars l : Forall is_digit l -> forallb digit_char (digit_text l) = true.
Proof. induction 1 as [|d l D _ IH]; [reflexivity|]. cbn [digit_text map forallb]. apply andb_true_iff. split; [unfold is_digit, digit_char in *; lia | exact IH]. Qed.
Lemma chars_digits s : forallb digit_char s = true -> exists l, Forall is_digit l /\ s = digit_text l.
Proof.
  induction s as [|c s IH]; intros H; [exists []; split; [constructor | reflexivity]|]. cbn in H. apply andb_true_iff in H as [H1 H2]. destruct (IH H2) as (l & F & ->).
  exists (c - 48 :: l). unfold digit_char in H1. split; [constructor; [unfold is_digit; lia | exact F]|]. cbn [digit_text map]. now rewrite Zplus_minus.
Qed.
(** What may follow: no digit, and no point. *)
Definition ends_time (r : str) : Prop := match r with c :: _ => digit_char c = false /\ c <> 46 | [] => True end.
Lemma firstn_text n l : firstn n (digit_text l) = digit_text (firstn n l).
Proof. apply firstn_map. Qed.
Lemma Forall_firstn {A} (P : A -> Prop) n l : Forall P l -> Forall P (firstn n l).
Proof. intros H. revert n. induction H; intros [|n]; cbn; constructor; auto. Qed.
Lemma span_digits l r : Forall is_digit l -> ends_time r -> span digit_char (digit_text l ++ r) = (digit_text l, r).
Proof.
  intros F R. induction F as [|d l D _ IH]; [|cbn [digit_text map app span]; replace (digit_char (48 + d)) with true by (unfold digit_char, is_digit in *; lia); fold (digit_text l); now rewrite IH].
  destruct r as [|c r]; [reflexivity|]. destruct R as [R _]. cbn. now rewrite R.
Qed.
Lemma read_fraction_some s g r : read_fraction s = Some (g, r) -> exists f, s = f ++ r /\ fraction_text f g.
Proof.
  intros H. destruct s as [|c t]; [injection H as <- <-; exists []; split; [reflexivity | constructor]|]. destruct (Z.eq_dec c 46) as [->|N].
  - cbn [read_fraction] in H. destruct (span digit_char t) as [ds u] eqn:E. apply span_parts in E as (-> & D & _). destruct (chars_digits ds D) as (l & F & ->). destruct l as [|a l]; [discriminate H|].
    assert (H' : Some (match trim_zeros (digit_text (firstn 9 (a :: l))) with [] => [] | z => 46 :: z end, u) = Some (g, r)) by (rewrite <- firstn_text; exact H). clear H.
    exists (46 :: digit_text (a :: l)). destruct (trim_spec (firstn 9 (a :: l)) (Forall_firstn _ _ _ F)) as [[Z0 T]|(ks & d & zs & Ek & Nd & Z0 & T)]; rewrite T in H'.
    + injection H' as <- <-. split; [reflexivity|]. apply (FrZero (a :: l)); auto. discriminate.
    + assert (X : g = 46 :: digit_text (ks ++ [d]) /\ u = r) by (destruct (digit_text (ks ++ [d])) eqn:Q; [destruct ks; discriminate Q | injection H' as <- <-; auto]). destruct X as [-> ->].
      split; [reflexivity|]. apply (FrSome (a :: l) ks d zs); auto.
  - assert (X : Some ([] : str, c :: t) = Some (g, r)) by (rewrite <- H; cbn [read_fraction]; destruct c as [|q|q]; try reflexivity; do 6 (destruct q as [q|q|]; try reflexivity; try congruence)). injection X as <- <-. exists []. split; [reflexivity | constructor].
Qed.
Lemma read_fraction_ok f g r : fraction_text f g -> ends_time r -> read_fraction (f ++ r) = Some (g, r).
Proof.
  intros H R. destruct H as [|ds N F Z0|ds ks d zs F E N Z0].
  - cbn [app]. destruct r as [|c r]; [reflexivity|]. destruct R as [_ R]. cbn [read_fraction]. destruct c as [|q|q]; try reflexivity; do 6 (destruct q as [q|q|]; try reflexivity; try congruence).
  - change (read_fraction (lit "." ++ digit_text ds ++ r) = Some ([], r)). change (lit "." ++ digit_text ds ++ r) with (46 :: digit_text ds ++ r). cbn [read_fraction]. rewrite span_digits by auto.
    rewrite firstn_text. assert (T : trim_zeros (digit_text (firstn 9 ds)) = []).
    { destruct (trim_spec (firstn 9 ds) (Forall_firstn _ _ _ F)) as [[_ T]|(ks & d & zs & Ek & Nd & _)]; [exact T|]. rewrite Ek, !Forall_app in Z0. destruct Z0 as (_ & Z0 & _). inversion Z0; subst. congruence. }
    rewrite T. destruct ds; [congruence | reflexivity].
  - change (read_fraction (46 :: digit_text ds ++ r) = Some (46 :: digit_text (ks ++ [d]), r)). cbn [read_fraction]. rewrite span_digits by auto. rewrite firstn_text, E, trim_last; auto; [|rewrite <- E; now apply Forall_firstn].
    destruct (digit_text ds) eqn:Q; [destruct ds; [destruct ks; discriminate E | discriminate Q]|]. destruct (digit_text (ks ++ [d])) eqn:Q2; [destruct ks; discriminate Q2 | reflexivity].
Qed.

(** ** Times *)
Lemma read_time_some s n r : read_time s = Some (n, r) -> exists t, s = t ++ r /\ time_text t n.
Proof.
  intros H. destruct s as [|h1 [|h2 [|p [|m1 [|m2 [|q [|x1 [|x2 s]]]]]]]]; cbn [read_time] in H; try discriminate H; try (bits p H; fail); try (bits p H; bits q H; fail).
  destruct (Z.eq_dec p 58) as [->|Np]; [|exfalso; bits p H; now apply Np].
  destruct (Z.eq_dec q 58) as [->|Nq]; [|exfalso; bits q H; now apply Nq].
  destruct (two h1 h2) as [h|] eqn:E1; [|discriminate H]. destruct (two m1 m2) as [m|] eqn:E2; [|discriminate H]. destruct (two x1 x2) as [x|] eqn:E3; [|discriminate H].
  destruct ((h <=? 23) && (m <=? 59) && (x <=? 60)) eqn:M; [|discriminate H]. destruct (read_fraction s) as [[g u]|] eqn:F; [|discriminate H]. cbn [firstn app] in H. injection H as <- <-.
  apply read_fraction_some in F as (f & -> & F). exists ([h1; h2; 58; m1; m2; 58; x1; x2] ++ f). split; [reflexivity|].
  exists h, m, x, [h1; h2], [m1; m2], [x1; x2], f, g. repeat split; try (now apply two_some); try lia; auto.
Qed.
Lemma read_time_ok t n r : time_text t n -> ends_time r -> read_time (t ++ r) = Some (n, r).
Proof.
  intros (h & m & x & sh & sm & sx & f & g & H & M & X & Lh & Lm & Lx & F & -> & ->) R.
  destruct (two_shape _ _ H) as (h1 & h2 & -> & H' & _). destruct (two_shape _ _ M) as (m1 & m2 & -> & M' & _). destruct (two_shape _ _ X) as (x1 & x2 & -> & X' & _).
  change (lit ":") with [58]. cbn [app]. cbn [read_time]. rewrite H', M', X'. replace ((h <=? 23) && (m <=? 59) && (x <=? 60)) with true by (symmetry; lia). rewrite (read_fraction_ok f g r F R). reflexivity.
Qed.
(** ** Offsets *)
Lemma read_offset_some z o : read_offset z = Some o <-> offset_text z o.
Proof.
  split.
  - intros H. destruct z as [|c [|h1 [|h2 [|p [|m1 [|m2 [|e z]]]]]]]; cbn [read_offset] in H; try discriminate H.
    + injection H as <-. constructor.
    + destruct (_ || _) eqn:E; [|discriminate H]. injection H as <-. apply (OfUtc [c]). assert (c = 90 \/ c = 122) as [->| ->] by lia; [left | right]; reflexivity.
    + bits p H.
    + bits p H.
    + destruct (Z.eq_dec p 58) as [->|Np]; [|exfalso; bits p H; now apply Np].
      destruct (two h1 h2) as [h|] eqn:E1; [|discriminate H]. destruct (two m1 m2) as [m|] eqn:E2; [|discriminate H].
      destruct (((c =? 43) || (c =? 45)) && (h <=? 23) && (m <=? 59)) eqn:E; [|discriminate H]. assert (G : [c] = lit "+" \/ [c] = lit "-") by (assert (c = 43 \/ c = 45) as [->| ->] by lia; [left | right]; reflexivity).
      destruct ((h =? 0) && (m =? 0)) eqn:Z0; injection H as <-.
      * apply two_some in E1 as (a1 & a2 & A1 & A2 & Ea & Eh). apply two_some in E2 as (b1 & b2 & B1 & B2 & Eb & Em). unfold is_digit in *. assert (a1 = 0 /\ a2 = 0 /\ b1 = 0 /\ b2 = 0) as (-> & -> & -> & ->) by lia.
        injection Ea as -> ->. injection Eb as -> ->. exact (OfZero [c] G).
      * apply (OfSome [c] h m [h1; h2] [m1; m2]); auto; try (now apply two_some); lia.
    + bits p H.
  - intros H. destruct H as [|c [->| ->]|g [->| ->]|g h m sh sm G Hh Hm Lh Lm N]; try reflexivity.
    destruct (two_shape _ _ Hh) as (h1 & h2 & -> & H' & _). destruct (two_shape _ _ Hm) as (m1 & m2 & -> & M' & _).
    destruct G as [->| ->]; change (lit ":") with [58]; change (lit "+") with [43]; change (lit "-") with [45]; cbn [app]; cbn [read_offset]; rewrite H', M';
      cbn [Z.eqb Pos.eqb orb andb]; replace ((h <=? 23) && (m <=? 59)) with true by (symmetry; lia); replace ((h =? 0) && (m =? 0)) with false by (symmetry; lia); reflexivity.
Qed.
Lemma offset_ends z o : offset_text z o -> ends_time z.
Proof. intros H. destruct H as [|c [->| ->]|g [->| ->]|g h m sh sm [->| ->] _ _ _ _ _]; cbn; auto; split; lia || reflexivity. Qed.

(** ** Both *)
Lemma time_no_date t n d r : time_text t n -> read_date t <> Some (d, r).
Proof.
  intros (h & m & x & sh & sm & sx & f & g & H & M & X & _ & _ & _ & _ & -> & _). destruct (two_shape _ _ H) as (h1 & h2 & -> & _ & _). destruct (two_shape _ _ M) as (m1 & m2 & -> & _ & Dm & _).
  intros E. apply read_date_some in E as [E (a & b & mm & e & sa & sb & smm & se & A & B & _ & _ & _ & ->)].
  destruct (two_shape _ _ A) as (a1 & a2 & -> & _). destruct (two_shape _ _ B) as (b1 & b2 & -> & _ & B1 & _). change (lit ":") with [58] in E. cbn [app] in E. injection E as _ _ E _. subst. discriminate B1.
Qed.
Lemma moment_value s n : date_value s = Some n <-> moment_text s n.
Proof.
  unfold date_value. split.
  - destruct (read_date s) as [[d u]|] eqn:D.
    + apply read_date_some in D as [-> D]. destruct u as [|c t]; [intros [= <-]; rewrite app_nil_r; now constructor|]. destruct (_ || _) eqn:C; [|discriminate]. destruct (read_time t) as [[m r]|] eqn:T; [|discriminate].
      apply read_time_some in T as (x & -> & T). destruct (read_offset r) as [o|] eqn:O; [|discriminate]. apply read_offset_some in O. intros [= <-].
      apply (MoBoth d [c] x m r o); auto. assert (c = 84 \/ c = 116 \/ c = 32) as [->|[->| ->]] by lia; auto.
    + destruct (read_time s) as [[m [|c r]]|] eqn:T; try discriminate. intros [= <-]. apply read_time_some in T as (x & -> & T). rewrite app_nil_r. now constructor.
  - intros H. destruct H as [d D|t n T|d c t n z o D C T O].
    + assert (X : read_date d = Some (d, [])) by (apply read_date_some; rewrite app_nil_r; auto). now rewrite X.
    + destruct (read_date t) as [[d r]|] eqn:D; [now apply (time_no_date t n d r) in D|]. rewrite <- (app_nil_r t) at 1. rewrite (read_time_ok t n []); [reflexivity | exact T | exact I].
    + assert (X : read_date (d ++ c ++ t ++ z) = Some (d, c ++ t ++ z)) by (apply read_date_some; auto). rewrite X. destruct C as [->|[->| ->]]; cbn [app]; change (lit "T") with [84]; change (lit "t") with [116]; change (lit " ") with [32]; cbn [app Z.eqb Pos.eqb orb];
        rewrite (read_time_ok t n z) by eauto using offset_ends; apply read_offset_some in O; rewrite O; reflexivity.
Qed.
(** ** Words that are dates *)
Lemma digit_tok x : digit_char x = true -> token_char x = true.
Proof. unfold token_char, bare_char, digit_char. lia. Qed.
Lemma two_chars s n c : two_digits s n -> In c s -> token_char c = true.
Proof. intros H I. destruct (two_shape _ _ H) as (a & b & -> & _ & A & B). destruct I as [<-|[<-|[]]]; now apply digit_tok. Qed.
Lemma date_chars s c : date_text s -> In c s -> token_char c = true.
Proof.
  intros (y & z & m & d & sy & sz & sm & sd & H1 & H2 & H3 & H4 & _ & ->) I. rewrite !in_app_iff in I. change (lit "-") with [45] in I. destruct I as [I|[I|[[<-|[]]|[I|[[<-|[]]|I]]]]]; eauto using two_chars; reflexivity.
Qed.
Lemma fraction_chars f g c : fraction_text f g -> In c f -> token_char c = true.
Proof.
  intros H I. assert (X : forall ds, Forall is_digit ds -> In c (lit "." ++ digit_text ds) -> token_char c = true).
  { intros ds F J. apply in_app_iff in J as [J|J]; [vm_compute in J; destruct J as [<-|[]]; reflexivity|]. apply digit_tok. apply digits_chars in F. rewrite forallb_forall in F. now apply F. }
  destruct H; [destruct I | |]; eauto.
Qed.
Lemma time_chars t n c : time_text t n -> In c t -> token_char c = true.
Proof.
  intros (h & m & x & sh & sm & sx & f & g & H1 & H2 & H3 & _ & _ & _ & F & -> & _) I. rewrite !in_app_iff in I. change (lit ":") with [58] in I. destruct I as [I|[[<-|[]]|[I|[[<-|[]]|[I|I]]]]]; eauto using two_chars, fraction_chars; reflexivity.
Qed.
Lemma offset_chars z o c : offset_text z o -> In c z -> token_char c = true.
Proof.
  intros H I. assert (G : forall g, g = lit "+" \/ g = lit "-" -> In c g -> token_char c = true) by (intros g [->| ->] J; vm_compute in J; destruct J as [<-|[]]; reflexivity).
  destruct H as [|x [->| ->]|g G0|g h m sh sm G0 H1 H2 _ _ _].
  - destruct I.
  - vm_compute in I. destruct I as [<-|[]]; reflexivity.
  - vm_compute in I. destruct I as [<-|[]]; reflexivity.
  - apply in_app_iff in I as [I|I]; [eauto|]. vm_compute in I. repeat (destruct I as [<-|I]; [reflexivity|]). destruct I.
  - rewrite !in_app_iff in I. change (lit ":") with [58] in I. destruct I as [I|[I|[[<-|[]]|I]]]; eauto using two_chars; reflexivity.
Qed.
Lemma date_no_dec s n : moment_text s n -> forall x, dec_part (snd (sign_of s)) <> Some x.
Proof.
  intros M x E. apply moment_value in M. unfold date_value in M. apply dec_part_spelled2 in E as (ds & Sp & _). pose proof (spelled_chars ds _ Sp) as C.
  destruct (read_date s) as [[d t]|] eqn:R.
  - apply date_marks in R as [Da Dh]. assert (X : sign_of s = (false, s)) by (destruct s as [|c s]; [destruct Dh|]; cbn in Dh; unfold sign_of; destruct (Z.eq_dec c 45) as [->|]; [discriminate Dh|]; destruct (Z.eq_dec c 43) as [->|]; [discriminate Dh|]; destruct c as [|q|q]; try reflexivity; do 6 (destruct q as [q|q|]; try reflexivity; try congruence)).
    rewrite X in C. cbn [snd] in C. rewrite dashes_none in Da; [lia|]. intros J. apply C in J. lia.
  - destruct (read_time s) as [[y u]|] eqn:T; [|discriminate M]. apply time_marks in T. destruct (sign_of s) as [ng u'] eqn:Sg. cbn [snd] in C.
    destruct (sign_of_inv _ _ _ Sg) as [[_ ->]|[[_ ->]|[_ ->]]]; [destruct T as [T|T]; [discriminate T|]..|]; apply C in T; lia.
Qed.
Lemma float_is s t : float_value s = Some t -> exists f, t = TvFloat f.
Proof.
  unfold float_value. destruct (sign_of s) as [ng u]. destruct (span _ u) as [ip r]. destruct (span _ r) as [fp ep]. destruct (dec_part ip); [|discriminate]. destruct (frac_part fp); [|discriminate].
  destruct (exp_part ep); [|discriminate]. destruct (parse_f64 _) as [[| [|] | |]|]; try discriminate; intros [= <-]; eauto.
Qed.
Lemma date_no_float s n : moment_text s n -> float_value s = None.
Proof.
  intros M. destruct (float_value s) as [t|] eqn:E; [|reflexivity]. exfalso. destruct (float_is _ _ E) as (f & ->). destruct (float_inv _ _ E (date_no_dec _ _ M)) as (neg & u & d & e & W & D & _).
  apply moment_value in M. rewrite (decimal_no_date _ _ _ _ _ W D) in M. discriminate M.
Qed.
Lemma token_date s n : token_value s = Some (TvDate n) <-> moment_text s n.
Proof.
  split.
  - intros E. assert (Bi : forall b g w, based_int b g w <> Some (TvDate n)) by (intros b g w; unfold based_int, int_in_range; destruct (underscored g w); [|discriminate]; destruct (in_range I64 _); discriminate).
    destruct (token_value_cases s) as [C|[(u & -> & C)|[(u & -> & C)|[(u & -> & C)|[(b & C)|(f & C)]]]]]; rewrite C in E; try discriminate E; try (now apply Bi in E).
    unfold dec_token in E. destruct (sign_of s) as [ng u]. destruct (dec_part u); [unfold int_in_range in E; destruct (in_range I64 _); discriminate E|].
    destruct (float_value s) as [t|] eqn:F; [injection E as ->; apply float_is in F as (f & F); discriminate F|]. apply moment_value. destruct (date_value s); [now injection E as ->|discriminate E].
  - intros M. pose proof (date_no_dec _ _ M) as Nd. pose proof (date_no_float _ _ M) as Nf. assert (H3 : exists a b c r, s = a :: b :: c :: r /\ digit_char a = true /\ digit_char b = true).
    { destruct M as [d D|t n T|d x t n z o D C T O].
      - destruct D as (y & w & m & e & sy & sw & sm & sd & H1 & H2 & _ & _ & _ & ->). destruct (two_shape _ _ H1) as (a & b & -> & _ & A & B). destruct (two_shape _ _ H2) as (a' & b' & -> & _). cbn [app]. eauto 10.
      - destruct T as (h & m & x & sh & sm & sx & f & g & H1 & _ & _ & _ & _ & _ & _ & -> & _). destruct (two_shape _ _ H1) as (a & b & -> & _ & A & B). change (lit ":") with [58]. cbn [app]. eauto 10.
      - destruct D as (y & w & m & e & sy & sw & sm & sd & H1 & H2 & _ & _ & _ & ->). destruct (two_shape _ _ H1) as (a & b & -> & _ & A & B). destruct (two_shape _ _ H2) as (a' & b' & -> & _). cbn [app]. eauto 10. }
    apply moment_value in M. destruct H3 as (a & b & c & r & -> & A & B).
    assert (Sg : sign_of (a :: b :: c :: r) = (false, a :: b :: c :: r)) by (unfold sign_of; destruct (Z.eq_dec a 45) as [->|]; [discriminate A|]; destruct (Z.eq_dec a 43) as [->|]; [discriminate A|]; destruct a as [|q|q]; try reflexivity; do 6 (destruct q as [q|q|]; try reflexivity; try congruence)).
    assert (Nl : forall w, match w with x :: _ => digit_char x = false | [] => True end -> str_eqb (a :: b :: c :: r) w = false).
    { intros w Hw. destruct (str_eqb _ w) eqn:E; [|reflexivity]. apply str_eqb_eq in E. subst w. rewrite Hw in A. discriminate A. }
    rewrite token_dec; try (rewrite Sg; cbn [snd]); try (apply Nl; reflexivity).
    + unfold dec_token. rewrite Sg in *. cbn [snd] in Nd. destruct (dec_part (a :: b :: c :: r)) as [x|]; [now destruct (Nd x)|]. rewrite Nf, M. reflexivity.
    + intros ->. repeat split; intros ->; discriminate B.
Qed.
Lemma date_head d : date_text d -> exists c u, d = c :: u /\ digit_char c = true.
Proof. intros (y & w & m & e & sy & sw & sm & sd & H1 & _ & _ & _ & _ & ->). destruct (two_shape _ _ H1) as (a & b & -> & _ & A & B). cbn [app]. eauto. Qed.
Lemma time_head t n : time_text t n -> exists c u, t = c :: u /\ digit_char c = true.
Proof. intros (h & m & x & sh & sm & sx & f & g & H1 & _ & _ & _ & _ & _ & _ & -> & _). destruct (two_shape _ _ H1) as (a & b & -> & _ & A & B). cbn [app]. eauto. Qed.
Lemma spaced_end d t n z o rest : date_text d -> time_text t n -> offset_text z o -> head_not token_char rest ->
  token_end (d ++ [32] ++ (t ++ z) ++ rest) = (d ++ [32] ++ t ++ z, rest).
Proof.
  intros D T O R. assert (Ad : forallb token_char d = true) by (apply forallb_forall; eauto using date_chars).
  assert (At : forallb token_char (t ++ z) = true) by (apply forallb_forall; intros c I; apply in_app_iff in I as [I|I]; eauto using time_chars, offset_chars).
  unfold token_end. rewrite (span_all token_char d) by (auto; reflexivity). cbn [app]. destruct (time_head t n T) as (c & u & -> & C). cbn [app]. rewrite C.
  assert (X : read_date d = Some (d, [])) by (apply read_date_some; rewrite app_nil_r; auto). rewrite X. cbn [andb tl].
  change (c :: (u ++ z) ++ rest) with (((c :: u) ++ z) ++ rest). rewrite (span_all token_char ((c :: u) ++ z)) by auto. reflexivity.
Qed.
Lemma spaced_read lim f deep d t n z o rest : date_text d -> time_text t n -> offset_text z o -> head_not token_char rest ->
  value_at lim (S f) deep ((d ++ [32] ++ t ++ z) ++ rest) = Some (TvDate (d ++ [84] ++ n ++ o), rest).
Proof.
  intros D T O R. assert (V : token_value (d ++ [32] ++ t ++ z) = Some (TvDate (d ++ [84] ++ n ++ o))) by (apply token_date; apply (MoBoth d [32] t n z o); auto).
  assert (E : (d ++ [32] ++ t ++ z) ++ rest = d ++ [32] ++ (t ++ z) ++ rest) by (rewrite <- !app_assoc; reflexivity). rewrite E. pose proof (spaced_end d t n z o rest D T O R) as Te.
  destruct (date_head d D) as (c & u & -> & C). cbn [app] in Te |- *. cbn [value_at].
  replace ((c =? 34) || (c =? 39)) with false by (unfold digit_char in C; lia). replace (c =? 91) with false by (unfold digit_char in C; lia). replace (c =? 123) with false by (unfold digit_char in C; lia).
  rewrite Te. cbn [app] in V. rewrite V. reflexivity.
Qed.
