(** Reading what is written by the grammar of Spec/TomlGrammar.v. *)
From Coq Require Import ZArith Bool String Lia.
From Coq Require Import List.
Import ListNotations.
From Verif.Model Require Import Text Num Flt Value Toml TomlText.
From Verif.Spec Require Import Spec Numerals TomlTextSpec TomlGrammar.
From Verif.Proofs Require Import Basics TomlProofs TomlLex TomlNum TomlValues TomlDoc TomlProper TomlSim TomlJoin TomlFrame TomlHand TomlWords.
Local Open Scope Z_scope.

(** ** Texts in quotes *)
Lemma forall2_len {A B} (R : A -> B -> Prop) a b : Forall2 R a b -> List.length a = List.length b.
Proof. induction 1; cbn; congruence. Qed.
Lemma plain_char_in c : plain_in_quotes c -> plain_char c = true.
Proof. intros [_ [->|[H1 H2]]]; [reflexivity|]. unfold plain_char. lia. Qed.
Lemma hex_all_digits ds hs : Forall2 (digit_as 16) ds hs -> forall a, fold_left (fun a c => match a, hex_val c with Some x, Some y => Some (16 * x + y) | _, _ => None end) hs (Some a) = Some (a * 16 ^ Z.of_nat (List.length ds) + base_val 16 ds).
Proof.
  induction 1 as [|d c ds hs H F IH]; intros a; cbn [fold_left List.length base_val]; [f_equal; cbn; lia|]. rewrite (digit_hex 16 d c H), IH. f_equal. rewrite Nat2Z.inj_succ, Z.pow_succ_r by lia. ring.
Qed.
Lemma code_digits ds hs : Forall2 (digit_as 16) ds hs -> is_scalar (base_val 16 ds) = true -> code_point hs = Some (base_val 16 ds).
Proof. intros F S. unfold code_point, hex_all. rewrite (hex_all_digits _ _ F). rewrite Z.mul_0_l, Z.add_0_l. now rewrite S. Qed.
Lemma quoted_char_read c x t : quoted_char c x -> basic_string (x ++ t) = push c (basic_string t).
Proof.
  intros [c0 P N1 N2|c0 e E|c0 ds hs F L -> S|c0 ds hs F L -> S].
  - cbn [app basic_string]. destruct (Z.eqb_spec c0 34); [congruence|]. destruct (Z.eqb_spec c0 92); [congruence|]. now rewrite (plain_char_in _ P).
  - destruct E; reflexivity.
  - pose proof (code_digits _ _ F S) as C. pose proof (forall2_len _ _ _ F) as Lh. rewrite L in Lh. destruct hs as [|a [|b [|d [|e [|? ?]]]]]; try discriminate Lh.
    transitivity (push_opt (code_point [a; b; d; e]) (basic_string t)); [reflexivity | now rewrite C].
  - pose proof (code_digits _ _ F S) as C. pose proof (forall2_len _ _ _ F) as Lh. rewrite L in Lh. destruct hs as [|a [|b [|d [|e [|f [|g [|h [|i [|? ?]]]]]]]]]; try discriminate Lh.
    transitivity (push_opt (code_point [a; b; d; e; f; g; h; i]) (basic_string t)); [reflexivity | now rewrite C].
Qed.
Lemma quoted_read k s rest : quoted k s -> basic_string (s ++ 34 :: rest) = Some (k, rest).
Proof. induction 1 as [|c x k s Q H IH]; [reflexivity|]. rewrite <- app_assoc, (quoted_char_read c x _ Q), IH. reflexivity. Qed.
Lemma quoted_char_head c x : quoted_char c x -> exists a y, x = a :: y /\ a <> 34.
Proof. intros [c0 P N1 N2|c0 e E|c0 ds hs F L -> S|c0 ds hs F L -> S]; eexists; eexists; split; try reflexivity; auto; discriminate. Qed.
Lemma quoted_value_read k s rest : quoted k s -> not_quote rest -> string_value (34 :: s ++ 34 :: rest) = Some (k, rest).
Proof.
  intros Q N. rewrite sv_basic; [now apply quoted_read|]. destruct Q as [|c x k s Qc Q].
  - right. exists rest. split; [reflexivity | now apply not_quote_34].
  - left. destruct (quoted_char_head _ _ Qc) as (a & y & -> & Na). change ((34 =? a) = false). apply Z.eqb_neq. congruence.
Qed.

(** ** Keys *)
Definition key_start (c : char) : bool := bare_char c || (c =? 34) || (c =? 39).
Lemma key_text_read k s rest : key_text k s -> head_not bare_char rest -> simple_key (s ++ rest) = Some (k, rest) /\ exists c t, s = c :: t /\ key_start c = true.
Proof.
  intros [k0 B|k0 x Q|k0 O N] H.
  - split; [rewrite <- (bare_print k0 B) at 1; apply key_read; [now apply bare_is_text | exact H]|]. destruct B as [Ne B]. destruct k0 as [|c k0]; [congruence|]. exists c, k0. split; [reflexivity|].
    unfold key_start. pose proof (bare_all (c :: k0) (conj Ne B)) as A. cbn in A. apply andb_true_iff in A as [-> _]. reflexivity.
  - split; [|exists 34, (x ++ [34]); split; reflexivity]. cbn [app]. rewrite <- app_assoc. cbn [app simple_key]. now apply quoted_read.
  - split; [|exists 39, (k0 ++ [39]); split; reflexivity]. cbn [app]. rewrite <- app_assoc. cbn [app simple_key]. now apply literal_plain.
Qed.
Lemma key_start_ws c t : key_start c = true -> skip_ws (c :: t) = c :: t.
Proof. intros H. unfold skip_ws. cbn [drop_while]. replace (is_ws c) with false; [reflexivity|]. symmetry. unfold key_start, bare_char, digit_char, is_ws in *. lia. Qed.
Lemma blank_head w t (f : char -> bool) : blank w -> f 32 = false -> f 9 = false -> head_not f t -> head_not f (w ++ t).
Proof. intros B F1 F2 H. destruct w as [|c w]; [exact H|]. cbn. destruct (B c ltac:(now left)) as [-> | ->]; auto. Qed.
Definition after_key (s : str) : Prop := head_not bare_char s /\ head_not is_ws s /\ head_not (Z.eqb 46) s.
Lemma skip_ws_head s : head_not is_ws s -> skip_ws s = s.
Proof. destruct s as [|c s]; [reflexivity|]. cbn. intros H. unfold skip_ws. cbn. now rewrite H. Qed.
Lemma path_text_read p t : path_text p t -> forall fuel rest, (List.length p <= fuel)%nat -> after_key rest -> key_path fuel (t ++ rest) = Some (p, rest).
Proof.
  induction 1 as [k s w1 w2 K B1 B2|k s w1 w2 p t K B1 B2 P IH]; intros fuel rest L (A1 & A2 & A3); (destruct fuel as [|fuel]; [cbn in L; lia|]); rewrite key_path_step.
  - rewrite <- !app_assoc, (skip_blank w1) by exact B1. destruct (key_text_read k s (w2 ++ rest) K) as (E & c & u & -> & S); [now apply blank_head|].
    cbn [app] in E |- *. rewrite key_start_ws by exact S. rewrite E, skip_blank, skip_ws_head by auto. destruct rest as [|c' rest]; [reflexivity|]. change ((46 =? c') = false) in A3. rewrite Z.eqb_sym in A3. now rewrite A3.
  - rewrite <- !app_assoc, (skip_blank w1) by exact B1. destruct (key_text_read k s (w2 ++ [46] ++ t ++ rest) K) as (E & c & u & -> & S); [apply blank_head; auto; reflexivity|].
    cbn [app] in E |- *. rewrite key_start_ws by exact S. match goal with |- context [simple_key ?x] => replace (simple_key x) with (Some (k, w2 ++ 46 :: t ++ rest)) by (symmetry; exact E) end. rewrite skip_blank by auto. change (skip_ws (46 :: t ++ rest)) with (46 :: t ++ rest). change (46 =? 46) with true. cbn match.
    rewrite IH; auto. + cbn in L. lia. + repeat split; auto.
Qed.
Lemma path_len p t : path_text p t -> (List.length p <= List.length t)%nat /\ p <> [].
Proof.
  induction 1 as [k s w1 w2 K B1 B2|k s w1 w2 p t K B1 B2 P IH]; (split; [|discriminate]); destruct (key_text_read k s [] K I) as (_ & c & u & -> & _); rewrite !app_length; cbn [List.length]; rewrite ?app_length; cbn [List.length]; ln.
Qed.
Lemma path_strip p t : path_text p t -> exists w c u, blank w /\ t = w ++ c :: u /\ key_start c = true /\ path_text p (c :: u).
Proof.
  intros [k s w1 w2 K B1 B2|k s w1 w2 q u K B1 B2 P]; destruct (key_text_read k s [] K I) as (_ & c & x & -> & S).
  - exists w1, c, (x ++ w2). repeat split; auto. apply (PtOne k (c :: x) [] w2 K); [intros z [] | exact B2].
  - exists w1, c, (x ++ w2 ++ [46] ++ u). repeat split; auto. apply (PtMore k (c :: x) [] w2 q u K); auto. intros z [].
Qed.
