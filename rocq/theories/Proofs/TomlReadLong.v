(** Reading texts in three quotes (C130). *)
From Coq Require Import ZArith Bool String Lia.
From Coq Require Import List.
Import ListNotations.
From Verif.Model Require Import Text Num Flt Value Toml TomlText.
From Verif.Spec Require Import Spec Numerals TomlTextSpec TomlGrammar.
From Verif.Proofs Require Import Basics TomlProofs TomlLex TomlNum TomlValues TomlDoc TomlProper TomlSim TomlJoin TomlFrame TomlHand TomlWords TomlRead.
Local Open Scope Z_scope.

(** ** How the readers step *)
Definition starts_lf (t : str) : bool := match t with x :: _ => x =? 10 | [] => false end.
Lemma mb_quote t : ml_basic JNo (34 :: t) = match closing 34 t with Some r => Some r | None => push 34 (ml_basic JNo t) end.
Proof. reflexivity. Qed.
Lemma mb_lf t : ml_basic JNo (10 :: t) = push 10 (ml_basic JNo t).
Proof. reflexivity. Qed.
Lemma mb_crlf t : ml_basic JNo (13 :: 10 :: t) = push 10 (ml_basic JNo t).
Proof. reflexivity. Qed.
Lemma mb_plain c t : plain_char c = true -> c <> 34 -> c <> 92 -> ml_basic JNo (c :: t) = push c (ml_basic JNo t).
Proof.
  intros P N1 N2. cbn [ml_basic]. destruct (Z.eqb_spec c 34); [congruence|]. destruct (Z.eqb_spec c 92); [congruence|].
  assert (c <> 10 /\ c <> 13) as [N3 N4] by (unfold plain_char in P; lia). destruct (Z.eqb_spec c 10); [congruence|]. destruct (Z.eqb_spec c 13); [congruence|]. cbn [andb]. now rewrite P.
Qed.
Lemma mb_skip c t : ~ In c [32; 9; 10; 13] -> ml_basic JSkip (c :: t) = ml_basic JNo (c :: t).
Proof.
  intros N. cbn [In] in N. cbn [ml_basic]. unfold is_ws. destruct (Z.eqb_spec c 32); [exfalso; lia|]. destruct (Z.eqb_spec c 9); [exfalso; lia|]. destruct (Z.eqb_spec c 10); [exfalso; lia|]. destruct (Z.eqb_spec c 13); [exfalso; lia|]. reflexivity.
Qed.
Lemma mb_white g t : white g -> ml_basic JSkip (g ++ t) = ml_basic JSkip t.
Proof.
  induction 1 as [|w s B _ IH|nl s [->| ->] _ IH]; [reflexivity| |exact IH|exact IH]. rewrite <- app_assoc. induction w as [|c w IHw]; [exact IH|].
  cbn [app]. assert (X : c = 32 \/ c = 9) by (apply B; now left). transitivity (ml_basic JSkip (w ++ s ++ t)); [destruct X as [->| ->]; reflexivity|]. apply IHw. intros d J. apply B. now right.
Qed.
Lemma mb_need w nl t : blank w -> line_feed nl -> ml_basic JNeed (w ++ nl ++ t) = ml_basic JSkip t.
Proof.
  intros B N. induction w as [|c w IH]; [destruct N as [->| ->]; reflexivity|]. assert (X : c = 32 \/ c = 9) by (apply B; now left).
  cbn [app]. transitivity (ml_basic JNeed (w ++ nl ++ t)); [destruct X as [->| ->]; reflexivity|]. apply IH. intros d J. apply B. now right.
Qed.
Lemma mb_join w nl t : blank w -> line_feed nl -> ml_basic JNo (92 :: w ++ nl ++ t) = ml_basic JSkip t.
Proof.
  intros B N. transitivity (ml_basic JNeed (w ++ nl ++ t)); [|now apply mb_need]. destruct w as [|c w]; [destruct N as [->| ->]; reflexivity|].
  assert (X : c = 32 \/ c = 9) by (apply B; now left). destruct X as [->| ->]; reflexivity.
Qed.
Lemma mb_char c x t : quoted_char c x -> ml_basic JNo (x ++ t) = push c (ml_basic JNo t).
Proof.
  intros [c0 P N1 N2|c0 e E|c0 ds hs F L -> S|c0 ds hs F L -> S].
  - apply mb_plain; auto using plain_char_in.
  - destruct E; reflexivity.
  - pose proof (code_digits _ _ F S) as C. pose proof (forall2_len _ _ _ F) as Lh. rewrite L in Lh. destruct hs as [|a [|b [|d [|e [|? ?]]]]]; try discriminate Lh.
    transitivity (push_opt (code_point [a; b; d; e]) (ml_basic JNo t)); [reflexivity | now rewrite C].
  - pose proof (code_digits _ _ F S) as C. pose proof (forall2_len _ _ _ F) as Lh. rewrite L in Lh. destruct hs as [|a [|b [|d [|e [|f [|g [|h [|i [|? ?]]]]]]]]]; try discriminate Lh.
    transitivity (push_opt (code_point [a; b; d; e; f; g; h; i]) (ml_basic JNo t)); [reflexivity | now rewrite C].
Qed.
Lemma closing_other q c t : c <> q -> closing q (c :: t) = None.
Proof. intros N. cbn [closing]. destruct t as [|b t]; [reflexivity|]. destruct (Z.eqb_spec c q); [congruence | reflexivity]. Qed.
Lemma closing_one q c t : c <> q -> closing q (q :: c :: t) = None.
Proof. intros N. cbn [closing]. destruct (Z.eqb_spec c q); [congruence|]. now rewrite andb_false_r. Qed.
Definition no_head (q : char) (r : str) : Prop := match r with c :: _ => c <> q | [] => True end.
(** At the end: three quotes, with up to two more before them. *)
Lemma closing_end q e rest : e = [] \/ few_quotes q e -> no_head q rest -> exists c u, e ++ [q; q; q] ++ rest = q :: c :: u /\ closing q (c :: u) = Some (e, rest).
Proof.
  intros E N. assert (Q : (q =? q) = true) by apply Z.eqb_refl.
  assert (R : match rest with c :: _ => (c =? q) = false | [] => True end) by (destruct rest as [|c rest]; [exact I | now apply Z.eqb_neq]).
  destruct E as [->|[->| ->]]; cbn [app]; eexists; eexists; (split; [reflexivity|]); cbn [closing]; rewrite !Q; cbn [andb]; destruct rest as [|c rest]; rewrite ?R; reflexivity.
Qed.
Lemma long_read k s : long_text k s -> forall q rest, q = [] \/ few_quotes 34 q -> no_head 34 rest -> ml_basic JNo (s ++ q ++ [34; 34; 34] ++ rest) = Some (k ++ q, rest).
Proof.
  induction 1 as [|c x k s Q H IH|nl k s N H IH|qs k s Qs Ne B H IH|w nl g k s Bw N G B H IH]; intros q rest Q0 R.
  - destruct (closing_end 34 q rest Q0 R) as (c & u & E & C). transitivity (ml_basic JNo (34 :: c :: u)); [f_equal; exact E|]. rewrite mb_quote, C. reflexivity.
  - rewrite <- app_assoc, (mb_char c x _ Q), IH by auto. reflexivity.
  - rewrite <- app_assoc. destruct N as [->| ->]; cbn [app]; rewrite ?mb_lf, ?mb_crlf; cbn [app] in IH; rewrite IH by auto; reflexivity.
  - destruct s as [|c s]; [congruence|]. assert (Nc : c <> 34) by (intros ->; apply (B 34 s eq_refl); now left). specialize (IH q rest Q0 R).
    destruct Qs as [->| ->]; cbn [app] in *.
    + rewrite mb_quote, closing_other by exact Nc. rewrite IH. reflexivity.
    + rewrite mb_quote, closing_one by exact Nc. rewrite mb_quote, closing_other by exact Nc. rewrite IH. reflexivity.
  - rewrite <- !app_assoc. cbn [app]. rewrite (mb_join w nl _ Bw N), (mb_white g _ G). specialize (IH q rest Q0 R). rewrite <- IH. destruct s as [|c s].
    + destruct (closing_end 34 q rest Q0 R) as (c & u & E & _). transitivity (ml_basic JSkip (34 :: c :: u)); [f_equal; exact E|]. transitivity (ml_basic JNo (34 :: c :: u)); [reflexivity|]. f_equal. symmetry. exact E.
    + cbn [app]. apply mb_skip. intros J. exact (B c s eq_refl J).
Qed.
Lemma mp_quote t : ml_literal (39 :: t) = match closing 39 t with Some r => Some r | None => push 39 (ml_literal t) end.
Proof. reflexivity. Qed.
Lemma mp_plain c t : plain_char c = true -> c <> 39 -> ml_literal (c :: t) = push c (ml_literal t).
Proof.
  intros P N1. cbn [ml_literal]. destruct (Z.eqb_spec c 39); [congruence|].
  assert (c <> 10 /\ c <> 13) as [N3 N4] by (unfold plain_char in P; lia). destruct (Z.eqb_spec c 10); [congruence|]. destruct (Z.eqb_spec c 13); [congruence|]. cbn [andb]. now rewrite P.
Qed.
Lemma long_plain_read k s : long_plain k s -> forall q rest, q = [] \/ few_quotes 39 q -> no_head 39 rest -> ml_literal (s ++ q ++ [39; 39; 39] ++ rest) = Some (k ++ q, rest).
Proof.
  induction 1 as [|c k s P N H IH|nl k s N H IH|qs k s Qs Ne B H IH]; intros q rest Q0 R.
  - destruct (closing_end 39 q rest Q0 R) as (c & u & E & C). transitivity (ml_literal (39 :: c :: u)); [f_equal; exact E|]. rewrite mp_quote, C. reflexivity.
  - cbn [app]. rewrite mp_plain by auto using plain_char_in. cbn [app] in IH. rewrite IH by auto. reflexivity.
  - rewrite <- app_assoc. specialize (IH q rest Q0 R). destruct N as [->| ->]; cbn [app] in *; (transitivity (push 10 (ml_literal (s ++ q ++ 39 :: 39 :: 39 :: rest))); [reflexivity|]); rewrite IH; reflexivity.
  - destruct s as [|c s]; [congruence|]. assert (Nc : c <> 39) by (intros ->; apply (B 39 s eq_refl); now left). specialize (IH q rest Q0 R).
    destruct Qs as [->| ->]; cbn [app] in *.
    + rewrite mp_quote, closing_other by exact Nc. rewrite IH. reflexivity.
    + rewrite mp_quote, closing_one by exact Nc. rewrite mp_quote, closing_other by exact Nc. rewrite IH. reflexivity.
Qed.
Lemma trim_opening f s t : opening f s -> (match t with c :: _ => c <> 10 /\ c <> 13 | [] => True end) -> trim_newline (f ++ s ++ t) = s ++ t.
Proof.
  intros [[->| ->]|[-> B]] T; [reflexivity..|]. cbn [app]. assert (X : match s ++ t with c :: _ => c <> 10 /\ c <> 13 | [] => True end).
  { destruct s as [|c s]; [exact T|]. cbn [app]. split; intros ->; eapply (B _ s eq_refl); [left | right; left]; reflexivity. }
  destruct (s ++ t) as [|c u]; [reflexivity|]. destruct X as [N1 N2]. destruct c as [|p|p]; try reflexivity. do 4 (destruct p as [p|p|]; try reflexivity; try congruence).
Qed.
Lemma long_value_read f s k q rest : opening f s -> long_text k s -> q = [] \/ few_quotes 34 q -> no_head 34 rest ->
  string_value ([34; 34; 34] ++ f ++ s ++ q ++ [34; 34; 34] ++ rest) = Some (k ++ q, rest).
Proof.
  intros O H Q R. transitivity (ml_basic JNo (trim_newline (f ++ s ++ q ++ [34; 34; 34] ++ rest))); [reflexivity|]. rewrite trim_opening; auto; [now apply long_read|].
  destruct Q as [->|[->| ->]]; cbn; lia.
Qed.
Lemma long_plain_value_read f s k q rest : opening f s -> long_plain k s -> q = [] \/ few_quotes 39 q -> no_head 39 rest ->
  string_value ([39; 39; 39] ++ f ++ s ++ q ++ [39; 39; 39] ++ rest) = Some (k ++ q, rest).
Proof.
  intros O H Q R. transitivity (ml_literal (trim_newline (f ++ s ++ q ++ [39; 39; 39] ++ rest))); [reflexivity|]. rewrite trim_opening; auto; [now apply long_plain_read|].
  destruct Q as [->|[->| ->]]; cbn; lia.
Qed.
