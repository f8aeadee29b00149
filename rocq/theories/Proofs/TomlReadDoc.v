(** Reading documents written by the grammar of Spec/TomlGrammar.v. *)
From Coq Require Import ZArith Bool String Lia.
From Coq Require Import List.
Import ListNotations.
From Verif.Model Require Import Text Num Flt Value Toml TomlText.
From Verif.Spec Require Import Spec Numerals TomlTextSpec TomlGrammar.
From Verif.Proofs Require Import Basics TomlProofs TomlLex TomlNum TomlValues TomlDoc TomlProper TomlSim TomlJoin TomlFrame TomlHand TomlWords TomlKinds TomlTables TomlRead TomlReadValues.
Local Open Scope Z_scope.

Lemma tail_end e t : line_tail e -> line_end (skip_ws (e ++ t)) = Some t.
Proof.
  intros (w & cm & nl & B & C & L & ->). rewrite <- !app_assoc, skip_blank by exact B. rewrite line_end_eq, comment_skip by auto. destruct L as [-> | ->]; reflexivity.
Qed.
Lemma tail_ends_line e : line_tail e -> ends_line e.
Proof.
  intros (w & cm & nl & B & C & L & ->). right. destruct L as [-> | ->]; [exists (w ++ cm) | exists (w ++ cm ++ [13])]; rewrite <- !app_assoc; reflexivity.
Qed.
Lemma ends_after a e : ends_line e -> e <> [] -> ends_line (a ++ e).
Proof. intros [->|(t & ->)] N; [congruence|]. right. exists (a ++ t). now rewrite app_assoc. Qed.
Lemma tail_some e : line_tail e -> e <> [].
Proof. intros (w & cm & nl & B & C & L & ->) E. apply app_eq_nil in E as [_ E]. apply app_eq_nil in E as [_ E]. destruct L as [-> | ->]; discriminate E. Qed.

Section Doc.
Context (W : str -> value -> Prop) (lim : nat) (Wok : forall s v, word s -> W s v -> exists t, token_value s = Some t /\ doc_value t = v).

Lemma setting_read p v s : setting_text W lim (p, v) s -> exists t, doc_value t = v /\ stms lim s = Some [SEntry p t] /\ ends_line s /\ p <> [].
Proof.
  intros H. inversion H as [p0 t w x v0 n e P Lp B V Ln T]; subst. destruct (value_read W lim Wok n x v V) as (tv & Ev & Sx & R). exists tv. split; [exact Ev|].
  split; [|split; [rewrite !app_assoc; apply ends_after; auto using tail_ends_line, tail_some | exact (proj2 (path_len _ _ P))]].
  unfold stms. rewrite statements_step. destruct (path_strip p t P) as (w0 & c & u & B0 & Et & K & P').
  assert (Es : skip_ws (t ++ [61] ++ w ++ x ++ e) = c :: u ++ [61] ++ w ++ x ++ e).
  { rewrite Et, <- app_assoc, skip_blank by exact B0. cbn [app]. now apply key_start_ws. }
  rewrite Es. replace ((c =? 10) || (c =? 13) || (c =? 35)) with false by (unfold key_start, bare_char, digit_char in K; lia).
  rewrite statement_at_eq. unfold statement_step. replace (c =? 91) with false by (unfold key_start, bare_char, digit_char in K; lia).
  pose proof (path_read_ws p t ([61] ++ w ++ x ++ e) _ P (after_eq _) (or_intror eq_refl)) as Kp. rewrite Es in Kp. unfold str, char in *. rewrite Kp. cbn [app]. cbn [Z.eqb Pos.eqb].
  replace (Nat.leb lim (List.length p)) with false by (symmetry; apply Nat.leb_gt; lia).
  rewrite skip_blank by exact B. rewrite start_ws by now apply starts_app. rewrite R; [| lia | rewrite !app_length; lia | rewrite <- (app_nil_r e); now apply line_tail_ends].
  rewrite <- (app_nil_r e) at 1. rewrite tail_end by exact T. rewrite app_length. cbn [List.length app]. destruct (List.length t + _)%nat eqn:Z; [ln | reflexivity].
Qed.
Lemma header_read p s : header_text lim p s -> stms lim s = Some [SHead false p] /\ ends_line s /\ p <> [].
Proof.
  intros H. inversion H as [p0 t w e P Lp B T]; subst. split; [|split; [rewrite !app_assoc; apply ends_after; auto using tail_ends_line, tail_some | exact (proj2 (path_len _ _ P))]].
  unfold stms. rewrite statements_step, skip_blank by exact B. change (skip_ws ([91] ++ t ++ [93] ++ e)) with (91 :: t ++ [93] ++ e). cbn [Z.eqb Pos.eqb orb].
  rewrite statement_at_eq. unfold statement_step. cbn [Z.eqb Pos.eqb].
  assert (Hd : exists d u, t ++ [93] ++ e = d :: u /\ (d =? 91) = false).
  { destruct (path_strip p t P) as (w0 & c & u & B0 & -> & K & _). destruct w0 as [|b w0]; cbn [app]; eexists; eexists; (split; [reflexivity|]).
    - unfold key_start, bare_char, digit_char in K. lia.
    - destruct (B0 b ltac:(now left)) as [-> | ->]; reflexivity. }
  destruct Hd as (d & u & Ed & Nd). rewrite Ed. rewrite Nd. rewrite <- Ed.
  pose proof (path_read_ws p t ([93] ++ e) _ P (after_close _) (or_introl eq_refl)) as Kp. unfold str, char in *. rewrite Kp. cbn [app]. cbn [Z.eqb Pos.eqb].
  replace (Nat.leb lim (List.length p)) with false by (symmetry; apply Nat.leb_gt; lia).
  rewrite <- (app_nil_r e) at 1. rewrite tail_end by exact T. rewrite !app_length. cbn [List.length app]. destruct (List.length w + _)%nat eqn:Z; [ln | reflexivity].
Qed.
Definition ent (e : list str * toml_value) : statement := SEntry (fst e) (snd e).
Lemma settings_read l s : settings_text W lim l s -> exists tl, map plain_pair tl = l /\ stms lim s = Some (map ent tl) /\ ends_line s /\ ppaths tl.
Proof.
  induction 1 as [q Q|q [p v] s l t Q H Ss (tl & E & St & En & Pp)].
  - exists []. repeat split; [now apply quiet_stms | now apply quiet_ends | intros ? ? []].
  - destruct (setting_read p v s H) as (x & Ex & Sx & Enx & Np). exists ((p, x) :: tl). split; [unfold plain_pair in *; cbn [map fst snd]; now rewrite Ex, E|]. split.
    + rewrite (stms_app lim q _ [] (quiet_ends _ Q) (quiet_stms lim q Q)), (stms_app lim s _ _ Enx Sx), St. reflexivity.
    + split; [apply ends_app; [now apply quiet_ends | now apply ends_app]|]. intros p0 t0 [[= <- <-]|J]; eauto.
Qed.
Definition stm_tables (ts : tdoc) : list statement := flat_map (fun t => SHead false (fst t) :: map ent (snd t)) ts.
Definition plain_table (t : list str * list (list str * toml_value)) : list str * list (list str * value) := (fst t, map plain_pair (snd t)).
Lemma tables_read ts s : tables_text W lim ts s -> exists tt, map plain_table tt = ts /\ stms lim s = Some (stm_tables tt) /\ ends_line s /\ (forall h es, In (h, es) tt -> h <> [] /\ ppaths es).
Proof.
  induction 1 as [|p h l s ts t Hh Hs Ht (tt & E & St & En & N)]; [exists []; repeat split; [now left | destruct H..]|].
  destruct (header_read p h Hh) as (Sh & Eh & Np). destruct (settings_read l s Hs) as (tl & E1 & S1 & En1 & Pp). exists ((p, tl) :: tt). split; [unfold plain_table in *; cbn [map fst snd]; now rewrite E1, E|].
  split; [|split; [repeat apply ends_app; auto|]].
  - rewrite (stms_app lim h _ _ Eh Sh), (stms_app lim s _ _ En1 S1), St. reflexivity.
  - intros h0 es [[= <- <-]|J]; eauto.
Qed.
Lemma mark_fails t : stms lim (65279 :: t) = None.
Proof. unfold stms. rewrite statements_step. change (skip_ws (65279 :: t)) with (65279 :: t). cbn [Z.eqb Pos.eqb orb]. rewrite statement_at_eq. unfold statement_step. cbn [Z.eqb Pos.eqb]. rewrite key_path_step.
  change (skip_ws (65279 :: t)) with (65279 :: t). rewrite key_eq. reflexivity. Qed.
Lemma run_tables_sections tt : (forall f m, (List.length (stm_tables tt) < f)%nat -> run_sections f (stm_tables tt) m = run_tables tt m) /\ fst (entries_before (stm_tables tt)) = [] /\ snd (entries_before (stm_tables tt)) = stm_tables tt.
Proof.
  assert (B : forall tl r, fst (entries_before (stm_tables r)) = [] -> snd (entries_before (stm_tables r)) = stm_tables r -> entries_before (map ent tl ++ stm_tables r) = (tl, stm_tables r)).
  { intros tl r H1 H2. induction tl as [|[p t] tl IH]; cbn [map app entries_before ent fst snd]; [now rewrite (surjective_pairing (entries_before _)), H1, H2|]. now rewrite IH. }
  induction tt as [|[h es] tt (IH1 & IH2 & IH3)]; [split; [|auto]; intros [|f] m L; [cbn in L; lia | reflexivity]|]. split; [|auto].
  intros f m L. destruct f as [|f]; [lia|]. cbn [stm_tables flat_map fst snd app List.length] in *. fold (stm_tables tt) in *. cbn [run_sections run_tables]. rewrite (B es tt IH2 IH3).
  destruct (put_section false h es m); [|reflexivity]. apply IH1. rewrite app_length in L. lia.
Qed.
Lemma root_tables tl tt : run_root (map ent tl ++ stm_tables tt) = match put_entries tl [] with Some m0 => run_tables tt m0 | None => None end.
Proof.
  destruct (run_tables_sections tt) as (R & B1 & B2).
  assert (B : entries_before (map ent tl ++ stm_tables tt) = (tl, stm_tables tt)).
  { induction tl as [|[p t] tl IH]; cbn [map app entries_before ent fst snd]; [now rewrite (surjective_pairing (entries_before _)), B1, B2|]. now rewrite IH. }
  unfold run_root. rewrite B. cbn [fst snd]. destruct (put_entries tl []); [|reflexivity]. apply R. lia.
Qed.
Lemma document_read l ts s : TomlGrammar.document_text W lim l ts s -> exists tl tt, map plain_pair tl = l /\ map plain_table tt = ts /\ ppaths tl /\ (forall h es, In (h, es) tt -> h <> [] /\ ppaths es) /\
  doc_root lim s = match put_entries tl [] with Some m0 => run_tables tt m0 | None => None end.
Proof.
  intros (a & b & Ha & Hb & ->). destruct (settings_read l a Ha) as (tl & E & S & En & Pp). destruct (tables_read ts b Hb) as (tt & E2 & S2 & En2 & N). exists tl, tt. do 4 (split; [assumption|]).
  pose proof (stms_app lim a b _ En S) as St. rewrite S2 in St. cbn [option_map] in St. unfold doc_root. rewrite unmark_eq.
  destruct (a ++ b) as [|c u] eqn:Eab; [rewrite St; apply root_tables|]. destruct (Z.eqb_spec c 65279) as [->|Nc]; [rewrite mark_fails in St; discriminate St|]. rewrite St. apply root_tables.
Qed.
End Doc.
