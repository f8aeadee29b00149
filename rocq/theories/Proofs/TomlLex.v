(** Strings and keys of TOML text are read back as written. *)
From Coq Require Import ZArith Bool String Lia.
From Coq Require Import List.
Import ListNotations.
From Verif.Model Require Import Text Num Flt Value Toml TomlText.
From Verif.Proofs Require Import Basics.
Local Open Scope Z_scope.

Definition head_not (f : char -> bool) (s : str) : Prop := match s with c :: _ => f c = false | [] => True end.

(** *** Escapes *)
Lemma ctl_cases (P : Z -> Prop) : (forall c, In c (127 :: map Z.of_nat (seq 0 32)) -> P c) -> forall c, 0 <= c -> (c <=? 31) || (c =? 127) = true -> P c.
Proof.
  intros H c Z0 E. apply H. apply orb_true_iff in E as [E|E]; [right | left; lia].
  apply Z.leb_le in E. apply in_map_iff. exists (Z.to_nat c). split; [lia|]. apply in_seq. lia.
Qed.
Lemma escape_u_code c : 0 <= c -> (c <=? 31) || (c =? 127) = true ->
  code_point [48; 48; hex_digit (c / 16); hex_digit (c mod 16)] = Some c.
Proof.
  revert c. apply ctl_cases. intros c H. cbn in H. repeat (destruct H as [<-|H]; [reflexivity|]). destruct H.
Qed.

Lemma scalar_nonneg c : is_scalar c = true -> 0 <= c.
Proof. unfold is_scalar. rewrite orb_true_iff, !andb_true_iff. lia. Qed.

Ltac by_char c := destruct (Z.eqb_spec c 8) as [->|?]; [|destruct (Z.eqb_spec c 9) as [->|?]; [|destruct (Z.eqb_spec c 10) as [->|?];
  [|destruct (Z.eqb_spec c 12) as [->|?]; [|destruct (Z.eqb_spec c 13) as [->|?]; [|destruct (Z.eqb_spec c 34) as [->|?]; [|destruct (Z.eqb_spec c 92) as [->|?]]]]]]].

Lemma basic_escape c t : is_scalar c = true -> basic_string (escape_char false c ++ t) = push c (basic_string t).
Proof.
  intros S. apply scalar_nonneg in S. unfold escape_char. by_char c; try reflexivity.
  destruct ((c <=? 31) || (c =? 127)) eqn:E.
  - pose proof (escape_u_code c S E) as U. unfold escape_u. rewrite <- app_assoc. cbn [app].
    transitivity (push_opt (code_point [48; 48; hex_digit (c / 16); hex_digit (c mod 16)]) (basic_string t)); [reflexivity | now rewrite U].
  - cbn [app basic_string]. destruct (Z.eqb_spec c 34); [congruence|]. destruct (Z.eqb_spec c 92); [congruence|].
    replace (plain_char c) with true; [reflexivity|]. symmetry. unfold plain_char. apply orb_false_iff in E as [E1 E2]. rewrite E2. lia.
Qed.
Lemma basic_read s rest : is_text s = true -> basic_string (flat_map (escape_char false) s ++ 34 :: rest) = Some (s, rest).
Proof.
  induction s as [|c s IH]; intros T; [reflexivity|]. cbn [is_text forallb] in T. apply andb_true_iff in T as [Tc Ts].
  cbn [flat_map]. rewrite <- app_assoc, basic_escape, (IH Ts) by auto. reflexivity.
Qed.

Lemma ml_escape c t : is_scalar c = true -> ml_basic JNo (escape_char true c ++ t) = push c (ml_basic JNo t).
Proof.
  intros S. apply scalar_nonneg in S. unfold escape_char. by_char c; try reflexivity.
  destruct ((c <=? 31) || (c =? 127)) eqn:E.
  - pose proof (escape_u_code c S E) as U. unfold escape_u. rewrite <- app_assoc.
    transitivity (push_opt (code_point [48; 48; hex_digit (c / 16); hex_digit (c mod 16)]) (ml_basic JNo t)); [reflexivity | now rewrite U].
  - cbn [app ml_basic]. destruct (Z.eqb_spec c 34); [congruence|]. destruct (Z.eqb_spec c 92); [congruence|]. destruct (Z.eqb_spec c 10); [congruence|].
    destruct (Z.eqb_spec c 13); [congruence|]. cbn [andb].
    replace (plain_char c) with true; [reflexivity|]. symmetry. unfold plain_char. apply orb_false_iff in E as [E1 E2]. rewrite E2. lia.
Qed.
Lemma closing_plain q rest : head_not (Z.eqb q) rest -> closing q (q :: q :: rest) = Some ([], rest).
Proof.
  intros H. cbn [closing]. rewrite Z.eqb_refl. cbn [andb]. destruct rest as [|c rest]; [reflexivity|]. cbn in H. rewrite Z.eqb_sym in H. now rewrite H.
Qed.
Lemma ml_read s rest : is_text s = true -> head_not (Z.eqb 34) rest ->
  ml_basic JNo (flat_map (escape_char true) s ++ 34 :: 34 :: 34 :: rest) = Some (s, rest).
Proof.
  intros T H. induction s as [|c s IH].
  - cbn [flat_map app ml_basic]. cbn [Z.eqb Pos.eqb]. now rewrite closing_plain.
  - cbn [is_text forallb] in T. apply andb_true_iff in T as [Tc Ts]. cbn [flat_map]. rewrite <- app_assoc, ml_escape, (IH Ts) by auto. reflexivity.
Qed.

(** *** Literal strings *)
(** Text that can stand between three single quotes, [n] of them just before it. *)
Fixpoint quotes_ok (n : nat) (s : str) : bool :=
  match s with
  | [] => Nat.eqb n 0
  | c :: t => if c =? 39 then Nat.leb (S n) 2 && quotes_ok (S n) t else ((c =? 10) || plain_char c) && quotes_ok O t
  end.
Lemma style_not_pretty s : forall st, st_pretty st = false -> st_pretty (fold_left style_step s st) = false.
Proof. induction s as [|c s IH]; intros st H; cbn [fold_left]; auto. apply IH. unfold style_step. now rewrite H. Qed.
Lemma style_quotes s : is_text s = true -> forall st, (st_run st <= 2)%nat -> st_pretty (fold_left style_step s st) = true ->
  st_run (fold_left style_step s st) = O -> quotes_ok (st_run st) s = true.
Proof.
  induction s as [|c s IH]; intros T st R P Z0; cbn [fold_left] in *; [cbn; now rewrite Z0|].
  cbn [is_text forallb] in T. apply andb_true_iff in T as [Tc Ts]. apply scalar_nonneg in Tc.
  destruct (st_pretty st) eqn:Ep; [|rewrite style_not_pretty in P; [discriminate | unfold style_step; now rewrite Ep]].
  assert (Pn : st_pretty (style_step st c) = true).
  { destruct (st_pretty (style_step st c)) eqn:E; auto. rewrite style_not_pretty in P; auto. }
  specialize (IH Ts (style_step st c)). cbn [quotes_ok]. unfold style_step in *. rewrite Ep in *.
  destruct (Z.eqb_spec c 39) as [->|N39].
  - cbn [Z.eqb Pos.eqb orb Z.leb Z.compare Pos.compare Pos.compare_cont andb st_pretty st_run negb] in *.
    apply negb_true_iff in Pn. apply Nat.leb_gt in Pn. apply andb_true_iff. split; [apply Nat.leb_le; lia|]. apply IH; auto; lia.
  - cbn [andb negb] in *. apply andb_true_iff.
    destruct (Z.eqb_spec c 9) as [->|?]; [cbn [st_run st_pretty] in *; split; [reflexivity | apply IH; auto; lia]|].
    destruct ((c =? 34) || (c =? 92)) eqn:E1.
    { cbn [st_run st_pretty] in *. split; [|apply IH; auto; lia]. unfold plain_char. lia. }
    destruct (Z.eqb_spec c 10) as [->|?]; [cbn [st_run st_pretty] in *; split; [reflexivity | apply IH; auto; lia]|].
    destruct ((c <=? 31) || (c =? 127)) eqn:E2; [discriminate Pn|].
    cbn [st_run st_pretty] in *. split; [|apply IH; auto; lia]. unfold plain_char. apply orb_false_iff in E2 as [E2 E3]. rewrite E3. lia.
Qed.
Lemma literal_quotes s : is_text s = true -> literal_ok s = true -> quotes_ok 0 s = true.
Proof.
  intros T. unfold literal_ok, style_of. rewrite !andb_true_iff. intros [[P _] R]. apply Nat.eqb_eq in R.
  refine (style_quotes s T _ _ P R). cbn; lia.
Qed.
Lemma ml_literal_read s rest : head_not (Z.eqb 39) rest -> forall n, quotes_ok n s = true ->
  ml_literal (s ++ 39 :: 39 :: 39 :: rest) = Some (s, rest).
Proof.
  intros H. induction s as [|c s IH]; intros n Q.
  - cbn [app ml_literal]. cbn [Z.eqb Pos.eqb]. now rewrite closing_plain.
  - cbn [app ml_literal]. cbn [quotes_ok] in Q. destruct (Z.eqb_spec c 39) as [->|N].
    + apply andb_true_iff in Q as [Q1 Q2]. apply Nat.leb_le in Q1.
      replace (closing 39 (s ++ 39 :: 39 :: 39 :: rest)) with (@None (str * str)); [rewrite (IH _ Q2); reflexivity|].
      symmetry. destruct s as [|a s]; [cbn in Q2; discriminate Q2|]. cbn [quotes_ok] in Q2. destruct s as [|b s].
      * destruct (Z.eqb_spec a 39) as [->|Na]; [apply andb_true_iff in Q2 as [_ Q2]; discriminate Q2|]. cbn [app closing].
        destruct (Z.eqb_spec a 39); [congruence | reflexivity].
      * cbn [app closing]. destruct (Z.eqb_spec a 39) as [->|Na]; [|reflexivity]. apply andb_true_iff in Q2 as [Q2 Q3]. apply Nat.leb_le in Q2.
        cbn [quotes_ok] in Q3. destruct (Z.eqb_spec b 39) as [->|Nb]; [|reflexivity]. apply andb_true_iff in Q3 as [Q3 _]. apply Nat.leb_le in Q3. lia.
    + apply andb_true_iff in Q as [Q1 Q2]. rewrite (IH _ Q2). destruct (Z.eqb_spec c 10) as [->|N10]; [reflexivity|]. cbn [orb] in Q1.
      destruct (Z.eqb_spec c 13) as [->|N13]; [discriminate Q1|]. cbn [andb]. now rewrite Q1.
Qed.
(** No line break, no single quote. *)
Lemma style_no_lines s : forall st, st_lines (fold_left style_step s st) = false -> st_lines st = false /\ ~ In 10 s.
Proof.
  induction s as [|c s IH]; intros st H; cbn [fold_left] in H; [auto|]. apply IH in H as [H1 H2].
  assert (G : st_lines st = false /\ c <> 10).
  { unfold style_step in H1. destruct (st_pretty st).
    - destruct (Z.eqb_spec c 9); [cbn in H1; split; [auto|lia]|].
      destruct (Z.eqb_spec c 34); [cbn in H1; split; [auto|lia]|]. destruct (Z.eqb_spec c 92); [cbn in H1; split; [auto|lia]|]. cbn [orb] in H1.
      destruct (Z.eqb_spec c 10); [discriminate H1|].
      destruct ((c <=? 31) || (c =? 127)); cbn in H1; auto.
    - cbn in H1. apply orb_false_iff in H1 as [H1 H3]. split; auto. now apply Z.eqb_neq in H3. }
  destruct G. split; auto. intros [->|I]; auto.
Qed.
Lemma style_max s : forall st, st_pretty (fold_left style_step s st) = true ->
  (Nat.max (st_max st) (st_run st) <= Nat.max (st_max (fold_left style_step s st)) (st_run (fold_left style_step s st)))%nat.
Proof.
  induction s as [|c s IH]; intros st P; cbn [fold_left] in *; auto.
  assert (Pn : st_pretty st = true).
  { destruct (st_pretty st) eqn:E; auto. rewrite style_not_pretty in P; [discriminate|]. unfold style_step. now rewrite E. }
  etransitivity; [|apply IH; exact P]. unfold style_step. rewrite Pn.
  destruct (c =? 39); destruct (c =? 9); destruct ((c =? 34) || (c =? 92)); destruct (c =? 10); destruct ((c <=? 31) || (c =? 127)); cbn; lia.
Qed.
Lemma style_no_quote s : forall st, st_pretty (fold_left style_step s st) = true ->
  Nat.max (st_max (fold_left style_step s st)) (st_run (fold_left style_step s st)) = O -> ~ In 39 s.
Proof.
  induction s as [|c s IH]; intros st P M; cbn [fold_left] in *; [intros []|]. intros [->|I]; [|eapply IH; eauto].
  pose proof (style_max s (style_step st 39) P) as L. rewrite M in L.
  assert (Pn : st_pretty st = true).
  { destruct (st_pretty st) eqn:E; auto. rewrite style_not_pretty in P; [discriminate|]. unfold style_step. now rewrite E. }
  unfold style_step in L. rewrite Pn in L. cbn in L. lia.
Qed.
Lemma literal_read s rest : quotes_ok 0 s = true -> ~ In 10 s -> ~ In 39 s -> literal_string (s ++ 39 :: rest) = Some (s, rest).
Proof.
  induction s as [|c s IH]; intros Q N1 N2; [reflexivity|]. cbn [app literal_string]. cbn [quotes_ok] in Q.
  destruct (Z.eqb_spec c 39) as [->|N]; [destruct N2; cbn; auto|]. apply andb_true_iff in Q as [Q1 Q2].
  destruct (Z.eqb_spec c 10) as [->|N10]; [destruct N1; cbn; auto|]. cbn [orb] in Q1. rewrite Q1, IH; auto; intros I; [apply N1 | apply N2]; now right.
Qed.
Lemma literal_nonempty s : literal_ok s = true -> s <> [].
Proof. intros H ->. discriminate H. Qed.

Definition not_quote (s : str) : Prop := head_not (fun c => (c =? 34) || (c =? 39)) s.
Lemma not_quote_34 s : not_quote s -> head_not (Z.eqb 34) s.
Proof. destruct s as [|c s]; [auto|]. unfold not_quote, head_not. intros H. apply orb_false_iff in H as [H _]. now rewrite Z.eqb_sym. Qed.
Lemma not_quote_39 s : not_quote s -> head_not (Z.eqb 39) s.
Proof. destruct s as [|c s]; [auto|]. unfold not_quote, head_not. intros H. apply orb_false_iff in H as [_ H]. now rewrite Z.eqb_sym. Qed.

Lemma esc_head b c : is_scalar c = true -> exists x t, escape_char b c = x :: t /\ x <> 34.
Proof.
  intros S. unfold escape_char. by_char c; try (eexists; eexists; split; [reflexivity | discriminate]).
  - destruct b; eexists; eexists; (split; [reflexivity|]); discriminate.
  - destruct ((c <=? 31) || (c =? 127)); eexists; eexists; (split; [reflexivity|]); [discriminate | assumption].
Qed.
Lemma sv_basic t : head_not (Z.eqb 34) t \/ (exists r, t = 34 :: r /\ head_not (Z.eqb 34) r) -> string_value (34 :: t) = basic_string t.
Proof.
  intros H. destruct t as [|a t]; [reflexivity|]. destruct (Z.eq_dec a 34) as [->|Na].
  - destruct H as [H|(r & [= ->] & H)]; [discriminate H|]. destruct r as [|b r]; [reflexivity|]. cbn in H.
    unfold string_value. destruct b as [|b|b]; try reflexivity. do 6 (destruct b as [b|b|]; try reflexivity; try discriminate H).
  - unfold string_value. destruct a as [|a|a]; try reflexivity. do 6 (destruct a as [a|a|]; try reflexivity; try congruence).
Qed.
Lemma string_read s rest : is_text s = true -> not_quote rest -> string_value (print_str s ++ rest) = Some (s, rest).
Proof.
  intros T N. unfold print_str. destruct (literal_ok s) eqn:L.
  - pose proof (literal_quotes s T L) as Q. destruct (st_lines (style_of s)) eqn:Li.
    + change (lit "'''") with [39; 39; 39]. rewrite <- !app_assoc. cbn [app]. cbn [string_value trim_newline].
      apply ml_literal_read with O; auto using not_quote_39.
    + unfold style_of in Li. apply style_no_lines in Li as [_ N10].
      destruct (Nat.leb 1 (Nat.max (st_max (style_of s)) (st_run (style_of s)))) eqn:M.
      * change (lit "'''") with [39; 39; 39]. rewrite <- !app_assoc. cbn [app]. cbn [string_value].
        transitivity (ml_literal (s ++ 39 :: 39 :: 39 :: rest)); [f_equal | apply ml_literal_read with O; auto using not_quote_39].
        destruct s as [|c s]; [destruct (literal_nonempty [] L); reflexivity|]. cbn [app]. cbn [quotes_ok] in Q.
        assert (c <> 10) by (intros ->; apply N10; now left).
        assert (c <> 13). { intros ->. discriminate Q. }
        unfold trim_newline. destruct c as [|c|c]; try reflexivity. do 4 (destruct c as [c|c|]; try reflexivity; try congruence).
      * apply Nat.leb_gt in M. assert (M0 : Nat.max (st_max (style_of s)) (st_run (style_of s)) = O) by lia.
        pose proof (literal_nonempty s L) as NE. unfold literal_ok in L. rewrite !andb_true_iff in L. destruct L as [[P _] _]. pose proof (style_no_quote s _ P M0) as N39.
        rewrite <- !app_assoc. cbn [app].
        destruct s as [|c s]; [congruence|].
        assert (c <> 39) by (intros ->; apply N39; now left).
        transitivity (literal_string ((c :: s) ++ 39 :: rest)); [|now apply literal_read].
        cbn [app]. unfold string_value. destruct c as [|c|c]; try reflexivity. do 6 (destruct c as [c|c|]; try reflexivity; try congruence).
  - destruct (st_lines (style_of s)) eqn:Li.
    + rewrite <- !app_assoc. cbn [app]. cbn [string_value trim_newline]. apply ml_read; auto using not_quote_34.
    + rewrite <- !app_assoc. cbn [app]. rewrite sv_basic; [now apply basic_read|].
      destruct s as [|c s].
      * right. exists rest. split; auto using not_quote_34.
      * left. cbn [is_text forallb] in T. apply andb_true_iff in T as [Tc _]. destruct (esc_head false c Tc) as (x & t & E & Nx). cbn [flat_map]. rewrite E. cbn [app head_not].
        apply Z.eqb_neq. congruence.
Qed.

(** *** Keys *)
Lemma span_all f s rest : forallb f s = true -> head_not f rest -> span f (s ++ rest) = (s, rest).
Proof.
  intros A H. induction s as [|c s IH]; cbn [app span].
  - destruct rest as [|c rest]; [reflexivity|]. cbn in H. cbn [span]. now rewrite H.
  - cbn [forallb] in A. apply andb_true_iff in A as [A1 A2]. rewrite A1, (IH A2). reflexivity.
Qed.
Lemma bare_not_quote c : bare_char c = true -> c <> 34 /\ c <> 39.
Proof. unfold bare_char, digit_char. intros H. lia. Qed.
Lemma key_read k rest : is_text k = true -> head_not bare_char rest -> simple_key (print_key k ++ rest) = Some (k, rest).
Proof.
  intros T H. unfold print_key. destruct k as [|c k]; [reflexivity|]. destruct (forallb bare_char (c :: k)) eqn:B.
  - assert (Bc : bare_char c = true) by (cbn in B; apply andb_true_iff in B; tauto). destruct (bare_not_quote c Bc) as [N1 N2].
    transitivity (match span bare_char ((c :: k) ++ rest) with ([], _) => None | r => Some r end).
    + cbn [app]. unfold simple_key. destruct c as [|c|c]; try reflexivity. do 6 (destruct c as [c|c|]; try reflexivity; try congruence).
    + now rewrite span_all.
  - rewrite <- !app_assoc. cbn [app]. cbn [simple_key]. now apply basic_read.
Qed.
Lemma key_not_ws k rest : is_text k = true -> skip_ws (print_key k ++ rest) = print_key k ++ rest.
Proof.
  intros T. unfold print_key. destruct k as [|c k]; [reflexivity|]. destruct (forallb bare_char (c :: k)) eqn:B; [|reflexivity].
  cbn in B. apply andb_true_iff in B as [B _]. cbn [app skip_ws drop_while]. unfold skip_ws. cbn [drop_while].
  replace (is_ws c) with false; [reflexivity|]. symmetry. unfold bare_char, digit_char, is_ws in *. lia.
Qed.
Lemma key_length k : (1 <= List.length (print_key k))%nat.
Proof. unfold print_key. destruct k as [|c k]; cbn; [lia|]. destruct (bare_char c && forallb bare_char k); cbn; lia. Qed.
Lemma join_cons sep x l : l <> [] -> join_str sep (x :: l) = x ++ sep ++ join_str sep l.
Proof. destruct l; [congruence | reflexivity]. Qed.
(** [rest] ends a key path: [.] does not follow. *)
Definition ends_key (rest rest' : str) : Prop := skip_ws rest = rest' /\ head_not bare_char rest /\ head_not (Z.eqb 46) rest'.
Lemma key_path_read p rest rest' : p <> [] -> (forall k, In k p -> is_text k = true) -> ends_key rest rest' ->
  forall fuel, (List.length p <= fuel)%nat -> key_path fuel (join_str (lit ".") (map print_key p) ++ rest) = Some (p, rest').
Proof.
  intros N T (E1 & E2 & E3). revert N T. induction p as [|k p IH]; intros N T fuel L; [congruence|].
  destruct fuel as [|fuel]; [cbn in L; lia|]. cbn [key_path]. cbn [List.length] in L.
  assert (Tk : is_text k = true) by (apply T; now left). destruct p as [|k' p].
  - cbn [map join_str]. rewrite key_not_ws by auto. rewrite key_read by auto. rewrite E1.
    destruct rest' as [|c r]; [reflexivity|]. cbn in E3. destruct c as [|c|c]; try reflexivity. do 6 (destruct c as [c|c|]; try reflexivity; try discriminate E3).
  - cbn [map]. rewrite join_cons by discriminate. rewrite <- !app_assoc. rewrite key_not_ws by auto. rewrite key_read; auto; [|reflexivity].
    change (lit ".") with [46]. cbn [app]. change (skip_ws (46 :: ?t)) with (46 :: t). cbn iota.
    change (print_key k' :: map print_key p) with (map print_key (k' :: p)).
    change [46] with (lit "."). rewrite IH; [reflexivity | discriminate | intros; apply T; now right | cbn in *; lia].
Qed.
Lemma join_length p : (List.length p <= S (List.length (join_str (lit ".") (map print_key p))))%nat.
Proof.
  induction p as [|k p IH]; [cbn; lia|]. destruct p as [|k' p]; [cbn; lia|]. cbn [map] in *. rewrite join_cons by discriminate.
  rewrite !app_length. cbn [List.length] in *. pose proof (key_length k). change (List.length (lit ".")) with 1%nat. lia.
Qed.
