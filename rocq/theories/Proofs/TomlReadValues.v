(** Reading values written by the grammar of Spec/TomlGrammar.v. *)
From Coq Require Import ZArith Bool String Lia.
From Coq Require Import List.
Import ListNotations.
From Verif.Model Require Import Text Num Flt Value Toml TomlText.
From Verif.Spec Require Import Spec Numerals TomlTextSpec TomlDates TomlGrammar.
From Verif.Proofs Require Import Basics TomlProofs TomlLex TomlNum TomlValues TomlDoc TomlProper TomlSim TomlJoin TomlFrame TomlHand TomlWords TomlRead TomlReadLong TomlDates.
Local Open Scope Z_scope.

(** ** What follows a value *)
Definition stop (c : char) : bool := negb (is_ws c || token_char c || (c =? 34) || (c =? 39)).
Definition ends_val (r : str) : Prop := head_not token_char r /\ not_quote r /\ (forall c t, r = 32 :: c :: t -> digit_char c = false).
Lemma stop_token c : stop c = true -> is_ws c = false /\ token_char c = false /\ digit_char c = false /\ (c =? 34) = false /\ (c =? 39) = false.
Proof. unfold stop, is_ws, token_char, bare_char, digit_char. lia. Qed.
Lemma ends_blank w c t : blank w -> stop c = true -> ends_val (w ++ c :: t).
Proof.
  intros B S. destruct (stop_token c S) as (S0 & S1 & S2 & S3 & S4). destruct w as [|a w].
  - cbn [app]. split; [exact S1|]. split; [unfold not_quote, head_not; now rewrite S3, S4|]. intros d u [= -> E]. discriminate S0.
  - assert (A : a = 32 \/ a = 9) by (apply B; now left). cbn [app]. split; [destruct A as [-> | ->]; reflexivity|]. split; [destruct A as [-> | ->]; reflexivity|].
    intros d u [= _ E]. destruct w as [|b w]; cbn [app] in E; injection E as <- _; [exact S2|]. destruct (B b ltac:(right; now left)) as [-> | ->]; reflexivity.
Qed.
(** Line tails and gaps are blank up to a character that stops a value. *)
Lemma tail_head w cm nl : cm = [] \/ comment cm -> line_feed nl -> forall t : str, exists d u, w ++ cm ++ nl ++ t = w ++ d :: u /\ stop d = true.
Proof.
  intros C L t. destruct C as [->|(x & -> & _)].
  - destruct L as [-> | ->]; eexists; eexists; (split; [reflexivity | reflexivity]).
  - eexists; eexists; (split; [reflexivity | reflexivity]).
Qed.
Lemma gap_ends g c t : gap g -> stop c = true -> ends_val (g ++ c :: t).
Proof.
  intros (q & w & Q & B & ->) S. destruct Q as [|ws cm nl s B' C L Q]; [now apply ends_blank|]. rewrite <- !app_assoc.
  destruct (tail_head ws cm nl C L (s ++ w ++ c :: t)) as (d & u & -> & Sd). now apply ends_blank.
Qed.
Lemma line_tail_ends e t : line_tail e -> ends_val (e ++ t).
Proof.
  intros (w & cm & nl & B & C & L & ->). rewrite <- !app_assoc. destruct (tail_head w cm nl C L t) as (d & u & -> & Sd). now apply ends_blank.
Qed.
Lemma comment_skip cm nl t : cm = [] \/ comment cm -> line_feed nl -> skip_comment (skip_ws (cm ++ nl ++ t)) = nl ++ t.
Proof.
  intros C L. destruct C as [->|(x & -> & T)].
  - destruct L as [-> | ->]; reflexivity.
  - change (skip_ws ((35 :: x) ++ nl ++ t)) with (35 :: x ++ nl ++ t). rewrite skip_comment_eq. change (35 =? 35) with true. cbn match.
    rewrite drop_all by (intros c I; unfold plain_char; destruct (T c I) as [->|[]]; [reflexivity | lia]). destruct L as [-> | ->]; reflexivity.
Qed.
Lemma skip_gap g t : gap g -> stops_lines t -> t <> [] -> forall n, (List.length (g ++ t) <= n)%nat -> skip_lines n (g ++ t) = t.
Proof.
  intros (q & w & Q & B & ->) S Nt. induction Q as [|ws cm nl s B' C L Q IH]; intros n Ln; rewrite <- !app_assoc in *; cbn [app] in *.
  - destruct t as [|c t]; [congruence|]. destruct n as [|n]; [rewrite app_length in Ln; cbn in Ln; lia|].
    rewrite lines_step, (skip_blank w) by exact B. destruct S as (S1 & S2 & S3 & S4). unfold skip_ws. cbn [drop_while]. rewrite S1, skip_comment_id by auto.
    destruct (Z.eqb_spec c 10); [congruence|]. destruct (Z.eqb_spec c 13); [congruence|]. reflexivity.
  - assert (Hl : (1 <= List.length nl)%nat) by (destruct L as [-> | ->]; cbn; lia). rewrite !app_length in Ln. destruct n as [|n]; [lia|].
    rewrite lines_step, (skip_blank ws) by exact B'. rewrite comment_skip by auto. destruct L as [-> | ->]; cbn [app Z.eqb Pos.eqb andb next_lf tl];
      apply IH; rewrite !app_length; cbn [List.length] in *; lia.
Qed.

(** ** Words *)
Lemma token_end_val s rest : forallb token_char s = true -> ends_val rest -> token_end (s ++ rest) = (s, rest).
Proof.
  intros T (E1 & _ & E3). unfold token_end. rewrite span_all by auto. destruct rest as [|c rest]; [reflexivity|].
  destruct (Z.eq_dec c 32) as [->|N].
  - destruct rest as [|d rest]; [reflexivity|]. rewrite (E3 d rest eq_refl). reflexivity.
  - destruct c as [|p|p]; try reflexivity. do 6 (destruct p as [p|p|]; try reflexivity; try congruence).
Qed.
Lemma word_read lim f deep s t rest : word s -> token_value s = Some t -> ends_val rest -> value_at lim (S f) deep (s ++ rest) = Some (t, rest).
Proof.
  intros W V E. destruct (word_tok s W) as [T N]. eapply va_token; [apply token_end_val; eauto | exact V | apply starts_app, token_start; auto|].
  destruct s as [|c s]; [congruence|]. cbn [app head_not]. cbn [forallb] in T. apply andb_true_iff in T as [T _]. unfold token_char, bare_char, digit_char in T. lia.
Qed.
Lemma single_read k rest : one_line k -> ~ In 39 k -> not_quote rest -> string_value (39 :: k ++ 39 :: rest) = Some (k, rest).
Proof.
  intros O N Q. rewrite string_q3. replace (q3 39 (k ++ 39 :: rest)) with false; [now apply literal_plain|]. symmetry. destruct k as [|a k]; cbn [q3 app].
  - destruct rest as [|c rest]; [reflexivity|]. apply not_quote_39 in Q. change ((39 =? c) = false) in Q. rewrite Z.eqb_sym in Q. cbn [Z.eqb Pos.eqb andb]. rewrite ?Q. reflexivity.
  - assert (a <> 39) by (intros ->; apply N; now left). destruct (Z.eqb_spec a 39); [congruence|]. destruct k; reflexivity.
Qed.

(** ** Inline tables *)
Fixpoint nest_node (p : list str) (t : toml_value) : node :=
  match p with
  | [] => NVal t
  | k :: p' => NTab true true [(k, nest_node p' t)]
  end.
Definition pair_node (e : list str * toml_value) : str * node := (hd [] (fst e), nest_node (tl (fst e)) (snd e)).
Lemma alter_new k f m n : ~ In k (map fst m) -> f None = Some n -> alter k f m = Some (m ++ [(k, n)]).
Proof.
  intros H F. induction m as [|[k' x] m IH]; cbn [alter app]; [now rewrite F|]. destruct (str_eqb_spec k k') as [->|N]; [destruct H; now left|].
  rewrite IH; [reflexivity|]. intros I. apply H. now right.
Qed.
Lemma descend_new p : forall f d m0, f d [] = Some m0 -> p <> [] -> d = true -> exists k n, descend true p true f [] = Some [(k, n)] /\ k = hd [] p.
Proof.
  intros f d m0 F N ->. destruct p as [|k p]; [congruence|]. cbn [descend alter]. clear N.
  assert (X : exists x, descend true p true f [] = Some x).
  { induction p as [|k' p IH]; [exists m0; exact F|]. cbn [descend alter]. destruct IH as (x & ->). cbn. eauto. }
  destruct X as (x & ->). cbn. eauto.
Qed.
Lemma nest_descend k t p : descend true p true (fun isdot m => if Bool.eqb isdot false then None else alter k (fun o => match o with None => Some (NVal t) | Some _ => None end) m) []
  = Some (match p ++ [k] with [] => [] | a :: q => [(a, nest_node q t)] end).
Proof.
  induction p as [|a p IH]; [reflexivity|]. cbn [descend alter app]. rewrite IH. cbn [option_map]. destruct (p ++ [k]) as [|b q] eqn:E; [destruct p; discriminate E|]. reflexivity.
Qed.
Lemma put_fresh p t m : p <> [] -> ~ In (hd [] p) (map fst m) -> put_entry (removelast p) (List.last p []) t m = Some (m ++ [pair_node (p, t)]).
Proof.
  intros N H. destruct (exists_last N) as (q & k & ->). rewrite removelast_last, last_last. unfold put_entry. destruct q as [|a q].
  - cbn [descend app hd] in *. cbn [Bool.eqb]. apply alter_new; auto.
  - cbn [descend app hd] in *. apply alter_new; auto. rewrite nest_descend. destruct (q ++ [k]) as [|b r] eqn:E; [destruct q; discriminate E|]. unfold pair_node. cbn [option_map fst snd hd tl]. match goal with |- context [match ?x with [] => [] | _ => _ end] => replace x with (b :: r) by (symmetry; exact E) end. reflexivity.
Qed.
Lemma put_all_fresh l : forall m, (forall e, In e l -> fst e <> []) -> NoDup (map fst m ++ map (fun e => hd [] (fst e)) l) ->
  put_entries l m = Some (m ++ map pair_node l).
Proof.
  induction l as [|[p t] l IH]; intros m N D; cbn [put_entries map]; [now rewrite app_nil_r|].
  cbn [map fst] in D. rewrite put_fresh.
  - rewrite IH; [now rewrite <- app_assoc | intros e I; apply N; now right|]. rewrite map_app. cbn [map fst pair_node]. now rewrite <- app_assoc.
  - apply (N (p, t)). now left.
  - apply NoDup_remove_2 in D. intros I. apply D. apply in_or_app. now left.
Qed.
Lemma nest_value p t : doc_value (of_node (nest_node p t)) = nest p (doc_value t).
Proof. induction p as [|k p IH]; [reflexivity|]. cbn [nest_node of_node doc_value map nest fst snd]. now rewrite IH. Qed.
Lemma inline_value l : doc_value (of_table (map pair_node l)) = VMap (map (fun e => (hd [] (fst e), nest (tl (fst e)) (doc_value (snd e)))) l).
Proof. unfold of_table. cbn [of_node doc_value]. f_equal. rewrite !map_map. apply map_ext. intros [p t]. cbn [pair_node fst snd]. now rewrite nest_value. Qed.

(** ** Keys *)
Lemma path_read_ws p t rest s' : path_text p t -> after_key rest -> s' = t ++ rest \/ s' = skip_ws (t ++ rest) -> key_path (S (List.length s')) s' = Some (p, rest).
Proof.
  intros P A [-> | ->].
  - apply path_text_read; auto. pose proof (proj1 (path_len p t P)). rewrite app_length. ln.
  - destruct (path_strip p t P) as (w & c & u & B & -> & K & P'). rewrite <- app_assoc, skip_blank by exact B. cbn [app]. rewrite key_start_ws by exact K.
    change (c :: u ++ rest) with ((c :: u) ++ rest). apply path_text_read; auto. pose proof (proj1 (path_len p _ P')). rewrite app_length. ln.
Qed.
Lemma after_eq t : after_key (61 :: t).
Proof. repeat split; reflexivity. Qed.
Lemma after_close t : after_key (93 :: t).
Proof. repeat split; reflexivity. Qed.

(** ** Values *)
Scheme vt_ind := Minimality for value_text Sort Prop
  with it_ind := Minimality for items_text Sort Prop
  with pa_ind := Minimality for pairs_text Sort Prop.
Combined Scheme text_ind from vt_ind, it_ind, pa_ind.

Lemma stop_44 : stop 44 = true. Proof. reflexivity. Qed.
Lemma stop_93 : stop 93 = true. Proof. reflexivity. Qed.
Lemma stop_125 : stop 125 = true. Proof. reflexivity. Qed.
Definition plain_pair (e : list str * toml_value) : list str * value := (fst e, doc_value (snd e)).
Lemma pairs_paths W lim n s l : pairs_text W lim n s l -> (forall e, In e l -> fst e <> []) /\ exists w c u, blank w /\ s = w ++ c :: u /\ key_start c = true.
Proof.
  induction 1 as [n p t w x v w2 P Ln B V B2|n p t w x v w2 s l P Ln B V B2 H [IH1 IH2]];
  pose proof (proj2 (path_len _ _ P)) as Np; destruct (path_strip _ _ P) as (w0 & c & u & B0 & -> & K & _).
  - split; [intros e [<-|[]]; exact Np|]. exists w0, c, (u ++ [61] ++ w ++ x ++ w2 ++ [125]). rewrite <- app_assoc. auto.
  - split; [intros e [<-|J]; [exact Np | auto]|]. exists w0, c, (u ++ [61] ++ w ++ x ++ w2 ++ [44] ++ s). rewrite <- app_assoc. auto.
Qed.
Lemma quote_head q r : head_not (Z.eqb q) r -> no_head q r.
Proof. destruct r as [|c r]; cbn; [auto | lia]. Qed.
Section Values.
Context (W : str -> value -> Prop) (lim : nat) (Wok : forall s v, word s -> W s v -> exists t, token_value s = Some t /\ doc_value t = v).
Definition reads_value n s v := exists t, doc_value t = v /\ starts s /\
  forall deep fuel rest, (n + deep < lim)%nat -> (2 * List.length s < fuel)%nat -> ends_val rest -> value_at lim fuel deep (s ++ rest) = Some (t, rest).
Definition reads_items n s l := exists ts, map doc_value ts = l /\
  forall deep fuel rest, (n + deep < lim)%nat -> (2 * List.length s + 1 < fuel)%nat -> items_at lim fuel deep (s ++ rest) = Some (ts, rest).
Definition reads_pairs n s l := exists ts, map plain_pair ts = l /\
  forall deep fuel rest s', (n + deep < lim)%nat -> (2 * List.length s + 1 < fuel)%nat -> s' = s ++ rest \/ s' = skip_ws (s ++ rest) -> pairs_at lim fuel deep s' = Some (ts, rest).
Lemma texts_read :
  (forall n s v, value_text W lim n s v -> reads_value n s v) /\ (forall n s l, items_text W lim n s l -> reads_items n s l) /\ (forall n s l, pairs_text W lim n s l -> reads_pairs n s l /\ pairs_text W lim n s l).
Proof.
  apply text_ind.
  - intros n s v Hw Hv. destruct (Wok s v Hw Hv) as (t & E & V). exists t. repeat split; auto using word_starts. intros deep fuel rest _ F R.
    destruct fuel as [|f]; [lia|]. now apply word_read.
  - intros n s k Q. exists (TvStr k). repeat split; [reflexivity..|]. intros deep fuel rest _ F R. destruct fuel as [|f]; [lia|].
    apply va_string. cbn [app]. rewrite <- app_assoc. apply quoted_value_read; auto. apply R.
  - intros n k O N. exists (TvStr k). repeat split; [reflexivity..|]. intros deep fuel rest _ F R. destruct fuel as [|f]; [lia|].
    apply va_string. cbn [app]. rewrite <- app_assoc. apply single_read; auto. apply R.
  - intros n f0 s k q O L Q. exists (TvStr (k ++ q)). repeat split; [reflexivity..|]. intros deep fuel rest _ F R. destruct fuel as [|f]; [lia|].
    rewrite <- !app_assoc. apply va_string. apply long_value_read; auto. apply quote_head, not_quote_34, R.
  - intros n f0 s k q O L Q. exists (TvStr (k ++ q)). repeat split; [reflexivity..|]. intros deep fuel rest _ F R. destruct fuel as [|f]; [lia|].
    rewrite <- !app_assoc. apply va_string. apply long_plain_value_read; auto. apply quote_head, not_quote_39, R.
  - intros n d t m z o D T O. exists (TvDate (d ++ [84] ++ m ++ o)). split; [reflexivity|]. split.
    + destruct (date_head d D) as (c & u & -> & C). cbn [app starts]. unfold value_start, is_ws, token_char, bare_char, digit_char in *. lia.
    + intros deep fuel rest _ F R. destruct fuel as [|f]; [lia|]. apply spaced_read; auto. apply R.
  - intros n s l _ (ts & E & IH). exists (TvArr ts). cbn [doc_value]. rewrite E. repeat split. intros deep fuel rest D F R. destruct fuel as [|f]; [lia|].
    cbn [app List.length] in *. apply va_array; [lia|]. apply IH; lia.
  - intros n w B. exists (TvTab []). repeat split. intros deep fuel rest D F R. destruct fuel as [|f]; [lia|]. rewrite value_at_eq. unfold value_step. cbn [app]. cbn [Z.eqb Pos.eqb orb].
    replace (Nat.leb lim (S deep)) with false by (symmetry; apply Nat.leb_gt; lia). rewrite <- app_assoc, skip_blank by exact B. reflexivity.
  - intros n s l _ [(ts & E & IH) P] ND. destruct (pairs_paths _ _ _ _ _ P) as (Ne & w & c & u & B & Es & K). exists (of_table (map pair_node ts)).
    rewrite inline_value. split; [rewrite <- E, !map_map; reflexivity|]. split; [reflexivity|]. intros deep fuel rest D F R. destruct fuel as [|f]; [lia|].
    cbn [app List.length] in *. rewrite value_at_eq. unfold value_step. cbn [Z.eqb Pos.eqb orb]. replace (Nat.leb lim (S deep)) with false by (symmetry; apply Nat.leb_gt; lia).
    specialize (IH (S deep) f rest (skip_ws (s ++ rest)) ltac:(lia) ltac:(lia) (or_intror eq_refl)).
    assert (Ew : skip_ws (s ++ rest) = c :: u ++ rest) by (rewrite Es, <- app_assoc, skip_blank by exact B; cbn [app]; now apply key_start_ws).
    rewrite Ew in *. replace (c =? 125) with false by (unfold key_start, bare_char, digit_char in K; lia). rewrite IH.
    rewrite put_all_fresh; [reflexivity| |]; cbn [map app].
    + intros e I. apply (Ne (plain_pair e)). rewrite <- E. now apply in_map.
    + rewrite <- E, map_map in ND. exact ND.
  - intros n g G. exists []. split; [reflexivity|]. intros deep fuel rest D F. destruct fuel as [|f]; [lia|]. rewrite items_at_eq. unfold items_step. rewrite <- app_assoc. cbn [app].
    rewrite (skip_gap g (93 :: rest) G); [reflexivity | repeat split; discriminate | discriminate | reflexivity].
  - intros n g x v h G _ (t & E & S & IH) Hh. exists [t]. split; [cbn; now rewrite E|]. intros deep fuel rest D F. destruct fuel as [|f]; [lia|].
    rewrite !app_length in F. cbn [List.length] in F.
    rewrite items_at_eq. unfold items_step. rewrite <- !app_assoc. cbn [app].
    rewrite (skip_gap g (x ++ h ++ 93 :: rest) G); [| apply start_stops, starts_app, S | destruct x; [destruct S | discriminate] | reflexivity].
    pose proof (IH deep f (h ++ 93 :: rest) ltac:(lia) ltac:(lia) (gap_ends h 93 rest Hh stop_93)) as V.
    destruct x as [|c x]; [destruct S|]. cbn [app] in V |- *. rewrite V. cbn [starts] in S. replace (c =? 93) with false by (unfold value_start in S; lia).
    rewrite (skip_gap h (93 :: rest) Hh); [reflexivity | repeat split; discriminate | discriminate | reflexivity].
  - intros n g x v h s l G _ (t & E & S & IH) Hh _ (ts & E2 & IH2). exists (t :: ts). split; [cbn; now rewrite E, E2|]. intros deep fuel rest D F. destruct fuel as [|f]; [lia|].
    rewrite !app_length in F. cbn [List.length] in F.
    rewrite items_at_eq. unfold items_step. rewrite <- !app_assoc. cbn [app].
    rewrite (skip_gap g (x ++ h ++ 44 :: s ++ rest) G); [| apply start_stops, starts_app, S | destruct x; [destruct S | discriminate] | reflexivity].
    pose proof (IH deep f (h ++ 44 :: s ++ rest) ltac:(lia) ltac:(lia) (gap_ends h 44 (s ++ rest) Hh stop_44)) as V.
    destruct x as [|c x]; [destruct S|]. cbn [app] in V |- *. rewrite V. cbn [starts] in S. replace (c =? 93) with false by (unfold value_start in S; lia).
    rewrite (skip_gap h (44 :: s ++ rest) Hh); [| repeat split; discriminate | discriminate | reflexivity]. cbn [Z.eqb Pos.eqb].
    rewrite IH2 by ln. reflexivity.
  - intros n p t w x v w2 P Lp B Vx (tv & E & S & IH) B2. split; [|now constructor]. exists [(p, tv)]. split; [unfold plain_pair; cbn; now rewrite E|]. intros deep fuel rest s' D F Es. destruct fuel as [|f]; [lia|].
    rewrite !app_length in F. cbn [List.length] in F. rewrite pairs_at_eq. unfold pairs_step. rewrite <- !app_assoc in Es.
    rewrite (path_read_ws p t ([61] ++ w ++ x ++ w2 ++ [125] ++ rest) s' P (after_eq _) Es). cbn [app]. cbn [Z.eqb Pos.eqb]. replace (Nat.leb lim (List.length p)) with false by (symmetry; apply Nat.leb_gt; lia).
    rewrite skip_blank by exact B. rewrite start_ws by now apply starts_app. rewrite IH; [|lia|lia|now apply ends_blank]. rewrite skip_blank by exact B2. reflexivity.
  - intros n p t w x v w2 s l P Lp B Vx (tv & E & S & IH) B2 _ [(ts & E2 & IH2) P2]. split; [|now constructor]. exists ((p, tv) :: ts). split; [unfold plain_pair in *; cbn; now rewrite E, E2|]. intros deep fuel rest s' D F Es. destruct fuel as [|f]; [lia|].
    rewrite !app_length in F. cbn [List.length] in F. rewrite pairs_at_eq. unfold pairs_step. rewrite <- !app_assoc in Es.
    rewrite (path_read_ws p t ([61] ++ w ++ x ++ w2 ++ [44] ++ s ++ rest) s' P (after_eq _) Es). cbn [app]. cbn [Z.eqb Pos.eqb]. replace (Nat.leb lim (List.length p)) with false by (symmetry; apply Nat.leb_gt; lia).
    rewrite skip_blank by exact B. rewrite start_ws by now apply starts_app. rewrite IH; [|lia|lia|now apply ends_blank]. rewrite skip_blank by exact B2.
    change (skip_ws (44 :: s ++ rest)) with (44 :: s ++ rest). cbn [Z.eqb Pos.eqb]. rewrite (IH2 deep f rest (s ++ rest)); [reflexivity | lia | | now left]. destruct x; [destruct S|]. ln.
Qed.
Lemma value_read n s v : value_text W lim n s v -> reads_value n s v.
Proof. apply texts_read. Qed.
End Values.
