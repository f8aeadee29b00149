(** The reader accepts nothing but the form. *)
From Coq Require Import ZArith Bool String Lia.
From Coq Require Import Floats.SpecFloat.
From Coq Require Import List.
Import ListNotations.
From Verif.Model Require Import Text Num Flt Value Layers Toml TomlText.
From Verif.Spec Require Import Numerals Spec TomlSpec TomlTextSpec TomlDates TomlGrammar TomlForm.
From Verif.Proofs Require Import Basics Conversions TomlProofs TomlLex TomlNum TomlValues TomlDoc TomlProper TomlHand TomlWords TomlDates.
Local Open Scope Z_scope.

(** *** White space, comments, line ends *)
Lemma blank_cons c w : c = 32 \/ c = 9 -> blank w -> blank (c :: w).
Proof. intros C B x [<-|J]; auto. Qed.
Lemma blank_nil : blank [].
Proof. intros x []. Qed.
Lemma is_ws_of c : is_ws c = true -> c = 32 \/ c = 9.
Proof. unfold is_ws. lia. Qed.
Lemma ws_inv s : exists w, blank w /\ s = w ++ skip_ws s /\ head_not is_ws (skip_ws s).
Proof.
  unfold skip_ws. induction s as [|c s (w & B & E & H)]; [exists []; repeat split; auto using blank_nil|]. cbn [drop_while]. destruct (is_ws c) eqn:C.
  - exists (c :: w). split; [apply blank_cons; auto; now apply is_ws_of|]. split; [cbn [app]; congruence | exact H].
  - exists []. split; [apply blank_nil|]. split; [reflexivity | exact C].
Qed.
Lemma plain_char_of c : plain_char c = true -> c = 9 \/ (32 <= c /\ c <> 127).
Proof. unfold plain_char. lia. Qed.
Lemma drop_plain s : exists a, s = a ++ drop_while plain_char s /\ (forall c, In c a -> c = 9 \/ (32 <= c /\ c <> 127)) /\ head_not plain_char (drop_while plain_char s).
Proof.
  induction s as [|c s (a & E & A & H)]; [exists []; repeat split; intros ? []|]. cbn [drop_while]. destruct (plain_char c) eqn:C.
  - exists (c :: a). split; [cbn [app]; congruence|]. split; [|exact H]. intros x [<-|J]; auto. now apply plain_char_of.
  - exists []. split; [reflexivity|]. split; [intros ? [] | exact C].
Qed.
(** Nothing is skipped, or a comment. *)
Lemma comment_inv s : skip_comment s = s \/ exists cm, comment cm /\ s = cm ++ skip_comment s /\ head_not plain_char (skip_comment s).
Proof.
  destruct s as [|c t]; [now left|]. destruct (Z.eqb_spec c 35) as [->|N].
  - right. cbn [skip_comment]. destruct (drop_plain t) as (a & E & A & H). exists (35 :: a). split; [exists a; split; auto|]. split; [cbn [app]; congruence | exact H].
  - left. unfold skip_comment. destruct c as [|p|p]; try reflexivity. do 6 (destruct p as [p|p|]; try reflexivity). congruence.
Qed.
Lemma comment_opt s : exists cm, (cm = [] \/ comment cm) /\ s = cm ++ skip_comment s.
Proof. destruct (comment_inv s) as [E|(cm & C & E & _)]; [exists []; split; [now left | now rewrite E] | exists cm; auto]. Qed.
(** The reader's test of a character against a number, undone. *)
Ltac code c := let p := fresh "p" in destruct c as [|p|p]; try discriminate; repeat (destruct p as [p|p|]; try discriminate).
Lemma feed_split {A} (P : A -> Prop) (F : str -> A) (D : A) (s : str) :
  (forall nl t, line_feed nl -> s = nl ++ t -> P (F t)) -> P D -> P (match s with 10 :: t => F t | 13 :: 10 :: t => F t | _ => D end).
Proof.
  intros HF HD. destruct s as [|c t]; [exact HD|]. destruct c as [|p|p]; try exact HD. do 4 (destruct p as [p|p|]; try exact HD).
  - destruct t as [|d t]; [exact HD|]. destruct d as [|p|p]; try exact HD. do 4 (destruct p as [p|p|]; try exact HD). apply (HF [13; 10]); [now right | reflexivity].
  - apply (HF [10]); [now left | reflexivity].
Qed.
Lemma feed_split_self (P : str -> Prop) (F : str -> str) (s : str) :
  (forall nl t, line_feed nl -> s = nl ++ t -> P (F t)) -> P s -> P (match s with 10 :: t => F t | 13 :: 10 :: t => F t | r => r end).
Proof.
  intros HF HD. destruct s as [|c t]; [exact HD|]. destruct c as [|p|p]; try exact HD. do 4 (destruct p as [p|p|]; try exact HD).
  - destruct t as [|d t]; [exact HD|]. destruct d as [|p|p]; try exact HD. do 4 (destruct p as [p|p|]; try exact HD). apply (HF [13; 10]); [now right | reflexivity].
  - apply (HF [10]); [now left | reflexivity].
Qed.
Lemma skip_lines_step n s : skip_lines (S n) s = match skip_comment (skip_ws s) with 10 :: t => skip_lines n t | 13 :: 10 :: t => skip_lines n t | _ => skip_comment (skip_ws s) end.
Proof.
  cbn [skip_lines]. destruct (skip_comment (skip_ws s)) as [|c t]; [reflexivity|]. destruct c as [|p|p]; try reflexivity. do 4 (destruct p as [p|p|]; try reflexivity).
  destruct t as [|d t]; [reflexivity|]. destruct d as [|p|p]; try reflexivity. do 4 (destruct p as [p|p|]; try reflexivity).
Qed.
Lemma line_end_inv s r : line_end s = Some r -> exists cm, (cm = [] \/ comment cm) /\ ((s = cm /\ r = []) \/ exists nl, line_feed nl /\ s = cm ++ nl ++ r).
Proof.
  intros H. destruct (comment_opt s) as (cm & C & E). exists cm. split; [exact C|]. unfold line_end in H. destruct (skip_comment s) as [|c t] eqn:K.
  - left. injection H as <-. rewrite E, app_nil_r. auto.
  - right. revert H. rewrite E. clear E K. set (u := c :: t). change (match u with [] => Some [] | 10 :: t => Some t | 13 :: 10 :: t => Some t | _ => None end = Some r -> exists nl, line_feed nl /\ cm ++ u = cm ++ nl ++ r).
    intros H. assert (H' : match u with 10 :: t => Some t | 13 :: 10 :: t => Some t | _ => None end = Some r).
    { rewrite <- H. reflexivity. }
    revert H'. apply (feed_split (fun o => o = Some r -> exists nl, line_feed nl /\ cm ++ u = cm ++ nl ++ r)); [|discriminate].
    intros nl v L -> [= <-]. exists nl. auto.
Qed.
Lemma trailer_line s w cm : s = w ++ cm -> blank w -> cm = [] \/ comment cm -> trailer s.
Proof. intros -> B C. exists w, cm. auto. Qed.
Lemma gap_nil : gap [].
Proof. exists [], []. split; [constructor|]. split; [apply blank_nil | reflexivity]. Qed.
Lemma gap_line e nl g : trailer e -> line_feed nl -> gap g -> gap (e ++ nl ++ g).
Proof.
  intros (w & cm & B & C & ->) L (q & w2 & Q & B2 & ->). exists (w ++ cm ++ nl ++ q), w2. split; [now constructor|]. split; [exact B2|]. now rewrite <- !app_assoc.
Qed.
Lemma skip_lines_inv n : forall s, (exists g, gap g /\ s = g ++ skip_lines n s) \/ head_not plain_char (skip_lines n s).
Proof.
  induction n as [|n IH]; intros s; [left; exists []; split; [apply gap_nil | reflexivity]|]. rewrite skip_lines_step.
  destruct (ws_inv s) as (w & B & E & _). destruct (comment_inv (skip_ws s)) as [K|(cm & C & K & H)].
  - apply (feed_split_self (fun r => (exists g, gap g /\ s = g ++ r) \/ head_not plain_char r) (skip_lines n) (skip_comment (skip_ws s))).
    + intros nl t L X. destruct (IH t) as [(g & G & Et)|?]; [left | now right]. exists (w ++ nl ++ g). split.
      * apply (gap_line w); auto. exists w, []. rewrite app_nil_r. auto.
      * rewrite E. rewrite K in X. rewrite X. rewrite Et at 1. now rewrite <- !app_assoc.
    + left. exists w. split; [|now rewrite K]. exists [], w. split; [constructor | auto].
  - apply (feed_split_self (fun r => (exists g, gap g /\ s = g ++ r) \/ head_not plain_char r) (skip_lines n) (skip_comment (skip_ws s))); [|now right].
    intros nl t L X. destruct (IH t) as [(g & G & Et)|?]; [left | now right]. exists ((w ++ cm) ++ nl ++ g). split.
    + apply gap_line; auto. exists w, cm. auto.
    + rewrite E, K, X. rewrite Et at 1. now rewrite <- !app_assoc.
Qed.

(** *** Texts in quotes *)
Lemma push_some c r x y : push c r = Some (x, y) -> exists k, r = Some (k, y) /\ x = c :: k.
Proof. destruct r as [[k y']|]; [|discriminate]. intros [= <- <-]. eauto. Qed.
Lemma push_opt_some c r x y : push_opt c r = Some (x, y) -> exists z k, c = Some z /\ r = Some (k, y) /\ x = z :: k.
Proof. destruct c as [z|]; [|discriminate]. intros H. destruct (push_some _ _ _ _ H) as (k & -> & ->). eauto 6. Qed.
Lemma hex_all_digits l z : hex_all l = Some z -> exists ds, Forall2 (digit_as 16) ds l /\ z = base_val 16 ds.
Proof.
  unfold hex_all. assert (G : forall l a ds0 l0, Forall2 (digit_as 16) ds0 l0 -> a = base_val 16 ds0 ->
    fold_left (fun a c => match a, hex_val c with Some x, Some y => Some (16 * x + y) | _, _ => None end) l (Some a) = Some z ->
    exists ds, Forall2 (digit_as 16) ds (l0 ++ l) /\ z = base_val 16 ds).
  { clear l. assert (B : forall ds d, base_val 16 (ds ++ [d]) = 16 * base_val 16 ds + d).
    { induction ds as [|x ds IHd]; intros d; [cbn; lia|]. cbn [app base_val]. rewrite IHd, app_length. cbn [List.length]. rewrite Nat.add_1_r, Nat2Z.inj_succ, Z.pow_succ_r by lia. lia. }
    induction l as [|c l IH]; intros a ds0 l0 F -> H; cbn [fold_left] in H.
    - injection H as <-. exists ds0. now rewrite app_nil_r.
    - destruct (hex_val c) as [d|] eqn:V.
      + destruct (IH _ (ds0 ++ [d]) (l0 ++ [c]) ltac:(apply Forall2_app; [exact F | constructor; [now apply hex_digit_as | constructor]]) ltac:(symmetry; apply B) H) as (ds & F2 & E).
        exists ds. rewrite <- app_assoc in F2. auto.
      + assert (X : forall l, fold_left (fun a c => match a, hex_val c with Some x, Some y => Some (16 * x + y) | _, _ => None end) l (None : option Z) = None) by (intros u; induction u; auto).
        rewrite X in H. discriminate H. }
  intros H. exact (G l 0 [] [] (Forall2_nil _) eq_refl H).
Qed.
Lemma code_digits l z : code_point l = Some z -> exists ds, Forall2 (digit_as 16) ds l /\ z = base_val 16 ds /\ is_scalar z = true.
Proof.
  unfold code_point. destruct (hex_all l) as [y|] eqn:H; [|discriminate]. destruct (is_scalar y) eqn:S; [|discriminate]. intros [= <-].
  destruct (hex_all_digits _ _ H) as (ds & F & E). eauto.
Qed.
Lemma same_length {A B} (R : A -> B -> Prop) l m : Forall2 R l m -> List.length l = List.length m.
Proof. induction 1; cbn [List.length]; congruence. Qed.
Lemma code_4 a b c d z : code_point [a; b; c; d] = Some z -> quoted_char z (92 :: 117 :: [a; b; c; d]).
Proof. intros H. destruct (code_digits _ _ H) as (ds & F & E & S). apply (QcU4 z ds); auto. now rewrite (same_length _ _ _ F). Qed.
Lemma code_8 a b c d e f g h z : code_point [a; b; c; d; e; f; g; h] = Some z -> quoted_char z (92 :: 85 :: [a; b; c; d; e; f; g; h]).
Proof. intros H. destruct (code_digits _ _ H) as (ds & F & E & S). apply (QcU8 z ds); auto. now rewrite (same_length _ _ _ F). Qed.
Lemma code_short e z : simple_escape e = Some z -> quoted_char z [92; e].
Proof.
  unfold simple_escape. intros H. apply QcShort.
  repeat match type of H with (if ?b then _ else _) = _ => let E := fresh in destruct b eqn:E; [apply Z.eqb_eq in E; subst; injection H as <-; constructor|] end. discriminate H.
Qed.
Lemma code_plain c : is_scalar c = true -> plain_char c = true -> plain_in_quotes c.
Proof. intros S P. split; [exact S | now apply plain_char_of]. Qed.
Definition quoted_result (s : str) (o : option (str * str)) : Prop := match o with Some (k, r) => exists u, quoted k u /\ s = u ++ 34 :: r | None => True end.
Lemma quoted_push c x s o : quoted_char c x -> quoted_result s o -> quoted_result (x ++ s) (push c o).
Proof. intros Q. destruct o as [[k r]|]; [|auto]. intros (u & U & ->). exists (x ++ u). split; [now constructor | now rewrite <- app_assoc]. Qed.
Lemma quoted_push_opt c x s o : (forall z, c = Some z -> quoted_char z x) -> quoted_result s o -> quoted_result (x ++ s) (push_opt c o).
Proof. destruct c as [z|]; [|intros; exact I]. intros H. apply quoted_push. auto. Qed.
Lemma basic_inv : forall n s, (List.length s <= n)%nat -> txt s -> quoted_result s (basic_string s).
Proof.
  induction n as [|n IH]; intros s L T; (destruct s as [|c t]; [exact I|]); cbn [List.length] in L; [lia|].
  cbn [basic_string]. apply txt_cons in T as [Tc T]. destruct (Z.eqb_spec c 34) as [->|N1]; [exists []; split; [constructor | reflexivity]|]. destruct (Z.eqb_spec c 92) as [->|N2].
  - apply (escape_split (quoted_result (92 :: t)) (fun a b c d t' => push_opt (code_point [a; b; c; d]) (basic_string t'))
      (fun a b c d e f g h t' => push_opt (code_point [a; b; c; d; e; f; g; h]) (basic_string t'))
      (fun x t' => push_opt (simple_escape x) (basic_string t')) None); intros; cbv beta; subst; tx; cbn [List.length] in L.
    + apply (quoted_push_opt _ (92 :: 117 :: [a; b; c; d])); [intros z; apply code_4 | apply IH; auto; lia].
    + apply (quoted_push_opt _ (92 :: 85 :: [a; b; c; d; e; f; g; h])); [intros z; apply code_8 | apply IH; auto; lia].
    + apply (quoted_push_opt _ [92; x]); [intros z; apply code_short | apply IH; auto; lia].
    + exact I.
  - destruct (plain_char c) eqn:P; [|exact I]. apply (quoted_push c [c]); [apply QcPlain; auto; now apply code_plain | apply IH; auto; lia].
Qed.
Lemma literal_inv s : txt s -> forall k r, literal_string s = Some (k, r) -> one_line k /\ ~ In 39 k /\ s = k ++ 39 :: r.
Proof.
  induction s as [|c s IH]; intros T k r H; [discriminate H|]. apply txt_cons in T as [Tc T]. cbn [literal_string] in H. destruct (Z.eqb_spec c 39) as [->|N].
  - injection H as <- <-. split; [split; [reflexivity | intros ? []]|]. split; [intros [] | reflexivity].
  - destruct (plain_char c) eqn:P; [|discriminate H]. apply push_some in H as (k' & H & ->). destruct (IH T _ _ H) as ([X Y] & Z & ->). split; [split|split].
    + apply txt_cons. auto.
    + intros x [<-|J]; auto. now apply plain_char_of.
    + intros [J|J]; auto.
    + reflexivity.
Qed.

(** *** Texts in three quotes *)
Lemma closing_some q t x r : closing q t = Some (x, r) -> (x = [] \/ few_quotes q x) /\ q :: t = x ++ [q; q; q] ++ r.
Proof.
  unfold closing. destruct t as [|a [|b t]]; try discriminate. destruct (Z.eqb_spec a q) as [->|]; [|discriminate]. destruct (Z.eqb_spec b q) as [->|]; [|discriminate]. cbn [andb].
  destruct t as [|c t]; [intros [= <- <-]; auto|]. destruct (Z.eqb_spec c q) as [->|]; [|intros [= <- <-]; auto].
  destruct t as [|d t]; [intros [= <- <-]; split; [right; now left | reflexivity]|]. destruct (Z.eqb_spec d q) as [->|]; intros [= <- <-]; (split; [right | reflexivity]); [now right | now left].
Qed.
Lemma closing_none q t : closing q t = None -> head_not (Z.eqb q) t \/ exists t2, t = q :: t2 /\ head_not (Z.eqb q) t2.
Proof.
  unfold closing. intros H. destruct t as [|a t]; [now left|]. destruct (Z.eqb_spec q a) as [<-|N]; [|left; cbn; now apply Z.eqb_neq].
  right. exists t. split; [reflexivity|]. destruct t as [|b t]; [exact I|]. cbn [head_not]. rewrite Z.eqb_refl in H. destruct (Z.eqb_spec b q); [discriminate H|]. apply Z.eqb_neq. congruence.
Qed.
(** The text, the quotes before the closing ones, and the rest. *)
Definition ended (q : char) (L : str -> str -> Prop) (s : str) (x r : str) : Prop :=
  exists b k z, L k b /\ (z = [] \/ few_quotes q z) /\ s = b ++ z ++ [q; q; q] ++ r /\ x = k ++ z.
Lemma ended_head q L c t x r : ended q L (c :: t) x r -> c <> q -> exists b k z, b <> [] /\ begins_none [q] b /\ L k b /\ (z = [] \/ few_quotes q z) /\ c :: t = b ++ z ++ [q; q; q] ++ r /\ x = k ++ z.
Proof.
  intros (b & k & z & H & Z & E & X) N. exists b, k, z. destruct b as [|d b].
  - exfalso. destruct Z as [->|[->| ->]]; cbn [app] in E; congruence.
  - injection E as -> E. split; [discriminate|]. split; [|split; [exact H | split; [exact Z | split; [now rewrite E | exact X]]]]. intros e u [= <- _] [J|[]]. congruence.
Qed.
(** One or two quotes that do not close. *)
Lemma ended_quotes q (L : str -> str -> Prop) f t x r : (forall w k s, few_quotes q w -> s <> [] -> begins_none [q] s -> L k s -> L (w ++ k) (w ++ s)) ->
  few_quotes q f -> t <> [] -> head_not (Z.eqb q) t -> ended q L t x r -> ended q L (f ++ t) (f ++ x) r.
Proof.
  intros Q F N H E. destruct t as [|c t]; [congruence|]. apply Z.eqb_neq in H. destruct (ended_head _ _ _ _ _ _ E ltac:(congruence)) as (b & k & z & Nb & B & Lb & Z & Et & ->).
  exists (f ++ b), (f ++ k), z. split; [now apply Q|]. split; [exact Z|]. split; [rewrite Et; now rewrite <- !app_assoc | now rewrite <- app_assoc].
Qed.
Lemma ended_step q (L : str -> str -> Prop) w k0 t x r : (forall k s, L k s -> L (k0 ++ k) (w ++ s)) -> ended q L t x r -> ended q L (w ++ t) (k0 ++ x) r.
Proof. intros S (b & k & z & H & Z & -> & ->). exists (w ++ b), (k0 ++ k), z. split; [now apply S|]. split; [exact Z|]. split; now rewrite <- !app_assoc. Qed.
Lemma crlf_head c t : (c =? 13) && match t with x :: _ => x =? 10 | [] => false end = true -> c = 13 /\ exists u, t = 10 :: u.
Proof. intros H. apply andb_true_iff in H as [H1 H2]. apply Z.eqb_eq in H1. split; [exact H1|]. destruct t as [|x u]; [discriminate H2|]. apply Z.eqb_eq in H2. subst. eauto. Qed.
Lemma ml_literal_inv : forall n s, (List.length s <= n)%nat -> txt s -> forall x r, ml_literal s = Some (x, r) -> ended 39 long_plain s x r.
Proof.
  induction n as [|n IH]; intros s L T x r H; (destruct s as [|c t]; [discriminate H|]); cbn [List.length] in L; [lia|].
  apply txt_cons in T as [Tc T]. cbn [ml_literal] in H. destruct (Z.eqb_spec c 39) as [->|N].
  { destruct (closing 39 t) as [[x' r']|] eqn:E.
    - injection H as -> ->. apply closing_some in E as [Z E]. exists [], [], x. split; [constructor|]. auto.
    - apply push_some in H as (k & H & ->). destruct (closing_none _ _ E) as [Hd|(t2 & -> & Hd)].
      + apply (ended_quotes 39 long_plain [39]); [intros; now constructor | now left | intros ->; discriminate H | exact Hd | apply IH; auto; lia].
      + assert (X : ml_literal (39 :: t2) = push 39 (ml_literal t2)).
        { cbn [ml_literal]. rewrite Z.eqb_refl. replace (closing 39 t2) with (@None (str * str)); [reflexivity|]. unfold closing. destruct t2 as [|a [|b t3]]; try reflexivity. cbn [head_not] in Hd. rewrite Z.eqb_sym in Hd. now rewrite Hd. }
        apply (eq_trans (eq_sym X)) in H. apply push_some in H as (k2 & H & ->). cbn [List.length] in L. tx.
        apply (ended_quotes 39 long_plain [39; 39] t2 k2); [intros; now constructor | now right | intros ->; discriminate H | exact Hd | apply IH; auto; lia]. }
  destruct (Z.eqb_spec c 10) as [->|N2].
  { apply push_some in H as (k & H & ->). apply (ended_step 39 long_plain [10] [10]); [intros; apply (LpBreak [10]); auto; now left | apply IH; auto; lia]. }
  destruct ((c =? 13) && _) eqn:Cr.
  { apply crlf_head in Cr as [-> (u & ->)]. cbn [ml_literal Z.eqb Pos.eqb] in H. apply push_some in H as (k & H & ->). cbn [List.length] in L. tx.
    apply (ended_step 39 long_plain [13; 10] [10] u); [intros; apply (LpBreak [13; 10]); auto; now right | apply IH; auto; lia]. }
  destruct (plain_char c) eqn:P; [|discriminate H]. apply push_some in H as (k & H & ->).
  apply (ended_step 39 long_plain [c] [c]); [intros; apply LpChar; auto; now apply code_plain | apply IH; auto; lia].
Qed.
(** While joining: the white space first. *)
Definition joined_form (j : joining) (s x r : str) : Prop :=
  match j with
  | JNo => ended 34 long_text s x r
  | JSkip => exists g u, white g /\ begins_none [32; 9; 10; 13] u /\ s = g ++ u /\ ended 34 long_text u x r
  | JNeed => exists w nl g u, blank w /\ line_feed nl /\ white g /\ begins_none [32; 9; 10; 13] u /\ s = w ++ nl ++ g ++ u /\ ended 34 long_text u x r
  end.
Lemma join_text w nl g u x r : blank w -> line_feed nl -> white g -> begins_none [32; 9; 10; 13] u -> ended 34 long_text u x r -> ended 34 long_text (92 :: w ++ nl ++ g ++ u) x r.
Proof.
  intros W N G B (b & k & z & H & Z & -> & ->). exists ([92] ++ w ++ nl ++ g ++ b), k, z. split.
  - constructor; auto. intros c t -> J. exact (B c _ eq_refl J).
  - split; [exact Z|]. split; [cbn [app]; f_equal; now rewrite <- !app_assoc | reflexivity].
Qed.
Lemma ml_basic_inv : forall n s j, (List.length s <= n)%nat -> txt s -> forall x r, ml_basic j s = Some (x, r) -> joined_form j s x r.
Proof.
  induction n as [|n IH]; intros s j L T x r H; (destruct s as [|c t]; [discriminate H|]); cbn [List.length] in L; [lia|].
  pose proof T as T0. apply txt_cons in T as [Tc T].
  assert (R : forall j' x r, ml_basic j' t = Some (x, r) -> joined_form j' t x r) by (intros j' ? ?; apply IH; auto; lia).
  assert (Main : (if c =? 34 then match closing 34 t with Some r => Some r | None => push 34 (ml_basic JNo t) end
      else if c =? 92 then
        match t with
        | 117 :: a :: b :: c :: d :: t' => push_opt (code_point [a; b; c; d]) (ml_basic JNo t')
        | 85 :: a :: b :: c :: d :: e :: f :: g :: h :: t' => push_opt (code_point [a; b; c; d; e; f; g; h]) (ml_basic JNo t')
        | x :: t' =>
          match simple_escape x with
          | Some y => push y (ml_basic JNo t')
          | None => if is_ws x || (x =? 10) || (x =? 13) then ml_basic JNeed t else None
          end
        | [] => None
        end
      else if c =? 10 then push 10 (ml_basic JNo t)
      else if (c =? 13) && (match t with x :: _ => x =? 10 | [] => false end) then ml_basic JNo t
      else if plain_char c then push c (ml_basic JNo t) else None) = Some (x, r) -> ended 34 long_text (c :: t) x r).
  { clear H. destruct (Z.eqb_spec c 34) as [->|N1].
    { destruct (closing 34 t) as [[x' r']|] eqn:E; intros H.
      - injection H as -> ->. apply closing_some in E as [Z E]. exists [], [], x. split; [constructor|]. auto.
      - apply push_some in H as (k & H & ->). destruct (closing_none _ _ E) as [Hd|(t2 & -> & Hd)].
        + apply (ended_quotes 34 long_text [34]); [intros; now constructor | now left | intros ->; discriminate H | exact Hd | exact (R JNo _ _ H)].
        + assert (X : ml_basic JNo (34 :: t2) = push 34 (ml_basic JNo t2)).
          { cbn [ml_basic]. rewrite Z.eqb_refl. replace (closing 34 t2) with (@None (str * str)); [reflexivity|]. unfold closing. destruct t2 as [|a [|b t3]]; try reflexivity. cbn [head_not] in Hd. rewrite Z.eqb_sym in Hd. now rewrite Hd. }
          apply (eq_trans (eq_sym X)) in H. apply push_some in H as (k2 & H & ->). cbn [List.length] in L. tx.
          apply (ended_quotes 34 long_text [34; 34] t2 k2); [intros; now constructor | now right | intros ->; discriminate H | exact Hd | apply (IH t2 JNo); auto; lia]. }
    destruct (Z.eqb_spec c 92) as [->|N2].
    { apply (escape_split (fun o => o = Some (x, r) -> ended 34 long_text (92 :: t) x r) (fun a b c d t' => push_opt (code_point [a; b; c; d]) (ml_basic JNo t'))
      (fun a b c d e f g h t' => push_opt (code_point [a; b; c; d; e; f; g; h]) (ml_basic JNo t'))
      (fun x t' => match simple_escape x with
          | Some y => push y (ml_basic JNo t')
          | None => if is_ws x || (x =? 10) || (x =? 13) then ml_basic JNeed t else None
          end) None); cbv beta; [| | |discriminate].
      - intros a b c d t' -> H. tx. cbn [List.length] in L. apply push_opt_some in H as (z & k & E & H & ->).
        apply (ended_step 34 long_text (92 :: 117 :: [a; b; c; d]) [z] t'); [intros; apply (LtChar z); auto; now apply code_4 | apply (IH t' JNo); auto; lia].
      - intros a b c d e f g h t' -> H. tx. cbn [List.length] in L. apply push_opt_some in H as (z & k & E & H & ->).
        apply (ended_step 34 long_text (92 :: 85 :: [a; b; c; d; e; f; g; h]) [z] t'); [intros; apply (LtChar z); auto; now apply code_8 | apply (IH t' JNo); auto; lia].
      - intros e t' Et H. destruct (simple_escape e) as [z|] eqn:E.
        + subst t. tx. cbn [List.length] in L. apply push_some in H as (k & H & ->).
          apply (ended_step 34 long_text [92; e] [z] t'); [intros; apply (LtChar z); auto; now apply code_short | apply (IH t' JNo); auto; lia].
        + destruct (is_ws e || (e =? 10) || (e =? 13)); [|discriminate H]. apply R in H. destruct H as (w & nl & g & u & W & Nl & G & B & -> & En). now apply join_text. }
    destruct (Z.eqb_spec c 10) as [->|N3].
    { intros H. apply push_some in H as (k & H & ->). apply (ended_step 34 long_text [10] [10]); [intros; apply (LtBreak [10]); auto; now left | exact (R JNo _ _ H)]. }
    destruct ((c =? 13) && _) eqn:Cr.
    { intros H. apply crlf_head in Cr as [-> (u & ->)]. cbn [ml_basic Z.eqb Pos.eqb andb] in H. apply push_some in H as (k & H & ->). cbn [List.length] in L. tx.
      apply (ended_step 34 long_text [13; 10] [10] u); [intros; apply (LtBreak [13; 10]); auto; now right | apply (IH u JNo); auto; lia]. }
    intros H. destruct (plain_char c) eqn:P; [|discriminate H]. apply push_some in H as (k & H & ->).
    apply (ended_step 34 long_text [c] [c]); [intros; apply (LtChar c [c]); auto; apply QcPlain; auto; now apply code_plain | exact (R JNo _ _ H)]. }
  cbn [ml_basic] in H. destruct j; [exact (Main H) | |].
  - destruct (is_ws c) eqn:Ws.
    { apply R in H. destruct H as (w & nl & g & u & W & Nl & G & B & -> & En). exists (c :: w), nl, g, u. split; [apply blank_cons; auto; now apply is_ws_of|]. repeat (split; [assumption|]). split; [reflexivity | exact En]. }
    destruct (Z.eqb_spec c 10) as [->|N].
    { apply R in H. destruct H as (g & u & G & B & -> & En). exists [], [10], g, u. split; [apply blank_nil|]. split; [now left|]. auto. }
    destruct ((c =? 13) && _) eqn:Cr; [|discriminate H]. apply crlf_head in Cr as [-> (v & ->)]. cbn [ml_basic is_ws Z.eqb Pos.eqb orb] in H. cbn [List.length] in L. tx.
    apply (IH v JSkip) in H; [|lia|auto]. destruct H as (g & u & G & B & -> & En). exists [], [13; 10], g, u. split; [apply blank_nil|]. split; [now right|]. auto.
  - destruct (is_ws c || (c =? 10) || ((c =? 13) && match t with x :: _ => x =? 10 | [] => false end)) eqn:Wh.
    + apply orb_true_iff in Wh as [Wh|Cr]; [apply orb_true_iff in Wh as [Wh|Wh]|].
      * apply R in H. destruct H as (g & u & G & B & -> & En). exists ([c] ++ g), u. split; [constructor; auto; apply blank_cons; [now apply is_ws_of | apply blank_nil]|]. auto.
      * apply Z.eqb_eq in Wh. subst c. apply R in H. destruct H as (g & u & G & B & -> & En). exists ([10] ++ g), u. split; [apply WhLine; auto; now left|]. auto.
      * apply crlf_head in Cr as [-> (v & ->)]. cbn [ml_basic is_ws Z.eqb Pos.eqb orb] in H. cbn [List.length] in L. tx.
        apply (IH v JSkip) in H; [|lia|auto]. destruct H as (g & u & G & B & -> & En). exists ([13; 10] ++ g), u. split; [apply WhLine; auto; now right|]. auto.
    + exists [], (c :: t). split; [constructor|]. split; [|split; [reflexivity | exact (Main H)]].
      apply orb_false_iff in Wh as [Wh Cr]. apply orb_false_iff in Wh as [Wh N]. intros d u [= <- <-] J. cbn [In] in J. unfold is_ws in Wh.
      destruct J as [<-|[<-|[<-|[<-|[]]]]]; try discriminate. destruct t as [|e t]; [discriminate H|]. cbn [Z.eqb Pos.eqb andb] in H, Cr. apply Z.eqb_neq in Cr. destruct (Z.eqb_spec e 10); [congruence|]. discriminate H.
Qed.
Lemma trim_inv s : exists f, s = f ++ trim_newline s /\ (line_feed f \/ (f = [] /\ forall u, s <> 10 :: u /\ s <> 13 :: 10 :: u)).
Proof.
  assert (D : trim_newline s = s -> (forall u, s <> 10 :: u /\ s <> 13 :: 10 :: u) -> exists f, s = f ++ trim_newline s /\ (line_feed f \/ (f = [] /\ forall u, s <> 10 :: u /\ s <> 13 :: 10 :: u))).
  { intros E H. exists []. rewrite E. auto. }
  destruct s as [|c t]; [apply D; [reflexivity | split; discriminate]|]. destruct (Z.eqb_spec c 10) as [->|N]; [exists [10]; split; [reflexivity | left; now left]|].
  destruct (Z.eqb_spec c 13) as [->|N2].
  - destruct t as [|d t]; [apply D; [reflexivity | split; discriminate]|]. destruct (Z.eqb_spec d 10) as [->|N3]; [exists [13; 10]; split; [reflexivity | left; now right]|].
    apply D; [|split; congruence]. unfold trim_newline. destruct d as [|p|p]; try reflexivity. do 4 (destruct p as [p|p|]; try reflexivity). congruence.
  - apply D; [|split; congruence]. unfold trim_newline. destruct c as [|p|p]; try reflexivity. do 4 (destruct p as [p|p|]; try reflexivity); congruence.
Qed.
Lemma opening_of q (L : str -> str -> Prop) t x r : (forall u, (forall v, u <> 10 :: v) -> ~ ended q L (13 :: u) x r) -> q = 34 \/ q = 39 -> ended q L (trim_newline t) x r ->
  exists f b k z, opening f b /\ L k b /\ (z = [] \/ few_quotes q z) /\ t = f ++ b ++ z ++ [q; q; q] ++ r /\ x = k ++ z.
Proof.
  intros Cr Q E. destruct (trim_inv t) as (f & Et & F). destruct E as (b & k & z & H & Z & E & X). exists f, b, k, z.
  split; [|split; [exact H | split; [exact Z | split; [now rewrite Et, E | exact X]]]]. destruct F as [F|[-> N]]; [now left|]. right. split; [reflexivity|].
  cbn [app] in Et. rewrite <- Et in E. intros c u -> J. destruct J as [<-|[<-|[]]].
  - exact (proj1 (N _) E).
  - cbn [app] in E. destruct (Cr (u ++ z ++ [q; q; q] ++ r)).
    + intros v Ev. apply (proj2 (N v)). rewrite E. f_equal. exact Ev.
    + exists (13 :: u), k, z. auto.
Qed.
Lemma long_return k s : long_text k s -> forall b, s = 13 :: b -> exists v, b = 10 :: v.
Proof.
  intros H b Es. destruct H as [|c x1 k s0 Q H|nl k s0 L H|w k s0 Fq Ns B H|w nl g k s0 W L G B H].
  - discriminate Es.
  - destruct Q as [c [_ P] N1 N2|c e P|c ds hs F L S P|c ds hs F L S P]; try discriminate Es. injection Es as -> _. lia.
  - destruct L as [->| ->]; [discriminate Es|]. injection Es as <-. eexists. reflexivity.
  - destruct Fq as [->| ->]; discriminate Es.
  - discriminate Es.
Qed.
Lemma plain_return k s : long_plain k s -> forall b, s = 13 :: b -> exists v, b = 10 :: v.
Proof.
  intros H b Es. destruct H as [|c k s0 [_ P] N1 H|nl k s0 L H|w k s0 Fq Ns B H].
  - discriminate Es.
  - injection Es as -> _. lia.
  - destruct L as [->| ->]; [discriminate Es|]. injection Es as <-. eexists. reflexivity.
  - destruct Fq as [->| ->]; discriminate Es.
Qed.
Lemma long_no_return x r : (forall u, (forall v, u <> 10 :: v) -> ~ ended 34 long_text (13 :: u) x r) /\ (forall u, (forall v, u <> 10 :: v) -> ~ ended 39 long_plain (13 :: u) x r).
Proof.
  split; intros u N (b & k & z & H & Z & E & X); (destruct b as [|c b]; [destruct Z as [->|[->| ->]]; discriminate E|]); injection E as <- E.
  - destruct (long_return _ _ H _ eq_refl) as (v & ->). exact (N _ E).
  - destruct (plain_return _ _ H _ eq_refl) as (v & ->). exact (N _ E).
Qed.
Definition value_result lim n (s : str) {A} (o : option (A * str)) : Prop := match o with Some (_, r) => exists u, value_form lim n u /\ s = u ++ r | None => True end.
Lemma string_inv lim n s : txt s -> value_result lim n s (string_value s).
Proof.
  intros T. destruct s as [|c t]; [exact I|]. pose proof T as T0. apply txt_cons in T as [Tc T].
  unfold string_value. destruct c as [|p|p]; try exact I. do 6 (destruct p as [p|p|]; try exact I).
  - assert (Li : value_result lim n (39 :: t) (literal_string t)).
    { destruct (literal_string t) as [[k r]|] eqn:E; [|exact I]. apply literal_inv in E as (O & N & ->); auto. exists ([39] ++ k ++ [39]). split; [now constructor|]. cbn [app]. now rewrite <- app_assoc. }
    destruct t as [|a t]; [exact Li|]. destruct a as [|p|p]; try exact Li. do 6 (destruct p as [p|p|]; try exact Li).
    destruct t as [|a t]; [exact Li|]. destruct a as [|p|p]; try exact Li. do 6 (destruct p as [p|p|]; try exact Li).
    tx. clear Li. destruct (ml_literal (trim_newline t)) as [[x r]|] eqn:E; [|exact I]. apply (ml_literal_inv _ _ (le_n _)) in E; [|now apply trim_good].
    destruct (opening_of 39 long_plain t x r (proj2 (long_no_return x r)) ltac:(auto) E) as (f & b & k & z & O & L & Z & -> & _).
    exists ([39; 39; 39] ++ f ++ b ++ z ++ [39; 39; 39]). split; [exact (VfLongPlain lim n f k b z O L Z)|]. cbn [app]. now rewrite <- !app_assoc.
  - assert (B : value_result lim n (34 :: t) (basic_string t)).
    { pose proof (basic_inv _ t (le_n _) T) as G. destruct (basic_string t) as [[k r]|]; [|exact I]. destruct G as (u & G & ->). exists ([34] ++ u ++ [34]). split; [now apply (VfDouble lim n k)|]. cbn [app]. now rewrite <- app_assoc. }
    destruct t as [|a t]; [exact B|]. destruct a as [|p|p]; try exact B. do 6 (destruct p as [p|p|]; try exact B).
    destruct t as [|a t]; [exact B|]. destruct a as [|p|p]; try exact B. do 6 (destruct p as [p|p|]; try exact B).
    tx. clear B. destruct (ml_basic JNo (trim_newline t)) as [[x r]|] eqn:E; [|exact I]. apply (ml_basic_inv _ _ JNo (le_n _)) in E; [|now apply trim_good].
    destruct (opening_of 34 long_text t x r (proj1 (long_no_return x r)) ltac:(auto) E) as (f & b & k & z & O & L & Z & -> & _).
    exists ([34; 34; 34] ++ f ++ b ++ z ++ [34; 34; 34]). split; [exact (VfLong lim n f k b z O L Z)|]. cbn [app]. now rewrite <- !app_assoc.
Qed.

(** *** Keys *)
Lemma bare_char_of c : bare_char c = true -> 65 <= c <= 90 \/ 97 <= c <= 122 \/ 48 <= c <= 57 \/ c = 95 \/ c = 45.
Proof. unfold bare_char, digit_char. lia. Qed.
Lemma simple_key_inv s k r : txt s -> simple_key s = Some (k, r) -> exists u, key_text k u /\ s = u ++ r.
Proof.
  intros T. assert (Sp : match span bare_char s with ([], _) => None | r => Some r end = Some (k, r) -> exists u, key_text k u /\ s = u ++ r).
  { destruct (span bare_char s) as [a b] eqn:E. apply span_parts in E as (Es & A & _). intros H. destruct a as [|c a]; [discriminate H|]. injection H as <- <-. exists (c :: a). split; [|exact Es].
    constructor. split; [discriminate|]. intros x J. rewrite forallb_forall in A. apply bare_char_of. now apply A. }
  unfold simple_key. destruct s as [|c t]; [discriminate|]. pose proof T as T0. apply txt_cons in T as [Tc T].
  assert (B : basic_string t = Some (k, r) -> exists u, key_text k u /\ 34 :: t = u ++ r).
  { intros E. pose proof (basic_inv _ t (le_n _) T) as G. rewrite E in G. destruct G as (u & G & ->). exists ([34] ++ u ++ [34]). split; [now constructor|]. cbn [app]. now rewrite <- app_assoc. }
  assert (Li : literal_string t = Some (k, r) -> exists u, key_text k u /\ 39 :: t = u ++ r).
  { intros E. apply literal_inv in E as (O & N & ->); auto. exists ([39] ++ k ++ [39]). split; [now constructor|]. cbn [app]. now rewrite <- app_assoc. }
  destruct c as [|p|p]; try exact Sp. do 6 (destruct p as [p|p|]; try exact Sp); auto.
Qed.
Lemma key_path_inv fuel : forall s p r, txt s -> key_path fuel s = Some (p, r) -> exists t, path_text p t /\ s = t ++ r.
Proof.
  induction fuel as [|fuel IH]; intros s p r T H; [discriminate H|]. cbn [key_path] in H. destruct (ws_inv s) as (w1 & B1 & E1 & _). pose proof (skip_ws_good _ T) as T1.
  pose proof (simple_key_good _ T1) as G. destruct (simple_key (skip_ws s)) as [[k t]|] eqn:K; [|discriminate H]. destruct G as [_ Tt]. apply simple_key_inv in K as (u & K & Eu); auto.
  destruct (ws_inv t) as (w2 & B2 & E2 & _). apply skip_ws_good in Tt.
  assert (D : Some ([k], skip_ws t) = Some (p, r) -> exists t, path_text p t /\ s = t ++ r).
  { intros [= <- <-]. exists (w1 ++ u ++ w2). split; [now constructor|]. rewrite E1, Eu. rewrite E2 at 1. now rewrite <- !app_assoc. }
  destruct (skip_ws t) as [|c v] eqn:Es; [exact (D H)|]. destruct c as [|q|q]; try exact (D H). do 6 (destruct q as [q|q|]; try exact (D H)).
  clear D. destruct (key_path fuel v) as [[p' r']|] eqn:E; [|discriminate H]. injection H as <- <-. apply txt_tail in Tt. destruct (IH _ _ _ Tt E) as (t' & P & Ev).
  exists (w1 ++ u ++ w2 ++ [46] ++ t'). split; [now constructor|]. rewrite E1, Eu. rewrite E2 at 1. rewrite Ev. rewrite <- !app_assoc. reflexivity.
Qed.

Lemma path_blank w p t : blank w -> path_text p t -> path_text p (w ++ t).
Proof.
  intros B P. assert (A : forall w1, blank w1 -> blank (w ++ w1)) by (intros w1 B1 c J; apply in_app_or in J as [J|J]; auto).
  destruct P as [k s w1 w2 K B1 B2|k s w1 w2 p t K B1 B2 P]; rewrite app_assoc; constructor; auto.
Qed.

(** *** Words *)
Lemma token_word s t : token_value s = Some t -> literal_word s.
Proof.
  intros T. destruct (token_leaf _ _ T) as [Lf Ns]. destruct t.
  - apply token_bool in T. unfold literal_word. destruct b; auto.
  - left. exists z. pose proof (token_integer_inv _ _ T) as J. split; [exact J|]. apply token_integer in J as (T2 & _). rewrite T in T2. unfold int_token in T2. destruct (in_range I64 z) eqn:R; [|discriminate T2]. now apply in_range_fits.
  - right. left. exists f. now apply token_float_inv.
  - now destruct (Ns _ eq_refl).
  - right. right. right. right. eexists. apply token_date. exact T.
  - destruct Lf.
  - destruct Lf.
Qed.
Lemma token_end_inv s : s = fst (token_end s) ++ snd (token_end s).
Proof.
  unfold token_end. destruct (span token_char s) as [a r] eqn:E. apply span_parts in E as (-> & _). assert (D : a ++ r = fst (a, r) ++ snd (a, r)) by reflexivity.
  destruct r as [|x r]; [exact D|]. destruct x as [|p|p]; try exact D. do 6 (destruct p as [p|p|]; try exact D). destruct r as [|c r]; [exact D|].
  destruct (digit_char c && _); [|exact D]. cbn [tl]. destruct (span token_char (c :: r)) as [b r'] eqn:E. apply span_parts in E as (-> & _). cbn [fst snd]. now rewrite <- app_assoc.
Qed.
Lemma no_value lim f deep s : head_not plain_char s -> value_at lim f deep s = None.
Proof.
  intros H. destruct f as [|f]; [reflexivity|]. cbn [value_at]. destruct s as [|c t]; [reflexivity|]. cbn [head_not] in H.
  assert (N : c <> 34 /\ c <> 39 /\ c <> 91 /\ c <> 123 /\ token_char c = false) by (unfold plain_char, token_char, bare_char, digit_char in *; lia).
  destruct N as (N1 & N2 & N3 & N4 & N5). destruct (Z.eqb_spec c 34); [congruence|]. destruct (Z.eqb_spec c 39); [congruence|]. destruct (Z.eqb_spec c 91); [congruence|]. destruct (Z.eqb_spec c 123); [congruence|]. cbn [orb].
  pose proof (token_end_inv (c :: t)) as E. assert (F : fst (token_end (c :: t)) = []).
  { unfold token_end. cbn [span]. rewrite N5. assert (D : fst (@nil char, c :: t) = []) by reflexivity. destruct c as [|p|p]; try exact D. do 6 (destruct p as [p|p|]; try exact D). discriminate H. }
  destruct (token_end (c :: t)) as [a r]. cbn [fst] in F. rewrite F. reflexivity.
Qed.

(** *** Values *)
Definition items_result lim n (s : str) {A} (o : option (A * str)) : Prop := match o with Some (_, r) => exists u, items_form lim n u /\ s = u ++ r | None => True end.
Definition pairs_result lim n (s : str) {A} (o : option (A * str)) : Prop := match o with Some (_, r) => exists u, pairs_form lim n u /\ s = u ++ r | None => True end.
Lemma values_inv lim : forall fuel deep, (forall s, txt s -> value_result lim (lim - S deep) s (value_at lim fuel deep s)) /\ (forall s, txt s -> items_result lim (lim - S deep) s (items_at lim fuel deep s))
  /\ (forall s, txt s -> pairs_result lim (lim - S deep) s (pairs_at lim fuel deep s)).
Proof.
  induction fuel as [|f IH]; intros deep; [repeat split; intros; exact I|]. split; [|split]; intros s T.
  - cbn [value_at]. destruct s as [|c t]; [exact I|]. destruct ((c =? 34) || (c =? 39)).
    { pose proof (string_inv lim (lim - S deep) _ T) as G. destruct (string_value (c :: t)) as [[x r]|]; exact G. }
    destruct (Z.eqb_spec c 91) as [->|N1].
    { destruct (Nat.leb_spec lim (S deep)) as [Le|Lt]; [exact I|]. pose proof (proj1 (proj2 (IH (S deep))) t (txt_tail _ _ T)) as G.
      destruct (items_at lim f (S deep) t) as [[l r]|]; [|exact I]. destruct G as (u & G & ->). exists ([91] ++ u). split; [|reflexivity]. replace (lim - S deep)%nat with (S (lim - S (S deep))) by lia. now apply VfArray. }
    destruct (Z.eqb_spec c 123) as [->|N2].
    { destruct (Nat.leb_spec lim (S deep)) as [Le|Lt]; [exact I|]. apply txt_tail in T. destruct (ws_inv t) as (w & B & E & _). apply skip_ws_good in T.
      replace (lim - S deep)%nat with (S (lim - S (S deep))) by lia.
      assert (D : value_result lim (S (lim - S (S deep))) (123 :: t) (match pairs_at lim f (S deep) (skip_ws t) with
                     | Some (l, r) => match put_entries l [] with Some m => Some (of_table m, r) | None => None end
                     | None => None end)).
      { pose proof (proj2 (proj2 (IH (S deep))) _ T) as G. destruct (pairs_at lim f (S deep) (skip_ws t)) as [[l r]|]; [|exact I]. destruct G as (u & G & R).
        destruct (put_entries l []) as [m|]; [|exact I]. exists ([123] ++ w ++ u). split; [|rewrite E, R; cbn [app]; now rewrite <- app_assoc].
        apply VfTable. clear - G B. destruct G as [n p t w0 x w2 P L B0 V B2|n p t w0 x w2 s P L B0 V B2 M].
        - rewrite app_assoc. apply (PfLast lim n p); auto. now apply path_blank.
        - rewrite app_assoc. apply (PfMore lim n p); auto. now apply path_blank. }
      destruct (skip_ws t) as [|d u] eqn:Es; [exact D|]. destruct d as [|p|p]; try exact D. do 7 (destruct p as [p|p|]; try exact D).
      exists ([123] ++ w ++ [125]). split; [now apply VfEmpty|]. rewrite E. cbn [app]. now rewrite <- app_assoc. }
    pose proof (token_end_inv (c :: t)) as G. destruct (token_end (c :: t)) as [a r]. cbn [fst snd] in G.
    destruct (token_value a) eqn:E; [|exact I]. exists a. split; [|exact G]. apply VfWord. eapply token_word; eauto.
  - cbn [items_at]. pose proof (skip_lines_inv (List.length s) s) as Sk. apply (skip_lines_good (List.length s)) in T. set (t := skip_lines (List.length s) s) in *. clearbody t.
    assert (D : (exists g, gap g /\ s = g ++ t) -> items_result lim (lim - S deep) s (match value_at lim f deep t with
      | None => None
      | Some (x, u) =>
        match skip_lines (List.length u) u with
        | 44 :: r => match items_at lim f deep r with Some (l, r') => Some (x :: l, r') | None => None end
        | 93 :: r => Some ([x], r)
        | _ => None
        end
      end)).
    { intros (g & Gg & ->). pose proof (proj1 (IH deep) t T) as G. pose proof (proj1 (values_good lim f deep) t T) as Gt. destruct (value_at lim f deep t) as [[x u]|]; [|exact I]. destruct G as (a & Ga & ->). destruct Gt as [_ Gu].
      pose proof (skip_lines_inv (List.length u) u) as Su. apply (skip_lines_good (List.length u)) in Gu. destruct (skip_lines (List.length u) u) as [|d r]; [exact I|].
      assert (Hu : plain_char d = true -> exists h, gap h /\ u = h ++ d :: r) by (intros P; destruct Su as [Su|Su]; [exact Su | cbn [head_not] in Su; congruence]).
      destruct d as [|p|p]; try exact I. do 7 (try (destruct p as [p|p|]; try exact I)).
      - destruct (Hu eq_refl) as (h & H & ->). exists (g ++ a ++ h ++ [93]). split; [now apply IfLast|]. now rewrite <- !app_assoc.
      - destruct (Hu eq_refl) as (h & H & ->). apply txt_tail in Gu. pose proof (proj1 (proj2 (IH deep)) r Gu) as G. destruct (items_at lim f deep r) as [[l r']|]; [|exact I]. destruct G as (b & G & ->).
        exists (g ++ a ++ h ++ [44] ++ b). split; [now apply IfMore|]. now rewrite <- !app_assoc. }
    assert (N : head_not plain_char t -> value_at lim f deep t = None) by apply no_value.
    destruct Sk as [Sk|Sk].
    + specialize (D Sk). destruct t as [|d r]; [exact D|]. destruct d as [|p|p]; try exact D. do 7 (destruct p as [p|p|]; try exact D).
      destruct Sk as (g & Gg & ->). exists (g ++ [93]). split; [now apply IfEnd|]. now rewrite <- app_assoc.
    + specialize (N Sk). clear D. destruct t as [|d r]; [rewrite N; exact I|]. destruct d as [|p|p]; try (rewrite N; exact I). do 7 (destruct p as [p|p|]; try (rewrite N; exact I)). discriminate Sk.
  - cbn [pairs_at]. destruct (key_path (S (List.length s)) s) as [[p t]|] eqn:K; [|exact I]. pose proof (key_path_good (S (List.length s)) s T) as Kg. rewrite K in Kg. destruct Kg as (_ & _ & Tt).
    apply key_path_inv in K as (a & P & ->); auto. destruct t as [|d t]; [exact I|]. destruct d as [|b|b]; try exact I. do 6 (destruct b as [b|b|]; try exact I).
    destruct (Nat.leb_spec lim (List.length p)) as [Le|Lt]; [exact I|]. apply txt_tail in Tt. destruct (ws_inv t) as (w & B & E & _). apply skip_ws_good in Tt.
    pose proof (proj1 (IH deep) _ Tt) as G. pose proof (proj1 (values_good lim f deep) _ Tt) as Gt. destruct (value_at lim f deep (skip_ws t)) as [[x u]|]; [|exact I]. destruct G as (v & Gv & Ev). destruct Gt as [_ Gu].
    destruct (ws_inv u) as (w2 & B2 & E2 & _). apply skip_ws_good in Gu. rewrite E, Ev. clear E Ev.
    destruct (skip_ws u) as [|d r]; [exact I|]. destruct d as [|b|b]; try exact I. do 7 (try (destruct b as [b|b|]; try exact I)).
    + exists (a ++ [61] ++ w ++ v ++ w2 ++ [125]). split; [now apply (PfLast lim _ p)|]. rewrite E2. now rewrite <- !app_assoc.
    + apply txt_tail in Gu. pose proof (proj2 (proj2 (IH deep)) r Gu) as G. destruct (pairs_at lim f deep r) as [[l r']|]; [|exact I]. destruct G as (b & G & ->).
      exists (a ++ [61] ++ w ++ v ++ w2 ++ [44] ++ b). split; [now apply (PfMore lim _ p)|]. rewrite E2. now rewrite <- !app_assoc.
Qed.

(** *** Lines and files *)
Lemma statement_inv lim s st r : txt s -> statement_at lim s = Some (st, r) -> txt r /\ exists x, line_form lim x /\ s = x ++ r.
Proof.
  intros T H. pose proof (statement_good lim s T) as G. rewrite H in G. split; [exact (proj2 G)|]. clear G.
  assert (D : match key_path (S (List.length s)) s with
    | Some (p, 61 :: t) =>
      if Nat.leb lim (List.length p) then None else
      match value_at lim (2 * List.length t + 2) 0 (skip_ws t) with
      | Some (x, r) => Some (SEntry p x, r)
      | None => None
      end
    | _ => None
    end = Some (st, r) -> exists x, line_form lim x /\ s = x ++ r).
  { clear H. destruct (key_path (S (List.length s)) s) as [[p t]|] eqn:K; [|discriminate]. pose proof (key_path_good (S (List.length s)) s T) as Kg. rewrite K in Kg. destruct Kg as (_ & _ & Tt).
    apply key_path_inv in K as (a & P & ->); auto. destruct t as [|d t]; [discriminate|]. destruct d as [|b|b]; try discriminate. do 6 (destruct b as [b|b|]; try discriminate).
    destruct (Nat.leb_spec lim (List.length p)) as [Le|Lt]; [discriminate|]. apply txt_tail in Tt. destruct (ws_inv t) as (w & B & E & _). apply skip_ws_good in Tt.
    pose proof (proj1 (values_inv lim (2 * List.length t + 2) 0) _ Tt) as G. destruct (value_at lim _ 0 (skip_ws t)) as [[x u]|]; [|discriminate]. destruct G as (v & Gv & Ev). intros [= <- <-].
    exists (a ++ [61] ++ w ++ v). split; [apply (LfSetting lim p a w v (lim - 1)); auto; lia|]. rewrite E, Ev. now rewrite <- !app_assoc. }
  assert (H1 : forall t, match key_path (S (List.length t)) t with
    | Some (p, 93 :: r) => if Nat.leb lim (List.length p) then None else Some (SHead false p, r)
    | _ => None
    end = Some (st, r) -> txt t -> exists x, line_form lim x /\ 91 :: t = x ++ r).
  { clear. intros t H T. destruct (key_path (S (List.length t)) t) as [[p u]|] eqn:K; [|discriminate H]. apply key_path_inv in K as (a & P & ->); auto.
    destruct u as [|d u]; [discriminate H|]. destruct d as [|b|b]; try discriminate H. do 7 (destruct b as [b|b|]; try discriminate H).
    destruct (Nat.leb_spec lim (List.length p)) as [Le|Lt]; [discriminate H|]. injection H as <- <-. exists ([91] ++ a ++ [93]). split; [now apply (LfTable lim p)|]. cbn [app]. now rewrite <- app_assoc. }
  assert (H2 : forall t, match key_path (S (List.length t)) t with
    | Some (p, 93 :: 93 :: r) => if Nat.leb lim (List.length p) then None else Some (SHead true p, r)
    | _ => None
    end = Some (st, r) -> txt t -> exists x, line_form lim x /\ 91 :: 91 :: t = x ++ r).
  { clear. intros t H T. destruct (key_path (S (List.length t)) t) as [[p u]|] eqn:K; [|discriminate H]. apply key_path_inv in K as (a & P & ->); auto.
    destruct u as [|d u]; [discriminate H|]. destruct d as [|b|b]; try discriminate H. do 7 (destruct b as [b|b|]; try discriminate H).
    destruct u as [|d u]; [discriminate H|]. destruct d as [|b|b]; try discriminate H. do 7 (destruct b as [b|b|]; try discriminate H).
    destruct (Nat.leb_spec lim (List.length p)) as [Le|Lt]; [discriminate H|]. injection H as <- <-. exists ([91; 91] ++ a ++ [93; 93]). split; [now apply (LfElement lim p)|]. cbn [app]. now rewrite <- app_assoc. }
  unfold statement_at in H. destruct s as [|c t]; [discriminate H|]. destruct c as [|p|p]; try exact (D H). do 7 (destruct p as [p|p|]; try exact (D H)). apply txt_tail in T.
  destruct t as [|c t]; [exact (H1 [] H T)|]. destruct c as [|p|p]; try (apply H1; [exact H | exact T]). do 7 (destruct p as [p|p|]; try (apply H1; [exact H | exact T])). apply txt_tail in T. exact (H2 t H T).
Qed.
Lemma statements_inv lim fuel : forall s l, txt s -> statements lim fuel s = Some l -> file_form lim s.
Proof.
  induction fuel as [|f IH]; intros s l T H; [discriminate H|]. cbn [statements] in H. destruct (ws_inv s) as (w & B & E & Hd). apply skip_ws_good in T. rewrite E.
  destruct (skip_ws s) as [|c t]; [apply FfEnd; exists w, []; auto|]. destruct ((c =? 10) || (c =? 13) || (c =? 35)).
  - destruct (line_end (c :: t)) as [r|] eqn:L; [|discriminate H]. apply line_end_inv in L as (cm & C & [[-> _]|(nl & N & Et)]).
    + apply FfEnd. exists w, cm. auto.
    + rewrite Et in T |- *. replace (w ++ cm ++ nl ++ r) with ((w ++ cm) ++ nl ++ r) by now rewrite <- app_assoc. apply FfQuiet; auto; [exists w, cm; auto|]. eapply IH; [|exact H]. now apply txt_app in T as [_ T]; apply txt_app in T.
  - destruct (statement_at lim (c :: t)) as [[st r]|] eqn:S; [|discriminate H]. apply statement_inv in S as (Tr & x & X & ->); auto.
    destruct (ws_inv r) as (w2 & B2 & E2 & _). destruct (line_end (skip_ws r)) as [r'|] eqn:L; [|discriminate H]. destruct (statements lim f r') as [l'|] eqn:S'; [|discriminate H]. rewrite E2.
    apply skip_ws_good in Tr. apply line_end_inv in L as (cm & C & [[-> _]|(nl & N & Et)]).
    + apply FfLast; auto. exists w2, cm. auto.
    + rewrite Et in Tr |- *. replace (w2 ++ cm ++ nl ++ r') with ((w2 ++ cm) ++ nl ++ r') by now rewrite <- app_assoc. apply FfLine; auto; [exists w2, cm; auto|].
      eapply IH; [|exact S']. apply txt_app in Tr as [_ Tr]. now apply txt_app in Tr.
Qed.
Lemma loads_form r lim s v : toml_from_str (toml_codec r (toml_text lim)) s = Ok v -> is_text s = true /\ exists m u, (m = [] \/ m = [65279]) /\ s = m ++ u /\ file_form lim u.
Proof.
  intros E. destruct (load_inv _ _ _ _ E) as (t & P). apply crate_parse in P as (T & m & R & _). split; [exact T|]. unfold doc_root in R. destruct (stms lim (unmark s)) as [l|] eqn:L; [|discriminate R].
  unfold stms in L. rewrite unmark_eq in L. destruct s as [|c t'].
  - exists [], []. split; [now left|]. split; [reflexivity|]. eapply statements_inv; eauto.
  - destruct (Z.eqb_spec c 65279) as [->|N].
    + exists [65279], t'. split; [now right|]. split; [reflexivity|]. eapply statements_inv; [|exact L]. now apply txt_tail in T.
    + exists [], (c :: t'). split; [now left|]. split; [reflexivity|]. eapply statements_inv; eauto.
Qed.
