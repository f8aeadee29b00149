(** What is parsed from TOML text is a proper table. *)
From Coq Require Import ZArith Bool String Lia.
From Coq Require Import Floats.SpecFloat.
From Coq Require Import List.
Import ListNotations.
From Verif.Model Require Import Text Num Flt Value Toml TomlText.
From Verif.Spec Require Import Numerals TomlSpec TomlTextSpec.
From Verif.Proofs Require Import Basics Conversions FloatText Loaded TomlProofs TomlLex TomlNum TomlValues TomlDoc.
Local Open Scope Z_scope.

Definition txt (s : str) : Prop := is_text s = true.
Lemma txt_nil : txt [].
Proof. reflexivity. Qed.
Lemma txt_cons c s : txt (c :: s) <-> is_scalar c = true /\ txt s.
Proof. unfold txt. cbn [is_text forallb]. apply andb_true_iff. Qed.
Lemma txt_app a b : txt (a ++ b) <-> txt a /\ txt b.
Proof. unfold txt, is_text. rewrite forallb_app. apply andb_true_iff. Qed.
Lemma txt_tail c s : txt (c :: s) -> txt s.
Proof. intros H. now apply txt_cons in H. Qed.
Lemma txt_drop f s : txt s -> txt (drop_while f s).
Proof. induction s as [|c s IH]; intros T; [exact T|]. cbn [drop_while]. destruct (f c); [apply IH; now apply txt_tail in T | exact T]. Qed.
Lemma txt_firstn n s : txt s -> txt (firstn n s).
Proof. intros T. rewrite <- (firstn_skipn n s) in T. now apply txt_app in T. Qed.
Lemma txt_span f s : txt s -> txt (fst (span f s)) /\ txt (snd (span f s)).
Proof.
  induction s as [|c s IH]; intros T; [split; reflexivity|]. cbn [span]. destruct (f c).
  - apply txt_cons in T as [Tc T]. destruct (span f s) as [a b]. cbn [fst snd] in *. destruct (IH T). split; auto. apply txt_cons. auto.
  - split; [reflexivity | exact T].
Qed.

Definition good2 (r : option (str * str)) : Prop := match r with Some (a, b) => txt a /\ txt b | None => True end.
Lemma good_push c r : is_scalar c = true -> good2 r -> good2 (push c r).
Proof. intros S. destruct r as [[a b]|]; [|auto]. intros [A B]. split; auto. apply txt_cons. auto. Qed.
Lemma good_push_opt c r : (forall x, c = Some x -> is_scalar x = true) -> good2 r -> good2 (push_opt c r).
Proof. destruct c as [c|]; [|intros; exact I]. intros S. apply good_push. auto. Qed.
Lemma code_scalar l x : code_point l = Some x -> is_scalar x = true.
Proof. unfold code_point. destruct (hex_all l); [|discriminate]. destruct (is_scalar z) eqn:E; congruence. Qed.
Lemma simple_scalar c x : simple_escape c = Some x -> is_scalar x = true.
Proof. unfold simple_escape. intros H. repeat match type of H with context [if ?b then _ else _] => destruct b end; try discriminate H; injection H as <-; reflexivity. Qed.

(** The three ways after a backslash. *)
Lemma escape_split {A} (P : A -> Prop) (F : char -> char -> char -> char -> str -> A) (G : char -> char -> char -> char -> char -> char -> char -> char -> str -> A)
  (H : char -> str -> A) (N : A) (t : str) :
  (forall a b c d t', t = 117 :: a :: b :: c :: d :: t' -> P (F a b c d t')) ->
  (forall a b c d e f g h t', t = 85 :: a :: b :: c :: d :: e :: f :: g :: h :: t' -> P (G a b c d e f g h t')) ->
  (forall x t', t = x :: t' -> P (H x t')) -> P N ->
  P (match t with
     | 117 :: a :: b :: c :: d :: t' => F a b c d t'
     | 85 :: a :: b :: c :: d :: e :: f :: g :: h :: t' => G a b c d e f g h t'
     | x :: t' => H x t'
     | [] => N
     end).
Proof.
  intros HF HG HH HN. destruct t as [|x t]; [exact HN|]. specialize (HH x t eq_refl).
  destruct x as [|p|p]; try exact HH. do 7 (destruct p as [p|p|]; try exact HH).
  - do 4 (destruct t as [|? t]; [exact HH|]). now apply HF.
  - do 8 (destruct t as [|? t]; [exact HH|]). now apply HG.
Qed.
Ltac tx := repeat match goal with H : txt (_ :: _) |- _ => apply txt_cons in H as [? H] end.
Lemma basic_good : forall n s, (List.length s <= n)%nat -> txt s -> good2 (basic_string s).
Proof.
  induction n as [|n IH]; intros s L T; (destruct s as [|c t]; [exact I|]); cbn [List.length] in L; [lia|].
  cbn [basic_string]. apply txt_cons in T as [Tc T]. destruct (c =? 34); [split; [reflexivity | exact T]|]. destruct (c =? 92).
  - apply (escape_split good2 (fun a b c d t' => push_opt (code_point [a; b; c; d]) (basic_string t'))
      (fun a b c d e f g h t' => push_opt (code_point [a; b; c; d; e; f; g; h]) (basic_string t'))
      (fun x t' => push_opt (simple_escape x) (basic_string t')) None); intros; subst; tx; cbn [List.length] in L.
    + apply good_push_opt; [apply code_scalar | apply IH; auto; lia].
    + apply good_push_opt; [apply code_scalar | apply IH; auto; lia].
    + apply good_push_opt; [apply simple_scalar | apply IH; auto; lia].
    + exact I.
  - destruct (plain_char c); [|exact I]. apply good_push; auto. apply IH; auto. lia.
Qed.
Lemma literal_good s : txt s -> good2 (literal_string s).
Proof.
  induction s as [|c s IH]; intros T; [exact I|]. apply txt_cons in T as [Tc T]. cbn [literal_string]. destruct (c =? 39); [split; [reflexivity | exact T]|].
  destruct (plain_char c); [|exact I]. now apply good_push; auto.
Qed.
Lemma closing_good q t : is_scalar q = true -> txt t -> good2 (closing q t).
Proof.
  intros Q T. unfold closing. destruct t as [|a [|b t]]; try exact I. destruct ((a =? q) && (b =? q)); [|exact I]. tx.
  assert (TQ : txt [q]) by (apply txt_cons; split; auto; reflexivity). assert (TQ2 : txt [q; q]) by (apply txt_cons; auto).
  destruct t as [|c t]; [split; reflexivity|]. destruct (c =? q); [|split; [reflexivity | exact T]]. apply txt_tail in T.
  destruct t as [|d t]; [split; [exact TQ | exact T]|]. destruct (d =? q); split; auto. now apply txt_tail in T.
Qed.
Lemma ml_basic_good : forall n s j, (List.length s <= n)%nat -> txt s -> good2 (ml_basic j s).
Proof.
  induction n as [|n IH]; intros s j L T; (destruct s as [|c t]; [exact I|]); cbn [List.length] in L; [lia|].
  pose proof T as T0. apply txt_cons in T as [Tc T].
  assert (R : forall j', good2 (ml_basic j' t)) by (intros; apply IH; auto; lia).
  assert (Main : good2 (if c =? 34 then match closing 34 t with Some r => Some r | None => push 34 (ml_basic JNo t) end
      else if c =? 92 then
        match t with
        | 117 :: a :: b :: c :: d :: t' => push_opt (code_point [a; b; c; d]) (ml_basic JNo t')
        | 85 :: a :: b :: c :: d :: e :: f :: g :: h :: t' => push_opt (code_point [a; b; c; d; e; f; g; h]) (ml_basic JNo t')
        | x :: t' =>
          match simple_escape x with
          | Some y => push y (ml_basic JNo t')
          | None => if is_ws x || (x =? 10) || (x =? 13) then ml_basic JNeed t else None
          end
        | [] => None
        end
      else if c =? 10 then push 10 (ml_basic JNo t)
      else if (c =? 13) && (match t with x :: _ => x =? 10 | [] => false end) then ml_basic JNo t
      else if plain_char c then push c (ml_basic JNo t) else None)).
  { destruct (c =? 34).
    { destruct (closing 34 t) as [r|] eqn:E; [|apply good_push; auto]. rewrite <- E. apply closing_good; auto. }
    destruct (c =? 92).
    { apply (escape_split good2 (fun a b c d t' => push_opt (code_point [a; b; c; d]) (ml_basic JNo t'))
      (fun a b c d e f g h t' => push_opt (code_point [a; b; c; d; e; f; g; h]) (ml_basic JNo t'))
      (fun x t' => match simple_escape x with
          | Some y => push y (ml_basic JNo t')
          | None => if is_ws x || (x =? 10) || (x =? 13) then ml_basic JNeed t else None
          end) None); intros; [| | |exact I].
      - subst; tx; cbn [List.length] in L. apply good_push_opt; [apply code_scalar | apply IH; auto; lia].
      - subst; tx; cbn [List.length] in L. apply good_push_opt; [apply code_scalar | apply IH; auto; lia].
      - destruct (simple_escape x) eqn:E.
        + subst; tx; cbn [List.length] in L. apply good_push; [eapply simple_scalar; eauto | apply IH; auto; lia].
        + destruct (is_ws x || (x =? 10) || (x =? 13)); [apply R | exact I]. }
    destruct (c =? 10); [apply good_push; auto|]. destruct ((c =? 13) && _); [apply R|].
    destruct (plain_char c); [apply good_push; auto | exact I]. }
  cbn [ml_basic]. destruct j; [exact Main | |].
  - destruct (is_ws c); [apply R|]. destruct (c =? 10); [apply R|]. destruct ((c =? 13) && _); [apply R | exact I].
  - destruct (is_ws c || (c =? 10) || _); [apply R | exact Main].
Qed.
Lemma ml_literal_good s : txt s -> good2 (ml_literal s).
Proof.
  induction s as [|c t IH]; intros T; [exact I|]. pose proof T as T0. apply txt_cons in T as [Tc T]. cbn [ml_literal].
  destruct (c =? 39).
  { destruct (closing 39 t) as [r|] eqn:E; [|apply good_push; auto]. rewrite <- E. apply closing_good; auto. }
  destruct (c =? 10); [apply good_push; auto|]. destruct ((c =? 13) && _); [auto|]. destruct (plain_char c); [apply good_push; auto | exact I].
Qed.
Lemma trim_good s : txt s -> txt (trim_newline s).
Proof.
  intros T. destruct s as [|c t]; [exact T|]. unfold trim_newline. destruct c as [|p|p]; try exact T. do 4 (destruct p as [p|p|]; try exact T).
  - destruct t as [|d t]; [exact T|]. destruct d as [|p|p]; try exact T. do 4 (destruct p as [p|p|]; try exact T).
Qed.
Lemma string_good s : txt s -> good2 (string_value s).
Proof.
  intros T. destruct s as [|c t]; [exact I|]. pose proof T as T0. apply txt_cons in T as [Tc T].
  assert (B : good2 (basic_string t)) by (eapply basic_good; eauto). assert (Li : good2 (literal_string t)) by now apply literal_good.
  unfold string_value. destruct c as [|p|p]; try exact I. do 6 (destruct p as [p|p|]; try exact I).
  - destruct t as [|a t]; [exact Li|]. destruct a as [|p|p]; try exact Li. do 6 (destruct p as [p|p|]; try exact Li).
    destruct t as [|a t]; [exact Li|]. destruct a as [|p|p]; try exact Li. do 6 (destruct p as [p|p|]; try exact Li).
    tx. now apply ml_literal_good, trim_good.
  - destruct t as [|a t]; [exact B|]. destruct a as [|p|p]; try exact B. do 6 (destruct p as [p|p|]; try exact B).
    destruct t as [|a t]; [exact B|]. destruct a as [|p|p]; try exact B. do 6 (destruct p as [p|p|]; try exact B).
    tx. eapply ml_basic_good; eauto. now apply trim_good.
Qed.
Lemma simple_key_good s : txt s -> good2 (simple_key s).
Proof.
  intros T. assert (Sp : good2 (match span bare_char s with ([], _) => None | r => Some r end)).
  { destruct (txt_span bare_char s T) as [A B]. destruct (span bare_char s) as [[|c a] b]; [exact I | split; auto]. }
  unfold simple_key. destruct s as [|c t]; [exact I|]. pose proof T as T0. apply txt_cons in T as [Tc T].
  assert (B : good2 (basic_string t)) by (eapply basic_good; eauto). assert (Li : good2 (literal_string t)) by now apply literal_good.
  destruct c as [|p|p]; try exact Sp. do 6 (destruct p as [p|p|]; try exact Sp); auto.
Qed.
Definition goodp (r : option (list str * str)) : Prop := match r with Some (p, b) => p <> [] /\ (forall k, In k p -> txt k) /\ txt b | None => True end.
Lemma key_path_good fuel : forall s, txt s -> goodp (key_path fuel s).
Proof.
  induction fuel as [|fuel IH]; intros s T; [exact I|]. cbn [key_path]. pose proof (simple_key_good (skip_ws s) (txt_drop _ _ T)) as G.
  destruct (simple_key (skip_ws s)) as [[k t]|]; [|exact I]. destruct G as [Tk Tt]. apply (txt_drop is_ws) in Tt. fold (skip_ws t) in Tt.
  assert (D : goodp (Some ([k], skip_ws t))) by (repeat split; [discriminate | intros ? [<-|[]]; auto | auto]).
  destruct (skip_ws t) as [|c u]; [exact D|]. destruct c as [|p|p]; try exact D. do 6 (destruct p as [p|p|]; try exact D).
  apply txt_tail in Tt. specialize (IH u Tt). destruct (key_path fuel u) as [[p r]|]; [|exact I]. destruct IH as (N & K & R).
  repeat split; [discriminate | intros ? [<-|?]; auto | auto].
Qed.

(** *** Tokens *)
Lemma int_range_proper z t : int_in_range z = Some t -> proper_toml t.
Proof. unfold int_in_range. destruct (in_range I64 z) eqn:E; [|discriminate]. intros [= <-]. constructor. now apply in_range_fits. Qed.
Lemma based_proper b f s t : based_int b f s = Some t -> proper_toml t.
Proof. unfold based_int. destruct (underscored f s); [apply int_range_proper | discriminate]. Qed.
Lemma float_proper s t : float_value s = Some t -> proper_toml t.
Proof.
  unfold float_value. destruct (sign_of s) as [neg u]. destruct (span _ u) as [ip r]. destruct (span _ r) as [fp ep].
  destruct (dec_part ip) as [a|]; [|discriminate]. destruct (frac_part fp) as [b|]; [|discriminate]. destruct (exp_part ep) as [c|]; [|discriminate].
  destruct (parse_f64 _) as [f|] eqn:E; [|discriminate]. pose proof (parse_f64_valid _ _ E) as V.
  destruct f as [|[]| |]; try discriminate; intros [= <-]; constructor; exact V.
Qed.
Ltac bits x H := destruct x as [|x|x]; try discriminate H; do 6 (destruct x as [x|x|]; try discriminate H).
Lemma read_date_good s d r : txt s -> read_date s = Some (d, r) -> txt d /\ txt r.
Proof.
  intros T H. assert (E : d = firstn 10 s /\ exists a, s = a ++ r).
  { unfold read_date in H.
    do 4 (let x := fresh "y" in destruct s as [|x s]; [discriminate H|]). destruct s as [|z s]; [discriminate H|]. bits z H.
    do 2 (let x := fresh "y" in destruct s as [|x s]; [discriminate H|]). destruct s as [|z s]; [discriminate H|]. bits z H.
    do 2 (let x := fresh "y" in destruct s as [|x s]; [discriminate H|]).
    repeat match type of H with context [match two ?a ?b with _ => _ end] => destruct (two a b); [|discriminate H] end.
    match type of H with context [if ?b then _ else _] => destruct b; [|discriminate H] end. injection H as <- <-. split; [reflexivity|].
    eexists [_; _; _; _; _; _; _; _; _; _]. reflexivity. }
  destruct E as (-> & a & ->). split; [now apply txt_firstn | now apply txt_app in T].
Qed.
Lemma txt_rev s : txt s -> txt (rev s).
Proof. unfold txt, is_text. rewrite !forallb_forall. intros H c I. apply H. now apply in_rev. Qed.
Lemma frac_text z : txt z -> txt (match z with [] => [] | c :: l => 46 :: c :: l end).
Proof. destruct z; intros T; [reflexivity|]. apply txt_cons. split; [reflexivity | exact T]. Qed.
Lemma read_fraction_good s f r : txt s -> read_fraction s = Some (f, r) -> txt f /\ txt r.
Proof.
  intros T H. unfold read_fraction in H. destruct s as [|c t]; [injection H as <- <-; auto|].
  assert (D : Some ([], c :: t) = Some (f, r) -> txt f /\ txt r) by (intros [= <- <-]; split; [reflexivity | exact T]).
  destruct c as [|p|p]; try exact (D H). do 6 (destruct p as [p|p|]; try exact (D H)). clear D. apply txt_tail in T.
  destruct (txt_span digit_char t T) as [A B]. destruct (span digit_char t) as [[|x ds] u]; [discriminate H|]. cbn [fst snd] in *.
  injection H as <- <-. split; [|exact B]. apply (frac_text (trim_zeros (firstn 9 (x :: ds)))). apply txt_rev, txt_drop, txt_rev, (txt_firstn 9 (x :: ds)), A.
Qed.
Lemma read_time_good s d r : txt s -> read_time s = Some (d, r) -> txt d /\ txt r.
Proof.
  intros T H. assert (E : exists f a t, d = firstn 8 s ++ f /\ s = a ++ t /\ read_fraction t = Some (f, r)).
  { unfold read_time in H.
    do 2 (let x := fresh "y" in destruct s as [|x s]; [discriminate H|]). destruct s as [|z s]; [discriminate H|]. bits z H.
    do 2 (let x := fresh "y" in destruct s as [|x s]; [discriminate H|]). destruct s as [|z s]; [discriminate H|]. bits z H.
    do 2 (let x := fresh "y" in destruct s as [|x s]; [discriminate H|]).
    repeat match type of H with context [match two ?a ?b with _ => _ end] => destruct (two a b); [|discriminate H] end.
    match type of H with context [if ?b then _ else _] => destruct b; [|discriminate H] end.
    destruct (read_fraction s) as [[f u]|] eqn:E; [|discriminate H]. injection H as <- <-. exists f, [y; y0; 58; y1; y2; 58; y3; y4], s. auto. }
  destruct E as (f & a & t & -> & -> & E). pose proof (txt_firstn 8 _ T) as T8. apply txt_app in T as [_ T]. apply read_fraction_good in E as [A B]; auto.
  split; auto. apply txt_app. auto.
Qed.
Lemma read_offset_good s o : txt s -> read_offset s = Some o -> txt o.
Proof.
  intros T H. assert (E : o = s \/ o = [] \/ o = [90] \/ o = lit "+00:00").
  { unfold read_offset in H. destruct s as [|a s]; [injection H as <-; auto|]. destruct s as [|b s].
    - destruct ((a =? 90) || (a =? 122)); [injection H as <-; auto | discriminate H].
    - destruct s as [|c s]; [discriminate H|]. destruct s as [|z s]; [discriminate H|]. bits z H.
      destruct s as [|d s]; [discriminate H|]. destruct s as [|e s]; [discriminate H|]. destruct s; [|discriminate H].
      destruct (two b c); [|discriminate H]. destruct (two d e); [|discriminate H].
      match type of H with context [if ?b then _ else _] => destruct b; [|discriminate H] end.
      match type of H with context [if ?b then _ else _] => destruct b end; injection H as <-; auto. }
  destruct E as [->|[->|[->| ->]]]; auto; reflexivity.
Qed.
Lemma date_good s r : txt s -> date_value s = Some r -> txt r.
Proof.
  intros T H. unfold date_value in H. destruct (read_date s) as [[d t]|] eqn:E.
  - apply read_date_good in E as [A B]; auto. destruct t as [|c t]; [injection H as <-; auto|]. destruct ((c =? 84) || (c =? 116) || (c =? 32)); [|discriminate H].
    destruct (read_time t) as [[tm u]|] eqn:E2; [|discriminate H]. apply read_time_good in E2 as [A2 B2]; [|now apply txt_tail in B].
    destruct (read_offset u) as [o|] eqn:E3; [|discriminate H]. apply read_offset_good in E3; auto. injection H as <-.
    apply txt_app; split; auto. apply txt_cons. split; [reflexivity|]. apply txt_app. auto.
  - destruct (read_time s) as [[tm u]|] eqn:E2; [|discriminate H]. apply read_time_good in E2 as [A2 B2]; auto. destruct u; [|discriminate H]. now injection H as <-.
Qed.
Lemma token_proper s t : txt s -> token_value s = Some t -> proper_toml t.
Proof.
  intros T H. unfold token_value in H. destruct (str_eqb s (lit "true")); [injection H as <-; constructor|].
  destruct (str_eqb s (lit "false")); [injection H as <-; constructor|]. destruct (sign_of s) as [neg u] eqn:Es.
  destruct (str_eqb u (lit "inf")); [injection H as <-; constructor; destruct neg; reflexivity|].
  destruct (str_eqb u (lit "nan")); [injection H as <-; constructor; reflexivity|].
  assert (D : match dec_part u with
      | Some ds => int_in_range (if neg then - number_in 10 ds else number_in 10 ds)
      | None =>
        match float_value s with
        | Some f => Some f
        | None => match date_value s with Some d => Some (TvDate d) | None => None end
        end
      end = Some t -> proper_toml t).
  { destruct (dec_part u); [apply int_range_proper|]. destruct (float_value s) eqn:Ef; [intros [= <-]; eapply float_proper; eauto|].
    destruct (date_value s) eqn:Ed; [|discriminate]. intros [= <-]. constructor. eapply date_good; eauto. }
  clear Es. destruct s as [|a s]; [exact (D H)|]. destruct a as [|p|p]; try exact (D H). do 6 (destruct p as [p|p|]; try exact (D H)).
  destruct s as [|b s]; [exact (D H)|]. destruct b as [|p|p]; try exact (D H). do 7 (destruct p as [p|p|]; try exact (D H)); eapply based_proper; eauto.
Qed.
Lemma token_end_good s : txt s -> txt (fst (token_end s)) /\ txt (snd (token_end s)).
Proof.
  intros T. unfold token_end. destruct (txt_span token_char s T) as [A B]. destruct (span token_char s) as [a r]. cbn [fst snd] in *.
  destruct r as [|x r]; [auto|]. assert (D : txt (fst (a, x :: r)) /\ txt (snd (a, x :: r))) by auto.
  destruct x as [|p|p]; try exact D. do 6 (destruct p as [p|p|]; try exact D). destruct r as [|c r]; [exact D|].
  destruct (digit_char c && _); [|exact D]. cbn [tl]. apply txt_tail in B. destruct (txt_span token_char _ B) as [A2 B2]. destruct (span token_char (c :: r)) as [b r']. cbn [fst snd] in *.
  split; auto. apply txt_app. split; auto.
Qed.

(** *** Tables under construction *)
Definition good_map (m : list (str * node)) : Prop := proper_toml (of_table m).
Definition good_node (n : node) : Prop := proper_toml (of_node n).
Lemma good_map_iff m : good_map m <-> NoDup (map fst m) /\ forall k n, In (k, n) m -> txt k /\ good_node n.
Proof.
  unfold good_map, of_table. cbn [of_node]. split.
  - intros P. inversion P as [| | | | | |? ND Pl]; subst. rewrite map_map in ND. cbn [fst] in ND. split; [exact ND|].
    intros k n I. apply Pl. apply in_map_iff. exists (k, n). auto.
  - intros [ND Pl]. constructor; [rewrite map_map; exact ND|]. intros k x I. apply in_map_iff in I as ([k' n] & E & I). cbn [fst snd] in E. injection E as -> <-. now apply Pl.
Qed.
Lemma good_arr l : good_node (NArr l) <-> forall m, In m l -> good_map m.
Proof.
  unfold good_node. cbn [of_node]. split.
  - intros P m I. inversion P as [| | | | |? Pl|]; subst. apply Pl. apply in_map_iff. exists m. auto.
  - intros H. constructor. intros x I. apply in_map_iff in I as (m & <- & I). now apply H.
Qed.
Lemma alter_good k f m m' : txt k -> good_map m -> (forall n, f None = Some n -> good_node n) -> (forall n n', good_node n -> f (Some n) = Some n' -> good_node n') ->
  alter k f m = Some m' -> good_map m'.
Proof.
  intros T G F1 F2. rewrite good_map_iff in *.
  assert (K : forall m m', (forall k n, In (k, n) m -> txt k /\ good_node n) -> alter k f m = Some m' ->
    (forall k n, In (k, n) m' -> txt k /\ good_node n) /\ (map fst m' = map fst m \/ (map fst m' = map fst m ++ [k] /\ ~ In k (map fst m)))).
  { clear m m' G. induction m as [|[k0 n0] m IH]; intros m' G E; cbn [alter] in E.
    - destruct (f None) as [n|] eqn:Ef; [|discriminate E]. injection E as <-. split; [intros ? ? [[= <- <-]|[]]; auto | right; auto].
    - destruct (str_eqb k k0) eqn:Ek.
      + apply str_eqb_eq in Ek. subst k0. destruct (f (Some n0)) as [n'|] eqn:Ef; [|discriminate E]. injection E as <-. split; [|left; reflexivity].
        intros k1 n1 [[= <- <-]|I]; [|apply G; now right]. split; auto. eapply F2; [|exact Ef]. apply (G k). now left.
      + destruct (alter k f m) as [t'|] eqn:Ea; [|discriminate E]. injection E as <-. destruct (IH t' (fun k n I => G k n (or_intror I)) eq_refl) as [A B]. split.
        * intros k1 n1 [[= <- <-]|I]; [apply (G k0); now left | now apply A].
        * cbn [map fst]. destruct B as [B|[B N]]; [left; now rewrite B|]. right. rewrite B. split; [reflexivity|]. intros [->|I]; [|auto].
          rewrite (proj2 (str_eqb_eq k k) eq_refl) in Ek. discriminate Ek. }
  destruct G as [ND G]. intros E. destruct (K m m' G E) as [A [B|[B N]]]; (split; [rewrite B | exact A]); auto.
  apply NoDup_snoc; auto.
Qed.
Lemma on_last_good {A} (P : A -> Prop) (f : A -> option A) l l' : (forall x, In x l -> P x) -> (forall x y, P x -> f x = Some y -> P y) -> on_last f l = Some l' -> forall y, In y l' -> P y.
Proof.
  intros H F. revert l' H. induction l as [|x l IH]; intros l' H E y I; [discriminate E|]. cbn [on_last] in E. destruct l as [|x2 l].
  - destruct (f x) eqn:Ef; [|discriminate E]. injection E as <-. destruct I as [<-|[]]. eapply F; [|exact Ef]. apply H. now left.
  - destruct (on_last f (x2 :: l)) as [t'|] eqn:Eo; [|discriminate E]. injection E as <-. destruct I as [<-|I]; [apply H; now left|].
    eapply IH; eauto. intros; apply H; now right.
Qed.
Lemma map_some {A B} (f : A -> B) o y : option_map f o = Some y -> exists x, o = Some x /\ y = f x.
Proof. destruct o; cbn; [intros [= <-]; eauto | discriminate]. Qed.
Lemma nil_good : good_map [].
Proof. apply good_map_iff. split; [constructor | intros ? ? []]. Qed.
Lemma descend_good dotted f path : (forall k, In k path -> txt k) -> (forall b m m', good_map m -> f b m = Some m' -> good_map m') ->
  forall b m m', good_map m -> descend dotted path b f m = Some m' -> good_map m'.
Proof.
  intros T F. induction path as [|k p IH]; intros b m m' G E; cbn [descend] in E; [eauto|].
  assert (IHp : forall b m m', good_map m -> descend dotted p b f m = Some m' -> good_map m') by (apply IH; intros; apply T; now right).
  eapply alter_good; [|exact G| | |exact E]; [apply T; now left| |].
  - intros n En. apply map_some in En as (x & En & ->). eapply IHp; [apply nil_good | exact En].
  - intros n n' Gn En. destruct n as [t|imp dot m1|l]; [discriminate En| |].
    + destruct (dotted && negb imp); [discriminate En|]. apply map_some in En as (x & En & ->). eapply IHp; [exact Gn | exact En].
    + apply map_some in En as (x & En & ->). apply good_arr. intros y I. refine (on_last_good good_map _ _ _ _ _ En y I).
      * intros z J. now apply (proj1 (good_arr l) Gn).
      * intros a c Ga Ec. eapply IHp; eauto.
Qed.
Lemma removelast_in {A} (x : A) l : In x (removelast l) -> In x l.
Proof. induction l as [|a l IH]; [auto|]. cbn [removelast]. destruct l; [intros []|]. intros [<-|I]; [now left | right; auto]. Qed.
Lemma last_in {A} (l : list A) d : l <> [] -> In (List.last l d) l.
Proof. induction l as [|a l IH]; [congruence|]. intros _. destruct l; [now left|]. right. apply IH. discriminate. Qed.
Definition good_entries (l : list (list str * toml_value)) : Prop := forall p t, In (p, t) l -> p <> [] /\ (forall k, In k p -> txt k) /\ proper_toml t.
Lemma put_entries_good l : good_entries l -> forall m m', good_map m -> put_entries l m = Some m' -> good_map m'.
Proof.
  induction l as [|[p t] l IH]; intros G m m' Gm E; cbn [put_entries] in E; [congruence|].
  destruct (put_entry _ _ _ m) as [m1|] eqn:Ep; [|discriminate E]. destruct (G p t ltac:(now left)) as (N & T & P).
  eapply IH; [intros q u I; apply G; now right | | exact E]. unfold put_entry in Ep.
  eapply descend_good; [| |exact Gm|exact Ep]; [intros k I; apply T; now apply removelast_in|].
  intros b m2 m3 G2 E2. cbv beta in E2. destruct (Bool.eqb _ _); [discriminate E2|]. eapply alter_good; [|exact G2| | |exact E2].
  - apply T, last_in, N.
  - intros n [= <-]. exact P.
  - intros; discriminate.
Qed.
Lemma put_section_good b path l root r : path <> [] -> (forall k, In k path -> txt k) -> good_entries l -> good_map root -> put_section b path l root = Some r -> good_map r.
Proof.
  intros N T G Gr E. unfold put_section in E. eapply descend_good; [| |exact Gr|exact E]; [intros k I; apply T; now apply removelast_in|].
  intros d m m' Gm E2. cbv beta in E2. eapply alter_good; [|exact Gm| | |exact E2]; [apply T, last_in, N| |].
  - intros n En. destruct b; apply map_some in En as (x & En & ->).
    + apply good_arr. intros ? [<-|[]]. exact (put_entries_good l G [] _ nil_good En).
    + exact (put_entries_good l G [] _ nil_good En).
  - intros n n' Gn En. destruct b.
    + destruct n as [|? ? ?|ts]; try discriminate En. apply map_some in En as (x & En & ->). apply good_arr. intros m1 I. apply in_app_or in I as [I|[<-|[]]].
      * now apply (proj1 (good_arr ts) Gn).
      * exact (put_entries_good l G [] _ nil_good En).
    + destruct n as [|imp dot m0|]; try discriminate En. destruct imp; [|discriminate En]. destruct dot; [discriminate En|]. apply map_some in En as (x & En & ->).
      eapply put_entries_good; [exact G | exact Gn | exact En].
Qed.

(** *** Values and documents *)
Definition goodv (r : option (toml_value * str)) : Prop := match r with Some (t, s) => proper_toml t /\ txt s | None => True end.
Definition goodl (r : option (list toml_value * str)) : Prop := match r with Some (l, s) => (forall x, In x l -> proper_toml x) /\ txt s | None => True end.
Definition goode (r : option (list (list str * toml_value) * str)) : Prop := match r with Some (l, s) => good_entries l /\ txt s | None => True end.
Lemma skip_ws_good s : txt s -> txt (skip_ws s).
Proof. apply txt_drop. Qed.
Lemma skip_comment_good s : txt s -> txt (skip_comment s).
Proof.
  intros T. destruct s as [|c t]; [exact T|]. unfold skip_comment. destruct c as [|p|p]; try exact T. do 6 (destruct p as [p|p|]; try exact T).
  apply txt_drop. exact T.
Qed.
Lemma skip_lines_good n : forall s, txt s -> txt (skip_lines n s).
Proof.
  induction n as [|n IH]; intros s T; [exact T|]. cbn [skip_lines]. apply skip_ws_good, skip_comment_good in T.
  destruct (skip_comment (skip_ws s)) as [|c t]; [exact T|]. destruct c as [|p|p]; try exact T. do 4 (destruct p as [p|p|]; try exact T).
  - destruct t as [|d t]; [exact T|]. destruct d as [|p|p]; try exact T. do 4 (destruct p as [p|p|]; try exact T). apply IH. exact T.
  - apply IH. exact T.
Qed.
Lemma entries_value l m : good_entries l -> put_entries l [] = Some m -> proper_toml (of_table m).
Proof. intros G E. exact (put_entries_good l G [] m nil_good E). Qed.
Lemma values_good lim : forall fuel deep, (forall s, txt s -> goodv (value_at lim fuel deep s)) /\ (forall s, txt s -> goodl (items_at lim fuel deep s))
  /\ (forall s, txt s -> goode (pairs_at lim fuel deep s)).
Proof.
  induction fuel as [|f IH]; intros deep; [repeat split; intros; exact I|]. split; [|split]; intros s T.
  - cbn [value_at]. destruct s as [|c t]; [exact I|]. destruct ((c =? 34) || (c =? 39)).
    { pose proof (string_good _ T) as G. destruct (string_value (c :: t)) as [[x r]|]; [|exact I]. destruct G. split; auto. now constructor. }
    destruct (c =? 91).
    { destruct (Nat.leb lim (S deep)); [exact I|]. pose proof (proj1 (proj2 (IH (S deep))) t (txt_tail _ _ T)) as G.
      destruct (items_at lim f (S deep) t) as [[l r]|]; [|exact I]. destruct G. split; auto. now constructor. }
    destruct (c =? 123).
    { destruct (Nat.leb lim (S deep)); [exact I|]. apply txt_tail, skip_ws_good in T.
      assert (D : goodv (match pairs_at lim f (S deep) (skip_ws t) with
                     | Some (l, r) => match put_entries l [] with Some m => Some (of_table m, r) | None => None end
                     | None => None end)).
      { pose proof (proj2 (proj2 (IH (S deep))) _ T) as G. destruct (pairs_at lim f (S deep) (skip_ws t)) as [[l r]|]; [|exact I]. destruct G as [G R].
        destruct (put_entries l []) as [m|] eqn:E; [|exact I]. split; auto. eapply entries_value; eauto. }
      destruct (skip_ws t) as [|d u]; [exact D|]. destruct d as [|p|p]; try exact D. do 7 (destruct p as [p|p|]; try exact D).
      split; [apply nil_good | exact T]. }
    pose proof (token_end_good _ T) as G. destruct (token_end (c :: t)) as [a r]. cbn [fst snd] in G. destruct G as [A B].
    destruct (token_value a) eqn:E; [|exact I]. split; auto. exact (token_proper _ _ A E).
  - cbn [items_at]. apply (skip_lines_good (List.length s)) in T. set (t := skip_lines (List.length s) s) in *. clearbody t.
    assert (D : goodl (match value_at lim f deep t with
      | None => None
      | Some (x, u) =>
        match skip_lines (List.length u) u with
        | 44 :: r => match items_at lim f deep r with Some (l, r') => Some (x :: l, r') | None => None end
        | 93 :: r => Some ([x], r)
        | _ => None
        end
      end)).
    { pose proof (proj1 (IH deep) t T) as G. destruct (value_at lim f deep t) as [[x u]|]; [|exact I]. destruct G as [Gx Gu].
      apply (skip_lines_good (List.length u)) in Gu. destruct (skip_lines (List.length u) u) as [|d r]; [exact I|].
      destruct d as [|p|p]; try exact I. do 7 (try (destruct p as [p|p|]; try exact I)).
      - split; [intros ? [<-|[]]; auto | exact Gu].
      - pose proof (proj1 (proj2 (IH deep)) r Gu) as G. destruct (items_at lim f deep r) as [[l r']|]; [|exact I]. destruct G as [G R].
        split; auto. intros ? [<-|J]; auto. }
    destruct t as [|d r]; [exact D|]. destruct d as [|p|p]; try exact D. do 7 (destruct p as [p|p|]; try exact D).
    split; [intros ? [] | exact T].
  - cbn [pairs_at]. pose proof (key_path_good (S (List.length s)) s T) as K. destruct (key_path (S (List.length s)) s) as [[p t]|]; [|exact I].
    destruct K as (N & Tp & Tt). destruct t as [|d t]; [exact I|]. destruct d as [|b|b]; try exact I. do 6 (destruct b as [b|b|]; try exact I).
    destruct (Nat.leb lim (List.length p)); [exact I|]. apply txt_tail, skip_ws_good in Tt.
    pose proof (proj1 (IH deep) _ Tt) as G. destruct (value_at lim f deep (skip_ws t)) as [[x u]|]; [|exact I]. destruct G as [Gx Gu]. apply skip_ws_good in Gu.
    destruct (skip_ws u) as [|d r]; [exact I|]. destruct d as [|b|b]; try exact I. do 7 (try (destruct b as [b|b|]; try exact I)).
    + split; [|exact Gu]. intros q y [[= <- <-]|[]]; auto.
    + pose proof (proj2 (proj2 (IH deep)) r Gu) as G. destruct (pairs_at lim f deep r) as [[l r']|]; [|exact I]. destruct G as [G R].
      split; auto. intros q y [[= <- <-]|J]; [auto | now apply G].
Qed.
Definition good_stmt (st : statement) : Prop :=
  match st with
  | SHead _ p => p <> [] /\ forall k, In k p -> txt k
  | SEntry p t => p <> [] /\ (forall k, In k p -> txt k) /\ proper_toml t
  end.
Lemma statement_good lim s : txt s -> match statement_at lim s with Some (st, r) => good_stmt st /\ txt r | None => True end.
Proof.
  intros T.
  assert (D : match (match key_path (S (List.length s)) s with
    | Some (p, 61 :: t) =>
      if Nat.leb lim (List.length p) then None else
      match value_at lim (2 * List.length t + 2) 0 (skip_ws t) with
      | Some (x, r) => Some (SEntry p x, r)
      | None => None
      end
    | _ => None
    end) with Some (st, r) => good_stmt st /\ txt r | None => True end).
  { pose proof (key_path_good (S (List.length s)) s T) as K. destruct (key_path (S (List.length s)) s) as [[p t]|]; [|exact I].
    destruct K as (N & Tp & Tt). destruct t as [|d t]; [exact I|]. destruct d as [|b|b]; try exact I. do 6 (destruct b as [b|b|]; try exact I).
    destruct (Nat.leb lim (List.length p)); [exact I|]. apply txt_tail, skip_ws_good in Tt.
    pose proof (proj1 (values_good lim (2 * List.length t + 2) 0) _ Tt) as G. destruct (value_at lim _ 0 (skip_ws t)) as [[x u]|]; [|exact I].
    destruct G as [Gx Gu]. split; [split; auto | auto]. }
  unfold statement_at. destruct s as [|c s]; [exact I|]. destruct c as [|b|b]; try exact D. do 7 (destruct b as [b|b|]; try exact D). clear D.
  apply txt_tail in T.
  assert (D : match (match key_path (S (List.length s)) s with
    | Some (p, 93 :: r) => if Nat.leb lim (List.length p) then None else Some (SHead false p, r)
    | _ => None
    end) with Some (st, r) => good_stmt st /\ txt r | None => True end).
  { pose proof (key_path_good (S (List.length s)) s T) as K. destruct (key_path (S (List.length s)) s) as [[p t]|]; [|exact I].
    destruct K as (N & Tp & Tt). destruct t as [|d t]; [exact I|]. destruct d as [|b|b]; try exact I. do 7 (destruct b as [b|b|]; try exact I).
    destruct (Nat.leb lim (List.length p)); [exact I|]. split; [split; auto | exact Tt]. }
  destruct s as [|c s]; [exact D|]. destruct c as [|b|b]; try exact D. do 7 (destruct b as [b|b|]; try exact D). clear D. apply txt_tail in T.
  pose proof (key_path_good (S (List.length s)) s T) as K. destruct (key_path (S (List.length s)) s) as [[p t]|]; [|exact I].
  destruct K as (N & Tp & Tt). destruct t as [|d t]; [exact I|]. destruct d as [|b|b]; try exact I. do 7 (destruct b as [b|b|]; try exact I).
  destruct t as [|d t]; [exact I|]. destruct d as [|b|b]; try exact I. do 7 (destruct b as [b|b|]; try exact I).
  destruct (Nat.leb lim (List.length p)); [exact I|]. split; [split; auto | exact Tt].
Qed.
Lemma line_end_good s r : txt s -> line_end s = Some r -> txt r.
Proof.
  intros T H. unfold line_end in H. apply skip_comment_good in T. destruct (skip_comment s) as [|c t]; [injection H as <-; exact T|].
  destruct c as [|p|p]; try discriminate H. do 4 (destruct p as [p|p|]; try discriminate H).
  - destruct t as [|d t]; [discriminate H|]. destruct d as [|p|p]; try discriminate H. do 4 (destruct p as [p|p|]; try discriminate H). injection H as <-. exact T.
  - injection H as <-. exact T.
Qed.
Lemma statements_good lim fuel : forall s l, txt s -> statements lim fuel s = Some l -> forall st, In st l -> good_stmt st.
Proof.
  induction fuel as [|f IH]; intros s l T H st J; [discriminate H|]. cbn [statements] in H. apply skip_ws_good in T.
  destruct (skip_ws s) as [|c t]; [injection H as <-; destruct J|]. destruct ((c =? 10) || (c =? 13) || (c =? 35)).
  - destruct (line_end (c :: t)) as [r|] eqn:E; [|discriminate H]. apply line_end_good in E; auto. exact (IH _ _ E H st J).
  - pose proof (statement_good lim _ T) as G. destruct (statement_at lim (c :: t)) as [[st0 r]|]; [|discriminate H]. destruct G as [Gs Gr].
    destruct (line_end (skip_ws r)) as [r'|] eqn:E; [|discriminate H]. apply line_end_good in E; [|now apply skip_ws_good].
    destruct (statements lim f r') as [l'|] eqn:El; [|discriminate H]. injection H as <-. destruct J as [<-|J]; [auto | exact (IH _ _ E El st J)].
Qed.
Lemma before_good l : (forall st, In st l -> good_stmt st) -> good_entries (fst (entries_before l)) /\ (forall st, In st (snd (entries_before l)) -> good_stmt st).
Proof.
  induction l as [|st l IH]; intros G; [split; [intros ? ? [] | exact G]|]. cbn [entries_before]. destruct st as [b p|p t]; [split; [intros ? ? [] | exact G]|].
  specialize (IH (fun st I => G st (or_intror I))). destruct (entries_before l) as [a b]. cbn [fst snd] in *. destruct IH as [A B]. split; auto.
  intros q u [[= <- <-]|J]; [apply (G (SEntry p t)); now left | now apply A].
Qed.
Lemma run_good fuel : forall l root r, (forall st, In st l -> good_stmt st) -> good_map root -> run_sections fuel l root = Some r -> good_map r.
Proof.
  induction fuel as [|f IH]; intros l root r G Gr H; [discriminate H|]. cbn [run_sections] in H. destruct l as [|[b p|p t] l]; [congruence| |discriminate H].
  destruct (before_good l (fun st I => G st (or_intror I))) as [A B]. destruct (entries_before l) as [es l']. cbn [fst snd] in *.
  destruct (put_section b p es root) as [root'|] eqn:E; [|discriminate H]. destruct (G _ (or_introl eq_refl)) as [N T].
  eapply IH; [exact B| |exact H]. eapply put_section_good; eauto.
Qed.
Lemma parse_proper lim s t : txt s -> parse_document lim s = Some t -> proper_toml t /\ exists m, t = TvTab m.
Proof.
  intros T H. unfold parse_document in H. cbv zeta in H. set (u := match s with 65279 :: t => t | _ => s end) in H.
  assert (Tu : txt u).
  { unfold u. destruct s as [|c s]; [exact T|]. destruct c as [|p|p]; try exact T. do 16 (destruct p as [p|p|]; try exact T). }
  clearbody u. destruct (statements lim (S (List.length u)) u) as [l|] eqn:E; [|discriminate H]. pose proof (statements_good lim _ u l Tu E) as G.
  unfold run_document in H. destruct (before_good l G) as [A B]. destruct (entries_before l) as [es l']. cbn [fst snd] in *.
  destruct (put_entries es []) as [root|] eqn:Ep; [|discriminate H]. apply map_some in H as (r & Hr & ->).
  assert (Gr : good_map root) by exact (put_entries_good es A [] root nil_good Ep).
  split; [exact (run_good _ _ _ _ B Gr Hr)|]. unfold of_table. cbn [of_node]. eauto.
Qed.
Lemma toml_text_tables lim : parses_tables (toml_text lim).
Proof.
  intros s t H. cbn [toml_text ts_parse] in H. destruct (is_text s) eqn:T; [|discriminate H].
  destruct (parse_document lim s) as [t'|] eqn:E; [|discriminate H]. injection H as <-. eapply parse_proper; eauto.
Qed.

(** *** The printed text is text *)
Lemma tok_scalar c : token_char c = true -> is_scalar c = true.
Proof. unfold token_char, bare_char, digit_char, is_scalar. intros H. lia. Qed.
Lemma tok_txt s : forallb token_char s = true -> txt s.
Proof. unfold txt, is_text. rewrite !forallb_forall. intros H c I. now apply tok_scalar, H. Qed.
Lemma bare_txt s : forallb bare_char s = true -> txt s.
Proof. intros H. apply tok_txt. rewrite forallb_forall in *. intros c I. unfold token_char. now rewrite (H c I). Qed.
Lemma escape_txt b c : is_scalar c = true -> txt (escape_char b c).
Proof.
  intros S. pose proof (scalar_nonneg c S) as N. assert (U : (c <=? 31) || (c =? 127) = true -> txt (escape_u c)).
  { revert c N S. intros c N _ E. revert c N E. apply (ctl_cases (fun c => txt (escape_u c))). intros c H. cbn in H. repeat (destruct H as [<-|H]; [reflexivity|]). destruct H. }
  assert (O : txt [c]) by (apply txt_cons; split; auto; reflexivity). unfold escape_char.
  destruct (c =? 8); [reflexivity|]. destruct (c =? 9); [reflexivity|]. destruct (c =? 10); [destruct b; reflexivity|]. destruct (c =? 12); [reflexivity|].
  destruct (c =? 13); [reflexivity|]. destruct (c =? 34); [reflexivity|]. destruct (c =? 92); [reflexivity|]. destruct ((c <=? 31) || (c =? 127)); auto.
Qed.
Lemma flat_txt {A} (f : A -> str) l : (forall x, In x l -> txt (f x)) -> txt (flat_map f l).
Proof. induction l as [|a l IH]; intros H; [reflexivity|]. cbn [flat_map]. apply txt_app. split; [apply H; now left | apply IH; intros; apply H; now right]. Qed.
Lemma escaped_txt b s : txt s -> txt (flat_map (escape_char b) s).
Proof. intros T. apply flat_txt. intros c I. apply escape_txt. unfold txt, is_text in T. rewrite forallb_forall in T. auto. Qed.
Ltac tapp := repeat (apply txt_app; split); try reflexivity.
Lemma print_str_txt s : txt s -> txt (print_str s).
Proof.
  intros T. unfold print_str. destruct (literal_ok s), (st_lines (style_of s)); try (destruct (Nat.leb _ _)); tapp; auto using escaped_txt.
Qed.
Lemma print_key_txt k : txt k -> txt (print_key k).
Proof.
  intros T. unfold print_key. destruct k as [|c k]; [reflexivity|]. destruct (forallb bare_char (c :: k)); [exact T|]. apply txt_app; split; [reflexivity|]. apply txt_app; split; [exact (escaped_txt false (c :: k) T) | reflexivity].
Qed.
Lemma join_txt sep l : txt sep -> (forall x, In x l -> txt x) -> txt (join_str sep l).
Proof.
  intros S. induction l as [|x l IH]; intros H; [reflexivity|]. destruct l as [|y l]; [apply H; now left|]. rewrite join_cons by discriminate.
  tapp; auto; [apply H; now left | apply IH; intros; apply H; now right].
Qed.
Lemma print_value_txt t : proper_toml t -> txt (print_value t).
Proof.
  induction t as [t F|l IH|m IH] using toml_ind'; intros P.
  - destruct t; try (destruct F); inversion P; subst; cbn [print_value].
    + destruct b; reflexivity.
    + apply tok_txt, token_chars_int.
    + now apply tok_txt, token_chars_float.
    + now apply print_str_txt.
    + assumption.
  - inversion P as [| | | | |? Pl|]; subst. destruct l as [|x [|y l]]; [reflexivity| |].
    + cbn [print_value]. tapp. apply IH; [now left | apply Pl; now left].
    + rewrite print_many. apply txt_cons. split; [reflexivity|]. apply txt_app; split; [|reflexivity]. apply (flat_txt item_text). intros z I. unfold item_text. tapp. auto.
  - inversion P as [| | | | | |? ND Pl]; subst. destruct m as [|e m]; [reflexivity|]. rewrite print_pairs. apply txt_cons. split; [reflexivity|]. apply txt_cons. split; [reflexivity|].
    tapp. apply join_txt; [reflexivity|]. intros s I. apply in_map_iff in I as ([k x] & <- & I). unfold pair_text. cbn [fst snd]. destruct (Pl k x I).
    tapp; [now apply print_key_txt | eauto].
Qed.
Lemma print_entry_txt k x : txt k -> proper_toml x -> txt (print_entry (k, x)).
Proof. intros K P. unfold print_entry. cbn [fst snd]. tapp; [now apply print_key_txt | now apply print_value_txt]. Qed.
Lemma print_sections_txt top l : (forall s, In s l -> (forall k, In k (sc_path s) -> txt k) /\ forall k x, In (k, x) (sc_entries s) -> txt k /\ proper_toml x) -> txt (print_sections top l).
Proof.
  revert top. induction l as [|s l IH]; intros top H; [reflexivity|]. cbn [print_sections]. destruct (H s ltac:(now left)) as [K E].
  apply txt_app; split; [destruct top; reflexivity|]. apply txt_app; split; [|apply txt_app; split].
  - unfold print_header. apply txt_app; split; [destruct (sc_array s); reflexivity|]. apply txt_app; split; [|destruct (sc_array s); reflexivity].
    apply join_txt; [reflexivity|]. intros x I. apply in_map_iff in I as (k & <- & I). apply print_key_txt. auto.
  - apply flat_txt. intros [k x] I. destruct (E k x I). now apply print_entry_txt.
  - apply IH. intros s' I. apply H. now right.
Qed.
Lemma print_document_txt lim m : proper_toml (TvTab m) -> plain_doc lim (TvTab m) -> txt (print_document (TvTab m)).
Proof.
  intros P W. inversion P as [| | | | | |? ND Pl]; subst. cbn [print_document]. apply txt_app; split.
  - apply flat_txt. intros [k x] I. apply filter_In in I as [I _]. destruct (Pl k x I). now apply print_entry_txt.
  - apply print_sections_txt. intros s I. pose proof (entry_sections_fine lim m P W s I) as (_ & T & _ & E). split; [exact T|]. intros k x J. destruct (E k x J) as (A & B & _). auto.
Qed.
Lemma toml_text_reads_back lim m : (2 <= lim)%nat -> proper_toml (TvTab m) -> plain_doc lim (TvTab m) -> reads_back (toml_text lim) (TvTab m).
Proof.
  intros L P W. pose proof (print_document_txt lim m P W) as T. split; [exact T|]. exists (of_table (body (TvTab m))).
  assert (E : ts_parse (toml_text lim) (ts_print (toml_text lim) (TvTab m)) = Ok (of_table (body (TvTab m)))).
  { cbn [toml_text ts_parse ts_print]. rewrite T, document_read by auto. reflexivity. }
  split; [exact E|]. split; [eapply same_body; reflexivity | now apply toml_text_tables in E].
Qed.
Lemma toml_text_right lim : (2 <= lim)%nat -> right_syntax lim (toml_text lim).
Proof. intros L. split; [apply toml_text_tables | intros m P D; now apply toml_text_reads_back]. Qed.
