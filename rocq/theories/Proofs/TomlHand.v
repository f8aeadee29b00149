(** Documents written by hand (C127). *)
From Coq Require Import ZArith Bool String Lia.
From Coq Require Import List.
Import ListNotations.
From Verif.Model Require Import Text Num Flt Value Serde Visitor Layers Toml TomlText.
From Verif.Spec Require Import Spec TomlSpec TomlTextSpec.
From Verif.Proofs Require Import Basics TomlProofs TomlLex TomlNum TomlProper TomlSim TomlJoin TomlFrame.
Local Open Scope Z_scope.

(** Texts that can go on with [b]: they end a line, or [b] begins with the end
    of theirs. *)
Definition open_for (b a : str) : Prop := ends_line a \/ (ends b /\ no_cr_end a).
Lemma open_tail b c a : open_for b (c :: a) -> open_for b a.
Proof.
  intros [[E|(t & E)]|[E N]]; [discriminate E | |].
  - left. destruct t as [|d t]; [injection E as _ ->; now left|]. injection E as _ ->. right. eauto.
  - right. split; auto. intros t ->. apply (N (c :: t)). reflexivity.
Qed.
Lemma open_one b c : open_for b [c] -> c <> 10 -> c <> 13 /\ ends b.
Proof.
  intros [[E|(t & E)]|[E N]] N'; [discriminate E | |].
  - exfalso. destruct t as [|d [|e t]]; [injection E as ->; congruence | discriminate E | discriminate E].
  - split; auto. intros ->. apply (N []). reflexivity.
Qed.
Lemma join_sim b : forall n a, (List.length a <= n)%nat -> open_for b a -> sim b a (a ++ b).
Proof.
  induction n as [|n IH]; intros a L O; (destruct a as [|c t]; [constructor|]); cbn [List.length] in L; [lia|].
  pose proof (open_tail _ _ _ O) as O'. destruct (Z.eq_dec c 10) as [->|N].
  { apply (SimLine b _ _ t (t ++ b)); [now left | now left | apply IH; auto; lia]. }
  assert (D : (c = 13 /\ exists u, t = 10 :: u) \/ (c = 13 -> next_lf t = false)).
  { destruct (Z.eq_dec c 13); [|right; congruence]. destruct t as [|d u]; [now right|]. destruct (Z.eq_dec d 10) as [->|Nd]; [left; eauto|]. right. intros _. cbn. now apply Z.eqb_neq. }
  destruct D as [(-> & u & ->)|D].
  - apply (SimLine b _ _ u (u ++ b)); [now right | now right |]. cbn [List.length] in L. apply IH; [lia | eapply open_tail, O'].
  - cbn [app]. apply SimChar; auto; [| apply IH; auto; lia |].
    + intros ->. split; auto. destruct t as [|d t]; [|exact (D eq_refl)]. destruct (open_one _ _ O N) as [X _]. congruence.
    + intros ->. now apply (open_one _ _ O).
Qed.
Lemma drop_last_sim m : feed m [] -> forall n a, (List.length a <= n)%nat -> no_cr_end a -> sim [] (a ++ m) a.
Proof.
  intros F. assert (K : forall c a, no_cr_end (c :: a) -> no_cr_end a) by (intros c a N t ->; apply (N (c :: t)); reflexivity).
  induction n as [|n IH]; intros a L O; (destruct a as [|c t]; [now constructor|]); cbn [List.length] in L; [lia|].
  pose proof (K _ _ O) as O'. destruct (Z.eq_dec c 10) as [->|N].
  { apply (SimLine [] _ _ (t ++ m) t); [now left | now left | apply IH; auto; lia]. }
  assert (D : (c = 13 /\ exists u, t = 10 :: u) \/ (c = 13 -> next_lf t = false)).
  { destruct (Z.eq_dec c 13); [|right; congruence]. destruct t as [|d u]; [now right|]. destruct (Z.eq_dec d 10) as [->|Nd]; [left; eauto|]. right. intros _. cbn. now apply Z.eqb_neq. }
  destruct D as [(-> & u & ->)|D].
  - apply (SimLine [] _ _ (u ++ m) u); [now right | now right |]. cbn [List.length] in L. apply IH; [lia | eapply K, O'].
  - cbn [app]. apply SimChar; auto; [| apply IH; auto; lia |].
    + intros ->. split; auto. destruct t as [|d t]; [|exact (D eq_refl)]. destruct (O []). reflexivity.
    + intros E. destruct t; [|discriminate E]. now left.
Qed.
Lemma crlf_next s s' : crlf s s' -> next_lf s = true -> next_lf s' = true \/ exists t, s' = 13 :: 10 :: t.
Proof. intros C. inversion C; subst; cbn; auto. eauto. Qed.
Lemma crlf_nil s s' : crlf s s' -> s = [] \/ s' = [] -> s = [] /\ s' = [].
Proof. intros C. inversion C; subst; intros [X|X]; try discriminate X; auto. Qed.
Lemma crlf_sim s s' : crlf s s' -> sim [] s s' /\ sim [] s' s.
Proof.
  induction 1 as [|c s s' N N' H [IH IH']|s s' H [IH IH']|s s' H [IH IH']|s s' H [IH IH']]; [split; constructor | | | | ].
  - split; apply SimChar; auto; try congruence; intros ->; [destruct (crlf_nil _ _ H) as [_ ->]; auto | destruct (crlf_nil _ _ H) as [-> _]; auto]; now left.
  - split; [apply (SimLine [] _ _ s s') | apply (SimLine [] _ _ s' s)]; auto; now left.
  - split; [apply (SimLine [] _ _ s s') | apply (SimLine [] _ _ s' s)]; auto; (now left) || (now right).
  - split; [apply (SimLine [] _ _ s s') | apply (SimLine [] _ _ s' s)]; auto; now right.
Qed.
(** The statements of a text. *)
Definition stms lim s := statements lim (S (List.length s)) s.
Lemma stms_sim lim b s s' l : sim b s s' -> stms lim s = Some l -> stms lim s' = option_map (app l) (stms lim b).
Proof. intros C St. unfold stms. apply (statements_sim b lim (S (List.length s)) s l); auto. Qed.
Lemma stms_open lim a b l : open_for b a -> stms lim a = Some l -> stms lim (a ++ b) = option_map (app l) (stms lim b).
Proof. intros E. apply stms_sim. now apply (join_sim b (List.length a)). Qed.
Lemma stms_app lim a b l : ends_line a -> stms lim a = Some l -> stms lim (a ++ b) = option_map (app l) (stms lim b).
Proof. intros E. apply stms_open. now left. Qed.
Lemma stms_same lim s s' l : sim [] s s' -> stms lim s = Some l -> stms lim s' = Some l.
Proof. intros C St. rewrite (stms_sim lim [] s s' l C St). cbn. now rewrite app_nil_r. Qed.
Lemma stms_crlf lim s s' l : crlf s s' -> stms lim s = Some l <-> stms lim s' = Some l.
Proof. intros C. apply crlf_sim in C as [C C']. split; now apply stms_same. Qed.

Lemma drop_all f (s t : str) : (forall c, In c s -> f c = true) -> drop_while f (s ++ t) = drop_while f t.
Proof. induction s as [|c s IH]; intros H; [reflexivity|]. cbn [app drop_while]. rewrite (H c) by now left. apply IH. intros; apply H; now right. Qed.
Lemma skip_blank ws t : blank ws -> skip_ws (ws ++ t) = skip_ws t.
Proof. intros B. apply drop_all. intros c I. unfold is_ws. destruct (B c I) as [-> | ->]; reflexivity. Qed.
Lemma quiet_line lim ws cm nl s f : blank ws -> cm = [] \/ comment cm -> line_feed nl ->
  statements lim (S f) (ws ++ cm ++ nl ++ s) = statements lim f s.
Proof.
  intros B C L. rewrite statements_step, (skip_blank ws) by exact B. destruct C as [->|(t & -> & T)].
  - destruct L as [-> | ->]; reflexivity.
  - change (skip_ws ((35 :: t) ++ nl ++ s)) with (35 :: t ++ nl ++ s). cbn match.
    change ((35 =? 10) || (35 =? 13) || (35 =? 35)) with true. cbn match. rewrite line_end_eq, skip_comment_eq. change (35 =? 35) with true. cbn match.
    rewrite drop_all by (intros c I; unfold plain_char; destruct (T c I) as [->|[]]; [reflexivity | lia]).
    destruct L as [-> | ->]; reflexivity.
Qed.
Lemma quiet_stms lim c : quiet c -> stms lim c = Some [].
Proof.
  induction 1 as [|ws cm nl s B C L Q IH]; [reflexivity|]. unfold stms. rewrite quiet_line by auto. rewrite <- IH. unfold stms.
  apply (statements_fuel lim (List.length s)); try lia. destruct L as [-> | ->]; rewrite !app_length; cbn [List.length]; lia.
Qed.
Lemma quiet_ends c : quiet c -> ends_line c.
Proof.
  induction 1 as [|ws cm nl s B C L Q IH]; [now left|]. right. destruct IH as [->|(t & ->)].
  - rewrite app_nil_r. destruct L as [-> | ->]; [exists (ws ++ cm) | exists (ws ++ cm ++ [13])]; rewrite <- !app_assoc; reflexivity.
  - exists (ws ++ cm ++ nl ++ t). rewrite <- !app_assoc. reflexivity.
Qed.
Lemma quiet_char c x t : quiet c -> c = x :: t -> x <> 65279.
Proof.
  intros Q -> ->. inversion Q as [|ws cm nl s B C L Q' E]. destruct ws as [|w ws].
  - cbn [app] in E. destruct C as [->|(u & -> & _)]; [|discriminate E]. destruct L as [-> | ->]; discriminate E.
  - injection E as -> _. destruct (B 65279 ltac:(now left)) as [X|X]; discriminate X.
Qed.
(** A text that begins with a header has no entries before it. *)
Lemma head_before lim s l : begins_section s -> stms lim s = Some l -> fst (entries_before l) = [].
Proof.
  intros (q & ws & t & Q & B & ->) E. rewrite (stms_app lim q _ [] (quiet_ends _ Q) (quiet_stms lim q Q)) in E.
  destruct (stms lim (ws ++ 91 :: t)) as [l'|] eqn:E'; [|discriminate E]. cbn in E. injection E as ->.
  unfold stms in E'. rewrite statements_step, (skip_blank ws) in E' by exact B. cbn [skip_ws drop_while is_ws Z.eqb Pos.eqb orb] in E'.
  replace (skip_ws (91 :: t)) with (91 :: t) in E' by reflexivity. cbn [Z.eqb Pos.eqb orb] in E'.
  match type of E' with context [statement_at ?a ?b] => destruct (statement_at a b) as [[st r]|] eqn:Es; [|discriminate E'] end. destruct (line_end (skip_ws r)) as [r2|]; [|discriminate E'].
  destruct (statements lim _ r2) as [l2|]; [|discriminate E']. injection E' as <-.
  assert (K : exists b p, st = SHead b p).
  { rewrite statement_at_eq in Es. cbn [statement_step Z.eqb Pos.eqb] in Es. destruct t as [|d u]; [discriminate Es|]. destruct (d =? 91).
    - destruct (key_path _ u) as [[p [|e [|g v]]]|]; try discriminate Es. destruct ((e =? 93) && (g =? 93)); [|discriminate Es].
      destruct (Nat.leb lim (List.length p)); [discriminate Es|]. injection Es as <- _. eauto.
    - destruct (key_path _ (d :: u)) as [[p [|e v]]|]; try discriminate Es. destruct (e =? 93); [|discriminate Es].
      destruct (Nat.leb lim (List.length p)); [discriminate Es|]. injection Es as <- _. eauto. }
  destruct K as (b & p & ->). reflexivity.
Qed.

(** ** The parser *)
Definition unmark (s : str) : str := match s with 65279 :: t => t | _ => s end.
Lemma unmark_eq s : unmark s = match s with c :: t => if c =? 65279 then t else s | [] => [] end.
Proof. destruct s as [|c t]; [reflexivity|]. destruct (Z.eqb_spec c 65279) as [->|N]; [reflexivity|]. exact (TomlDoc.not_bom (c :: t) N). Qed.
Lemma unmark_app a b : a <> [] -> unmark (a ++ b) = unmark a ++ b.
Proof. intros N. rewrite !unmark_eq. destruct a as [|c t]; [congruence|]. cbn [app]. now destruct (c =? 65279). Qed.
Lemma unmark_no s : no_mark s -> unmark s = s.
Proof. intros N. rewrite unmark_eq. destruct s as [|c t]; [reflexivity|]. destruct (Z.eqb_spec c 65279) as [->|]; [destruct (N t eq_refl) | reflexivity]. Qed.
Lemma unmark_ends a : ends_line a -> ends_line (unmark a).
Proof.
  intros [->|(t & ->)]; [now left|]. rewrite unmark_eq. destruct t as [|c t]; cbn [app].
  - right. exists []. reflexivity.
  - destruct (c =? 65279); right; [exists t | exists (c :: t)]; reflexivity.
Qed.
Lemma unmark_crlf s s' : crlf s s' -> crlf (unmark s) (unmark s').
Proof.
  intros C. rewrite !unmark_eq. inversion C as [|c u u' N N' H|u u' H|u u' H|u u' H]; subst; try (cbn; assumption). destruct (c =? 65279); auto.
Qed.
Definition doc_root lim s : option (list (str * node)) := match stms lim (unmark s) with Some l => run_root l | None => None end.
Lemma parse_root lim s : parse_document lim s = option_map of_table (doc_root lim s).
Proof.
  unfold parse_document, doc_root, stms. change (match s with 65279 :: t => t | _ => s end) with (unmark s).
  destruct (statements lim (S (List.length (unmark s))) (unmark s)); [apply run_document_root | reflexivity].
Qed.
Lemma crate_parse lim s t : ts_parse (toml_text lim) s = Ok t <-> is_text s = true /\ exists m, doc_root lim s = Some m /\ t = TvTab (table_entries m).
Proof.
  cbn [toml_text ts_parse]. rewrite parse_root. destruct (is_text s); [|split; [discriminate | intros [X _]; discriminate X]].
  destruct (doc_root lim s) as [m|]; cbn [option_map].
  - split; [intros [= <-]; split; auto; exists m; auto | intros (_ & m' & [= <-] & ->); reflexivity].
  - split; [discriminate | intros (_ & m & X & _); discriminate X].
Qed.
Lemma is_text_app a b : is_text (a ++ b) = is_text a && is_text b.
Proof. apply forallb_app. Qed.
Lemma crlf_text s s' : crlf s s' -> is_text s' = is_text s.
Proof.
  induction 1 as [|c s s' N N' H IH|s s' H IH|s s' H IH|s s' H IH]; cbn [is_text forallb] in *; auto.
  - unfold is_text in *. now rewrite IH.
Qed.
Lemma parse_same lim s s' t : is_text s = is_text s' -> (forall l, stms lim (unmark s) = Some l -> stms lim (unmark s') = Some l) ->
  ts_parse (toml_text lim) s = Ok t -> ts_parse (toml_text lim) s' = Ok t.
Proof.
  intros I C E. apply crate_parse in E as (T & m & R & ->). apply crate_parse. rewrite <- I. split; auto. exists m. split; auto.
  unfold doc_root in *. destruct (stms lim (unmark s)) as [l|] eqn:S; [|discriminate R]. now rewrite (C l eq_refl).
Qed.
Lemma parse_crlf lim s s' t : crlf s s' -> ts_parse (toml_text lim) s = Ok t <-> ts_parse (toml_text lim) s' = Ok t.
Proof.
  intros C. pose proof (crlf_text _ _ C). split; apply parse_same; auto; intros l; now apply (stms_crlf lim _ _ l (unmark_crlf _ _ C)).
Qed.
(** The last line end may be missing. *)
Lemma unmark_cr s : no_cr_end s -> no_cr_end (unmark s).
Proof. rewrite unmark_eq. destruct s as [|c t]; auto. destruct (c =? 65279); auto. intros N u ->. apply (N (c :: u)). reflexivity. Qed.
Lemma feed_of n : line_feed n -> feed n [].
Proof. now intros [-> | ->]; [left | right]. Qed.
Lemma stms_last lim s n l : line_feed n -> no_cr_end s -> stms lim (s ++ n) = Some l <-> stms lim s = Some l.
Proof.
  intros F N. split; intros E.
  - eapply stms_same; [|exact E]. apply (drop_last_sim n (feed_of _ F) (List.length s)); auto.
  - rewrite (stms_open lim s n l) by (auto; right; split; auto; right; exists []; now apply feed_of). destruct F as [-> | ->]; cbn; now rewrite app_nil_r.
Qed.
Lemma parse_last lim s n t : line_feed n -> no_cr_end s -> ts_parse (toml_text lim) (s ++ n) = Ok t <-> ts_parse (toml_text lim) s = Ok t.
Proof.
  intros F N. assert (T : is_text (s ++ n) = is_text s) by (rewrite is_text_app; destruct F as [-> | ->]; apply andb_true_r).
  assert (U : unmark (s ++ n) = unmark s ++ n) by (destruct s as [|c s]; [destruct F as [-> | ->]; reflexivity | now apply unmark_app]).
  split; apply parse_same; auto; rewrite U; intros l; apply (stms_last lim (unmark s) n l F (unmark_cr _ N)).
Qed.
(** The root of a text after a complete one. *)
Lemma root_join lim a b ma : ends_line a -> no_mark b -> doc_root lim a = Some ma -> exists l, stms lim (unmark a) = Some l /\ run_root l = Some ma
  /\ doc_root lim (a ++ b) = match stms lim b with Some l2 => run_root (l ++ l2) | None => None end.
Proof.
  intros E N R. unfold doc_root in *. destruct (stms lim (unmark a)) as [l|] eqn:S; [|discriminate R]. exists l. split; auto. split; auto.
  destruct a as [|c a].
  - cbn [app]. rewrite (unmark_no b N). change (unmark []) with (@nil char) in S. cbn in S. injection S as <-. reflexivity.
  - rewrite unmark_app by discriminate. rewrite (stms_app lim _ b l (unmark_ends _ E) S). destruct (stms lim b); reflexivity.
Qed.
Lemma root_quiet lim a c b ma : ends_line a -> no_mark b -> quiet c -> doc_root lim a = Some ma -> doc_root lim (a ++ c ++ b) = doc_root lim (a ++ b).
Proof.
  intros E N Q R. assert (N2 : no_mark (c ++ b)).
  { intros t X. destruct c as [|x c]; [exact (N t X)|]. injection X as -> _. exact (quiet_char _ _ _ Q eq_refl eq_refl). }
  destruct (root_join lim a (c ++ b) ma E N2 R) as (l & S & _ & ->). destruct (root_join lim a b ma E N R) as (l' & S' & _ & ->).
  assert (l' = l) by congruence. subst l'. rewrite (stms_app lim c b [] (quiet_ends _ Q) (quiet_stms lim c Q)). destruct (stms lim b); reflexivity.
Qed.
Lemma parse_quiet lim a c b t : ends_line a -> no_mark b -> quiet c -> is_text c = true -> ts_parse (toml_text lim) a = Ok t ->
  ts_parse (toml_text lim) (a ++ c ++ b) = ts_parse (toml_text lim) (a ++ b).
Proof.
  intros E N Q T P. apply crate_parse in P as (Ta & m & R & _). cbn [toml_text ts_parse]. rewrite !is_text_app, Ta, T. cbn [andb].
  destruct (is_text b); [|reflexivity]. now rewrite !parse_root, (root_quiet lim a c b m E N Q R).
Qed.

(** ** Values *)
Definition simple_toml (m : list (str * toml_value)) : Prop := forall k x, In (k, x) m -> (forall n, x <> TvTab n) /\ (forall l n, x = TvArr l -> ~ In (TvTab n) l).
Lemma simple_vals m : full m -> simple_toml (table_entries m) -> vals m.
Proof.
  intros F H k n I. assert (I' : In (k, of_node n) (table_entries m)) by (apply in_map_iff; exists (k, n); auto). destruct (H _ _ I') as [H1 H2].
  destruct n as [t|i d m'|l]; [reflexivity | destruct (H1 _ eq_refl)|]. exfalso. destruct l as [|x l]; [exact (F _ _ I eq_refl)|].
  eapply H2; [reflexivity|]. cbn [of_node map]. left. reflexivity.
Qed.
Lemma loads_map t v m : loads_as t v -> t = TvTab m -> exists n, v = VMap n.
Proof. intros L ->. inversion L; subst; eauto. Qed.
Lemma simple_loads m n : loads_as (TvTab m) (VMap n) -> simple_settings n -> simple_toml m.
Proof.
  intros L S k x I. inversion L as [| | | | | |? ? L1 L2]; subst. destruct (L1 _ _ I) as (y & Iy & Ly). destruct (S _ _ Iy) as [S1 S2]. split.
  - intros z ->. destruct (loads_map _ _ _ Ly eq_refl) as (w & ->). exact (S1 _ eq_refl).
  - intros l z -> Iz. inversion Ly as [| | | | |? r F|]; subst. apply In_nth_error in Iz as (i & Hi).
    assert (exists y, nth_error r i = Some y /\ loads_as (TvTab z) y) as (y & Hy & Lz).
    { revert i Hi. clear - F. induction F as [|a b l r H F IH]; intros [|i] Hi; cbn in *; try discriminate Hi; [injection Hi as ->; eauto | auto]. }
    destruct (loads_map _ _ _ Lz eq_refl) as (w & ->). eapply S2; [reflexivity|]. eapply nth_error_In, Hy.
Qed.
Lemma loads_keys m n : loads_as (TvTab m) (VMap n) -> forall k, In k (keys m) <-> In k (map fst n).
Proof.
  intros L k. inversion L as [| | | | | |? ? L1 L2]; subst. unfold keys. split; intros I; apply in_map_iff in I as ([k' x] & <- & I); cbn [fst].
  - destruct (L1 _ _ I) as (y & Iy & _). apply in_map_iff. exists (k', y). auto.
  - destruct (L2 _ _ I) as (y & Iy & _). apply in_map_iff. exists (k', y). auto.
Qed.
(** What a codec over this syntax loads. *)
Lemma load_iff r lim s v : toml_from_str (toml_codec r (toml_text lim)) s = Ok v ->
  exists m, is_text s = true /\ doc_root lim s = Some m /\ vequiv (doc_value (TvTab (table_entries m))) v /\ wf v.
Proof.
  intros E. destruct (load_inv _ _ _ _ E) as (t & P). pose proof (toml_text_tables lim s t P) as [Pr _].
  destruct (load_document r (toml_text lim) s t P Pr) as (v' & E' & V & W). assert (v' = v) by congruence. subst v'.
  apply crate_parse in P as (T & m & R & ->). eauto 6.
Qed.
Lemma load_root r lim s m : is_text s = true -> doc_root lim s = Some m ->
  exists v, toml_from_str (toml_codec r (toml_text lim)) s = Ok v /\ vequiv (doc_value (TvTab (table_entries m))) v /\ wf v.
Proof.
  intros T R. assert (P : ts_parse (toml_text lim) s = Ok (TvTab (table_entries m))) by (apply crate_parse; eauto).
  pose proof (toml_text_tables lim s _ P) as [Pr _]. exact (load_document r (toml_text lim) s _ P Pr).
Qed.
Lemma load_same r ts s s' : ts_parse ts s = ts_parse ts s' -> toml_from_str (toml_codec r ts) s = toml_from_str (toml_codec r ts) s'.
Proof. intros E. cbn. unfold format_from_str. cbn. now rewrite E. Qed.
Lemma equiv_app a b ma mb : vequiv (VMap a) (VMap ma) -> vequiv (VMap b) (VMap mb) -> vequiv (VMap (a ++ b)) (VMap (ma ++ mb)).
Proof.
  intros A B. inversion A as [? S|?|? ? A1 A2]; [destruct S|]; subst. inversion B as [? S|?|? ? B1 B2]; [destruct S|]; subst. constructor.
  - intros k x I. apply in_app_or in I as [I|I]; [destruct (A1 _ _ I) as (y & Iy & Vy) | destruct (B1 _ _ I) as (y & Iy & Vy)]; exists y; (split; [apply in_or_app|]; auto).
  - intros k x I. apply in_app_or in I as [I|I]; [destruct (A2 _ _ I) as (y & Iy & Vy) | destruct (B2 _ _ I) as (y & Iy & Vy)]; exists y; (split; [apply in_or_app|]; auto).
Qed.

(** ** What is saved ends a line *)
Lemma ends_app a b : ends_line a -> ends_line b -> ends_line (a ++ b).
Proof. intros A [->|(t & ->)]; [now rewrite app_nil_r|]. right. exists (a ++ t). now rewrite app_assoc. Qed.
Lemma ends_flat {A} (f : A -> str) l : (forall x, ends_line (f x)) -> ends_line (flat_map f l).
Proof. intros H. induction l as [|x l IH]; [now left|]. cbn [flat_map]. now apply ends_app. Qed.
Lemma entry_ends e : ends_line (print_entry e).
Proof. right. unfold print_entry. eexists. rewrite !app_assoc. reflexivity. Qed.
Lemma sections_ends l : forall top, ends_line (print_sections top l).
Proof.
  induction l as [|s l IH]; intros top; [now left|]. cbn [print_sections]. apply ends_app; [destruct top; [now left | right; now exists []]|].
  apply ends_app; [right; unfold print_header; eexists; rewrite !app_assoc; reflexivity|]. apply ends_app; [apply ends_flat, entry_ends | apply IH].
Qed.
Lemma document_ends t : ends_line (print_document t).
Proof. destruct t; try (now left). cbn [print_document]. apply ends_app; [apply ends_flat, entry_ends | apply sections_ends]. Qed.

(** ** Too deep *)
Lemma lines_bracket n t : skip_lines n (91 :: t) = 91 :: t.
Proof. destruct n; reflexivity. Qed.
Lemma too_deep lim : forall n deep f t, (lim <= deep + S n)%nat -> value_at lim f deep (List.repeat 91 (S n) ++ t) = None.
Proof.
  induction n as [|n IH]; intros deep f t L; (destruct f as [|f]; [reflexivity|]); rewrite value_at_eq; cbn [List.repeat app]; unfold value_step;
    change ((91 =? 34) || (91 =? 39)) with false; change (91 =? 91) with true; cbn match.
  - destruct (Nat.leb_spec lim (S deep)); [reflexivity | lia].
  - destruct (Nat.leb_spec lim (S deep)) as [|N]; [reflexivity|]. destruct f as [|f]; [reflexivity|]. rewrite items_at_eq. unfold items_step.
    change (91 :: List.repeat 91 n ++ t) with (List.repeat 91 (S n) ++ t) in *.
    specialize (IH (S deep) f t ltac:(lia)). destruct (List.repeat 91 (S n) ++ t) as [|c u] eqn:Ec; [discriminate Ec|]. injection Ec as <- _. 
    assert (K : skip_lines (List.length (91 :: u)) (91 :: u) = 91 :: u) by apply lines_bracket.
    match goal with |- context [skip_lines ?a (91 :: u)] => change (skip_lines a (91 :: u)) with (skip_lines (List.length (91 :: u)) (91 :: u)) end.
    rewrite K. change (91 =? 93) with false. cbn match.
    match goal with |- context [value_at ?a ?b ?c ?d] => change (value_at a b c d) with (value_at lim f (S deep) (91 :: u)) end. now rewrite IH.
Qed.
Fixpoint nested (n : nat) : value := match n with O => VArr [] | S n => VArr [nested n] end.
Fixpoint tnested (n : nat) : toml_value := match n with O => TvArr [] | S n => TvArr [tnested n] end.
Lemma tnested_print n : print_value (tnested n) = List.repeat 91 (S n) ++ List.repeat 93 (S n).
Proof.
  induction n as [|n IH]; [reflexivity|]. cbn [tnested print_value]. rewrite IH.
  change (List.repeat 91 (S (S n))) with ([91] ++ List.repeat 91 (S n)). change (List.repeat 93 (S (S n))) with (93 :: List.repeat 93 (S n)). rewrite (List.repeat_cons (S n) 93). rewrite <- !app_assoc. reflexivity.
Qed.
Lemma nested_item r n : toml_item r (value_calls (nested n)) = Ok (tnested n).
Proof. induction n as [|n IH]; [reflexivity|]. cbn [nested tnested value_calls map toml_item]. cbn in *. rewrite IH. reflexivity. Qed.

Lemma deep_path n t : key_path (S n) (97 :: 32 :: 61 :: 32 :: t) = Some ([[97]], 61 :: 32 :: t).
Proof. reflexivity. Qed.
Lemma deep_root lim t : doc_root lim (lit "a = " ++ List.repeat 91 (S lim) ++ t) = None.
Proof.
  unfold doc_root. assert (E : unmark (lit "a = " ++ List.repeat 91 (S lim) ++ t) = 97 :: 32 :: 61 :: 32 :: List.repeat 91 (S lim) ++ t) by reflexivity. rewrite E.
  assert (Z : stms lim (97 :: 32 :: 61 :: 32 :: List.repeat 91 (S lim) ++ t) = None); [|now rewrite Z].
  unfold stms. rewrite statements_step. change (skip_ws (97 :: 32 :: 61 :: 32 :: List.repeat 91 (S lim) ++ t)) with (97 :: 32 :: 61 :: 32 :: List.repeat 91 (S lim) ++ t).
  cbn match. change ((97 =? 10) || (97 =? 13) || (97 =? 35)) with false. cbn match. rewrite statement_at_eq. unfold statement_step. change (97 =? 91) with false. cbn match.
  rewrite deep_path. change (61 =? 61) with true. cbn match. destruct (Nat.leb lim _); [reflexivity|].
  change (skip_ws (32 :: List.repeat 91 (S lim) ++ t)) with (List.repeat 91 (S lim) ++ t). rewrite too_deep by lia. reflexivity.
Qed.
