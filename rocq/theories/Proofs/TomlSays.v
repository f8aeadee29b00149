(** What is read is what is written. *)
From Coq Require Import ZArith Bool String Lia.
From Coq Require Import Floats.SpecFloat.
From Coq Require Import List.
Import ListNotations.
From Verif.Model Require Import Text Num Flt Value Layers Toml TomlText.
From Verif.Spec Require Import Numerals Spec TomlSpec TomlTextSpec TomlDates TomlGrammar TomlForm TomlSays.
From Verif.Proofs Require Import Basics Conversions TomlProofs TomlLex TomlNum TomlValues TomlDoc TomlProper TomlSim TomlJoin TomlFrame TomlHand TomlWords TomlKinds TomlTables TomlRead TomlReadLong TomlReadValues TomlReadDoc TomlMeaning TomlDates TomlForm.
Local Open Scope Z_scope.

(** *** Words and texts *)
Lemma token_says s t : token_value s = Some t -> word_says s (doc_value t).
Proof.
  intros T. destruct (token_leaf _ _ T) as [Lf Ns]. destruct t.
  - apply token_bool in T. destruct b; subst; [exact WsTrue | exact WsFalse].
  - pose proof (token_integer_inv _ _ T) as J. apply (WsInteger s z J). apply token_integer in J as (T2 & _). rewrite T in T2. unfold int_token in T2. destruct (in_range I64 z) eqn:R; [|discriminate T2]. now apply in_range_fits.
  - apply WsFloat. now apply token_float_inv.
  - now destruct (Ns _ eq_refl).
  - apply (WsMoment s s0). apply token_date. exact T.
  - destruct Lf.
  - destruct Lf.
Qed.
Lemma string_says s x r : txt s -> string_value s = Some (x, r) -> exists u, text_says u x /\ s = u ++ r.
Proof.
  intros T. set (P := fun o : option (str * str) => o = Some (x, r) -> exists u, text_says u x /\ s = u ++ r). change (P (string_value s)).
  assert (I : P None) by (intros X; discriminate X). subst P. cbv beta in *. revert I. set (P := fun o : option (str * str) => o = Some (x, r) -> exists u, text_says u x /\ s = u ++ r).
  change (P None -> P (string_value s)). intros I. subst P. cbv beta in *.
  destruct s as [|c t]; [exact I|]. pose proof T as T0. apply txt_cons in T as [Tc T].
  unfold string_value. destruct c as [|p|p]; try exact I. do 6 (destruct p as [p|p|]; try exact I).
  - assert (Li : literal_string t = Some (x, r) -> exists u, text_says u x /\ 39 :: t = u ++ r).
    { intros E. apply literal_inv in E as (O & N & ->); auto. exists ([39] ++ x ++ [39]). split; [now constructor|]. cbn [app]. now rewrite <- app_assoc. }
    destruct t as [|a t]; [exact Li|]. destruct a as [|p|p]; try exact Li. do 6 (destruct p as [p|p|]; try exact Li).
    destruct t as [|a t]; [exact Li|]. destruct a as [|p|p]; try exact Li. do 6 (destruct p as [p|p|]; try exact Li).
    tx. clear Li I. intros E. apply (ml_literal_inv _ _ (le_n _)) in E; [|now apply trim_good].
    destruct (opening_of 39 long_plain t x r (proj2 (long_no_return x r)) ltac:(auto) E) as (f & b & k & z & O & L & Z & -> & ->).
    exists ([39; 39; 39] ++ f ++ b ++ z ++ [39; 39; 39]). split; [exact (TsLongPlain f k b z O L Z)|]. cbn [app]. now rewrite <- !app_assoc.
  - assert (B : basic_string t = Some (x, r) -> exists u, text_says u x /\ 34 :: t = u ++ r).
    { intros E. pose proof (basic_inv _ t (le_n _) T) as G. rewrite E in G. destruct G as (u & G & ->). exists ([34] ++ u ++ [34]). split; [now apply TsDouble|]. cbn [app]. now rewrite <- app_assoc. }
    destruct t as [|a t]; [exact B|]. destruct a as [|p|p]; try exact B. do 6 (destruct p as [p|p|]; try exact B).
    destruct t as [|a t]; [exact B|]. destruct a as [|p|p]; try exact B. do 6 (destruct p as [p|p|]; try exact B).
    tx. clear B I. intros E. apply (ml_basic_inv _ _ JNo (le_n _)) in E; [|now apply trim_good].
    destruct (opening_of 34 long_text t x r (proj1 (long_no_return x r)) ltac:(auto) E) as (f & b & k & z & O & L & Z & -> & ->).
    exists ([34; 34; 34] ++ f ++ b ++ z ++ [34; 34; 34]). split; [exact (TsLong f k b z O L Z)|]. cbn [app]. now rewrite <- !app_assoc.
Qed.

(** *** Values *)
Lemma inline_says lim fuel deep s l r m : txt s -> pairs_at lim fuel deep s = Some (l, r) -> put_entries l [] = Some m -> (forall p t, In (p, t) l -> p <> []) ->
  proper_toml (of_table m) -> ForallOrdPairs apart (map fst (map plain_pair l)) /\ holds_exactly (map plain_pair l) [] (doc_value (of_table m)).
Proof.
  intros T E P N Pr. pose proof (document_inv l [] m m N ltac:(intros ? ? []) P eq_refl) as H. split.
  - pose proof (th_apart _ _ H) as A. replace (doc_paths [([], l)]) with (map fst (map plain_pair l)) in A; [exact A|].
    unfold doc_paths. cbn [flat_map fst snd]. rewrite app_nil_r, map_map. reflexivity.
  - pose proof (holds_document l [] m (doc_value (of_table m)) Pr H (vequiv_refl _)) as G.
    unfold all_settings in G. cbn [map flat_map] in G. rewrite app_nil_r in G. exact G.
Qed.
Definition value_said lim n (s : str) (o : option (toml_value * str)) : Prop := match o with Some (t, r) => exists u, value_says lim n u (doc_value t) /\ s = u ++ r | None => True end.
Definition items_said lim n (s : str) (o : option (list toml_value * str)) : Prop := match o with Some (l, r) => exists u, items_say lim n u (map doc_value l) /\ s = u ++ r | None => True end.
Definition pairs_said lim n (s : str) (o : option (list (list str * toml_value) * str)) : Prop := match o with Some (l, r) => exists u, pairs_say lim n u (map plain_pair l) /\ s = u ++ r | None => True end.
Lemma pairs_blank lim n w u l : blank w -> pairs_say lim n u l -> pairs_say lim n (w ++ u) l.
Proof.
  intros B G. destruct G as [n p t w0 x v w2 P L B0 V B2|n p t w0 x v w2 s l P L B0 V B2 M].
  - rewrite app_assoc. apply (PsLast lim n p); auto. now apply path_blank.
  - rewrite app_assoc. apply (PsMore lim n p); auto. now apply path_blank.
Qed.
Lemma pairs_some lim n u l : pairs_say lim n u l -> forall p v, In (p, v) l -> p <> [].
Proof.
  induction 1 as [n p t w0 x v w2 P L B0 V B2|n p t w0 x v w2 s l P L B0 V B2 M IH]; intros q y [[= <- <-]|J]; try (now destruct J); try exact (proj2 (path_len _ _ P)). eauto.
Qed.
Lemma values_said lim : forall fuel deep, (forall s, txt s -> value_said lim (lim - S deep) s (value_at lim fuel deep s)) /\ (forall s, txt s -> items_said lim (lim - S deep) s (items_at lim fuel deep s))
  /\ (forall s, txt s -> pairs_said lim (lim - S deep) s (pairs_at lim fuel deep s)).
Proof.
  induction fuel as [|f IH]; intros deep; [repeat split; intros; exact I|]. split; [|split]; intros s T.
  - pose proof (proj1 (values_good lim (S f) deep) s T) as Good. revert Good. cbn [value_at]. destruct s as [|c t]; [intros; exact I|]. destruct ((c =? 34) || (c =? 39)).
    { intros _. destruct (string_value (c :: t)) as [[x r]|] eqn:E; [|exact I]. destruct (string_says _ _ _ T E) as (u & U & Es). exists u. split; [now apply SyText | exact Es]. }
    destruct (Z.eqb_spec c 91) as [->|N1].
    { intros _. destruct (Nat.leb_spec lim (S deep)) as [Le|Lt]; [exact I|]. pose proof (proj1 (proj2 (IH (S deep))) t (txt_tail _ _ T)) as G.
      destruct (items_at lim f (S deep) t) as [[l r]|]; [|exact I]. destruct G as (u & G & ->). exists ([91] ++ u). split; [|reflexivity]. replace (lim - S deep)%nat with (S (lim - S (S deep))) by lia. cbn [doc_value]. now apply SyArray. }
    destruct (Z.eqb_spec c 123) as [->|N2].
    { destruct (Nat.leb_spec lim (S deep)) as [Le|Lt]; [intros; exact I|]. apply txt_tail in T. destruct (ws_inv t) as (w & B & E & _). apply skip_ws_good in T.
      replace (lim - S deep)%nat with (S (lim - S (S deep))) by lia.
      assert (D : goodv (match pairs_at lim f (S deep) (skip_ws t) with
                     | Some (l, r) => match put_entries l [] with Some m => Some (of_table m, r) | None => None end
                     | None => None end) -> value_said lim (S (lim - S (S deep))) (123 :: t) (match pairs_at lim f (S deep) (skip_ws t) with
                     | Some (l, r) => match put_entries l [] with Some m => Some (of_table m, r) | None => None end
                     | None => None end)).
      { pose proof (proj2 (proj2 (IH (S deep))) _ T) as G. destruct (pairs_at lim f (S deep) (skip_ws t)) as [[l r]|] eqn:Pa; [|intros; exact I]. destruct G as (u & G & R).
        destruct (put_entries l []) as [m|] eqn:Pu; [|intros; exact I]. intros [Pr _]. exists ([123] ++ w ++ u). split; [|rewrite E, R; cbn [app]; now rewrite <- app_assoc].
        assert (Ne : forall p t, In (p, t) l -> p <> []).
        { intros p t0 J. apply (pairs_some _ _ _ _ G p (doc_value t0)). apply plain_in. eauto. }
        destruct (inline_says lim f (S deep) _ l r m T Pa Pu Ne Pr) as [A H]. apply (SyTable lim _ _ (map plain_pair l)); auto. now apply pairs_blank. }
      destruct (skip_ws t) as [|d u] eqn:Es; [exact D|]. destruct d as [|p|p]; try exact D. do 7 (destruct p as [p|p|]; try exact D).
      intros _. exists ([123] ++ w ++ [125]). split; [now apply SyEmpty|]. rewrite E. cbn [app]. now rewrite <- app_assoc. }
    intros _. pose proof (token_end_inv (c :: t)) as G. destruct (token_end (c :: t)) as [a r]. cbn [fst snd] in G.
    destruct (token_value a) eqn:E; [|exact I]. exists a. split; [|exact G]. apply SyWord. now apply token_says.
  - cbn [items_at]. pose proof (skip_lines_inv (List.length s) s) as Sk. apply (skip_lines_good (List.length s)) in T. set (t := skip_lines (List.length s) s) in *. clearbody t.
    assert (D : (exists g, gap g /\ s = g ++ t) -> items_said lim (lim - S deep) s (match value_at lim f deep t with
      | None => None
      | Some (x, u) =>
        match skip_lines (List.length u) u with
        | 44 :: r => match items_at lim f deep r with Some (l, r') => Some (x :: l, r') | None => None end
        | 93 :: r => Some ([x], r)
        | _ => None
        end
      end)).
    { intros (g & Gg & ->). pose proof (proj1 (IH deep) t T) as G. pose proof (proj1 (values_good lim f deep) t T) as Gt. destruct (value_at lim f deep t) as [[x u]|]; [|exact I]. destruct G as (a & Ga & ->). destruct Gt as [_ Gu].
      pose proof (skip_lines_inv (List.length u) u) as Su. apply (skip_lines_good (List.length u)) in Gu. destruct (skip_lines (List.length u) u) as [|d r]; [exact I|].
      assert (Hu : plain_char d = true -> exists h, gap h /\ u = h ++ d :: r) by (intros P; destruct Su as [Su|Su]; [exact Su | cbn [head_not] in Su; congruence]).
      destruct d as [|p|p]; try exact I. do 7 (try (destruct p as [p|p|]; try exact I)).
      - destruct (Hu eq_refl) as (h & H & ->). exists (g ++ a ++ h ++ [93]). split; [now apply IsLast|]. now rewrite <- !app_assoc.
      - destruct (Hu eq_refl) as (h & H & ->). apply txt_tail in Gu. pose proof (proj1 (proj2 (IH deep)) r Gu) as G. destruct (items_at lim f deep r) as [[l r']|]; [|exact I]. destruct G as (b & G & ->).
        exists (g ++ a ++ h ++ [44] ++ b). split; [cbn [map]; now apply IsMore|]. now rewrite <- !app_assoc. }
    assert (N : head_not plain_char t -> value_at lim f deep t = None) by apply no_value.
    destruct Sk as [Sk|Sk].
    + specialize (D Sk). destruct t as [|d r]; [exact D|]. destruct d as [|p|p]; try exact D. do 7 (destruct p as [p|p|]; try exact D).
      destruct Sk as (g & Gg & ->). exists (g ++ [93]). split; [now apply IsEnd|]. now rewrite <- app_assoc.
    + specialize (N Sk). clear D. destruct t as [|d r]; [rewrite N; exact I|]. destruct d as [|p|p]; try (rewrite N; exact I). do 7 (destruct p as [p|p|]; try (rewrite N; exact I)). discriminate Sk.
  - cbn [pairs_at]. destruct (key_path (S (List.length s)) s) as [[p t]|] eqn:K; [|exact I]. pose proof (key_path_good (S (List.length s)) s T) as Kg. rewrite K in Kg. destruct Kg as (_ & _ & Tt).
    apply key_path_inv in K as (a & P & ->); auto. destruct t as [|d t]; [exact I|]. destruct d as [|b|b]; try exact I. do 6 (destruct b as [b|b|]; try exact I).
    destruct (Nat.leb_spec lim (List.length p)) as [Le|Lt]; [exact I|]. apply txt_tail in Tt. destruct (ws_inv t) as (w & B & E & _). apply skip_ws_good in Tt.
    pose proof (proj1 (IH deep) _ Tt) as G. pose proof (proj1 (values_good lim f deep) _ Tt) as Gt. destruct (value_at lim f deep (skip_ws t)) as [[x u]|]; [|exact I]. destruct G as (v & Gv & Ev). destruct Gt as [_ Gu].
    destruct (ws_inv u) as (w2 & B2 & E2 & _). apply skip_ws_good in Gu. rewrite E, Ev. clear E Ev.
    destruct (skip_ws u) as [|d r]; [exact I|]. destruct d as [|b|b]; try exact I. do 7 (try (destruct b as [b|b|]; try exact I)).
    + exists (a ++ [61] ++ w ++ v ++ w2 ++ [125]). split; [now apply (PsLast lim _ p)|]. rewrite E2. now rewrite <- !app_assoc.
    + apply txt_tail in Gu. pose proof (proj2 (proj2 (IH deep)) r Gu) as G. destruct (pairs_at lim f deep r) as [[l r']|]; [|exact I]. destruct G as (b & G & ->).
      exists (a ++ [61] ++ w ++ v ++ w2 ++ [44] ++ b). split; [cbn [map plain_pair fst snd]; now apply (PsMore lim _ p)|]. rewrite E2. now rewrite <- !app_assoc.
Qed.

(** *** Lines and files *)
Definition said_of (st : statement) : said := match st with SHead true p => Element p | SHead false p => Table p | SEntry p t => Setting p (doc_value t) end.
Lemma statement_says lim s st r : txt s -> statement_at lim s = Some (st, r) -> txt r /\ exists x, line_says lim x (said_of st) /\ s = x ++ r.
Proof.
  intros T H. pose proof (statement_good lim s T) as G. rewrite H in G. split; [exact (proj2 G)|]. clear G.
  assert (D : match key_path (S (List.length s)) s with
    | Some (p, 61 :: t) =>
      if Nat.leb lim (List.length p) then None else
      match value_at lim (2 * List.length t + 2) 0 (skip_ws t) with
      | Some (x, r) => Some (SEntry p x, r)
      | None => None
      end
    | _ => None
    end = Some (st, r) -> exists x, line_says lim x (said_of st) /\ s = x ++ r).
  { clear H. destruct (key_path (S (List.length s)) s) as [[p t]|] eqn:K; [|discriminate]. pose proof (key_path_good (S (List.length s)) s T) as Kg. rewrite K in Kg. destruct Kg as (_ & _ & Tt).
    apply key_path_inv in K as (a & P & ->); auto. destruct t as [|d t]; [discriminate|]. destruct d as [|b|b]; try discriminate. do 6 (destruct b as [b|b|]; try discriminate).
    destruct (Nat.leb_spec lim (List.length p)) as [Le|Lt]; [discriminate|]. apply txt_tail in Tt. destruct (ws_inv t) as (w & B & E & _). apply skip_ws_good in Tt.
    pose proof (proj1 (values_said lim (2 * List.length t + 2) 0) _ Tt) as G. destruct (value_at lim _ 0 (skip_ws t)) as [[x u]|]; [|discriminate]. destruct G as (v & Gv & Ev). intros [= <- <-].
    exists (a ++ [61] ++ w ++ v). split; [apply (LsSetting lim p a w v (doc_value x) (lim - 1)); auto; lia|]. rewrite E, Ev. now rewrite <- !app_assoc. }
  assert (H1 : forall t, match key_path (S (List.length t)) t with
    | Some (p, 93 :: r) => if Nat.leb lim (List.length p) then None else Some (SHead false p, r)
    | _ => None
    end = Some (st, r) -> txt t -> exists x, line_says lim x (said_of st) /\ 91 :: t = x ++ r).
  { clear. intros t H T. destruct (key_path (S (List.length t)) t) as [[p u]|] eqn:K; [|discriminate H]. apply key_path_inv in K as (a & P & ->); auto.
    destruct u as [|d u]; [discriminate H|]. destruct d as [|b|b]; try discriminate H. do 7 (destruct b as [b|b|]; try discriminate H).
    destruct (Nat.leb_spec lim (List.length p)) as [Le|Lt]; [discriminate H|]. injection H as <- <-. exists ([91] ++ a ++ [93]). split; [now apply (LsTable lim p)|]. cbn [app]. now rewrite <- app_assoc. }
  assert (H2 : forall t, match key_path (S (List.length t)) t with
    | Some (p, 93 :: 93 :: r) => if Nat.leb lim (List.length p) then None else Some (SHead true p, r)
    | _ => None
    end = Some (st, r) -> txt t -> exists x, line_says lim x (said_of st) /\ 91 :: 91 :: t = x ++ r).
  { clear. intros t H T. destruct (key_path (S (List.length t)) t) as [[p u]|] eqn:K; [|discriminate H]. apply key_path_inv in K as (a & P & ->); auto.
    destruct u as [|d u]; [discriminate H|]. destruct d as [|b|b]; try discriminate H. do 7 (destruct b as [b|b|]; try discriminate H).
    destruct u as [|d u]; [discriminate H|]. destruct d as [|b|b]; try discriminate H. do 7 (destruct b as [b|b|]; try discriminate H).
    destruct (Nat.leb_spec lim (List.length p)) as [Le|Lt]; [discriminate H|]. injection H as <- <-. exists ([91; 91] ++ a ++ [93; 93]). split; [now apply (LsElement lim p)|]. cbn [app]. now rewrite <- app_assoc. }
  unfold statement_at in H. destruct s as [|c t]; [discriminate H|]. destruct c as [|p|p]; try exact (D H). do 7 (destruct p as [p|p|]; try exact (D H)). apply txt_tail in T.
  destruct t as [|c t]; [exact (H1 [] H T)|]. destruct c as [|p|p]; try (apply H1; [exact H | exact T]). do 7 (destruct p as [p|p|]; try (apply H1; [exact H | exact T])). apply txt_tail in T. exact (H2 t H T).
Qed.
Lemma statements_say lim fuel : forall s l, txt s -> statements lim fuel s = Some l -> file_says lim s (map said_of l).
Proof.
  induction fuel as [|f IH]; intros s l T H; [discriminate H|]. cbn [statements] in H. destruct (ws_inv s) as (w & B & E & Hd). apply skip_ws_good in T. rewrite E.
  destruct (skip_ws s) as [|c t]; [injection H as <-; apply FsEnd; exists w, []; auto|]. destruct ((c =? 10) || (c =? 13) || (c =? 35)).
  - destruct (line_end (c :: t)) as [r|] eqn:L; [|discriminate H]. apply line_end_inv in L as (cm & C & [[-> Er]|(nl & N & Et)]).
    + subst r. destruct f as [|f]; [discriminate H|]. injection H as <-. apply FsEnd. exists w, cm. auto.
    + rewrite Et in T |- *. replace (w ++ cm ++ nl ++ r) with ((w ++ cm) ++ nl ++ r) by now rewrite <- app_assoc. apply FsQuiet; auto; [exists w, cm; auto|]. eapply IH; [|exact H]. now apply txt_app in T as [_ T]; apply txt_app in T.
  - destruct (statement_at lim (c :: t)) as [[st r]|] eqn:S; [|discriminate H]. apply statement_says in S as (Tr & x & X & ->); auto.
    destruct (ws_inv r) as (w2 & B2 & E2 & _). destruct (line_end (skip_ws r)) as [r'|] eqn:L; [|discriminate H]. destruct (statements lim f r') as [l'|] eqn:S'; [|discriminate H]. injection H as <-. rewrite E2.
    apply skip_ws_good in Tr. apply line_end_inv in L as (cm & C & [[-> Er]|(nl & N & Et)]).
    + subst r'. destruct f as [|f]; [discriminate S'|]. injection S' as <-. cbn [map]. apply FsLast; auto. exists w2, cm. auto.
    + rewrite Et in Tr |- *. replace (w2 ++ cm ++ nl ++ r') with ((w2 ++ cm) ++ nl ++ r') by now rewrite <- app_assoc. cbn [map]. apply FsLine; auto; [exists w2, cm; auto|].
      eapply IH; [|exact S']. apply txt_app in Tr as [_ Tr]. now apply txt_app in Tr.
Qed.
(** Either there is an element of an array of tables, or lines as [lines_of]. *)
Lemma statement_split l : (exists p, In (Element p) (map said_of l)) \/ exists tl tt, l = map ent tl ++ stm_tables tt.
Proof.
  induction l as [|st l [(p & J)|(tl & tt & ->)]]; [right; exists [], []; reflexivity | left; exists p; now right|]. destruct st as [[|] p|p t].
  - left. exists p. now left.
  - right. exists [], ((p, tl) :: tt). reflexivity.
  - right. exists ((p, t) :: tl), tt. reflexivity.
Qed.
Lemma said_lines tl tt : map said_of (map ent tl ++ stm_tables tt) = lines_of (map plain_pair tl) (map plain_table tt).
Proof.
  assert (A : forall tl, map said_of (map ent tl) = map (fun e => Setting (fst e) (snd e)) (map plain_pair tl)) by (intros l; rewrite !map_map; reflexivity).
  unfold lines_of. rewrite map_app, A. f_equal. induction tt as [|[h es] tt IH]; [reflexivity|]. cbn [stm_tables flat_map map fst snd plain_table app said_of]. rewrite map_app, A. fold (stm_tables tt). now rewrite IH.
Qed.
Lemma line_some lim x d : line_says lim x d -> match d with Setting p _ => p <> [] | Table p => p <> [] | Element p => p <> [] end.
Proof. intros [p t w s v n P L B V Ln|p t P L|p t P L]; exact (proj2 (path_len _ _ P)). Qed.
Lemma file_some lim s l : file_says lim s l -> forall d, In d l -> match d with Setting p _ => p <> [] | Table p => p <> [] | Element p => p <> [] end.
Proof.
  induction 1 as [e T|e nl s l T N F IH|w x d0 e nl s l B L T N F IH|w x d0 e B L T]; intros d J.
  - destruct J.
  - exact (IH d J).
  - destruct J as [<-|J]; [exact (line_some _ _ _ L) | exact (IH d J)].
  - destruct J as [<-|[]]. exact (line_some _ _ _ L).
Qed.
(** *** What is set stays *)
Definition leaf_keeps (t : toml_value) (m m' : list (str * node)) : Prop := forall p, kat m p = Some (KVal t) -> kat m' p = Some (KVal t).
Definition nkeeps (t : toml_value) (n n' : node) : Prop := forall p, nkat n p = Some (KVal t) -> nkat n' p = Some (KVal t).
Lemma keeps_tab t i d i' d' m m' : leaf_keeps t m m' -> nkeeps t (NTab i d m) (NTab i' d' m').
Proof. intros K [|k p] E; [discriminate E|]. exact (K (k :: p) E). Qed.
Lemma keeps_arr t l n : nkeeps t (NArr l) n.
Proof. intros [|k p] E; discriminate E. Qed.
Lemma alter_keeps t k f m m' : (forall n n', mget k m = Some n -> f (Some n) = Some n' -> nkeeps t n n') -> alter k f m = Some m' -> leaf_keeps t m m'.
Proof.
  intros F E. pose proof (alter_mget k f m) as A. rewrite E in A. destruct A as [(n & E1 & E2) O]. intros [|x p] K; [discriminate K|]. rewrite kat_cons in *.
  destruct (str_eqb_spec x k) as [->|N]; [|now rewrite O].
  rewrite E2. destruct (mget k m) as [n0|]; [|discriminate K]. exact (F n0 n eq_refl E1 p K).
Qed.
Lemma descend_keeps t dotted f : (forall d m m', f d m = Some m' -> leaf_keeps t m m') -> forall p b m m', descend dotted p b f m = Some m' -> leaf_keeps t m m'.
Proof.
  intros F. induction p as [|k p IH]; intros b m m' E; cbn [descend] in E; [eauto|]. eapply alter_keeps; [|exact E]. intros n n' _ H. cbv beta in H.
  destruct n as [x|i d m0|l]; [discriminate H| |apply keeps_arr]. destruct (dotted && negb i); [discriminate H|].
  destruct (descend dotted p d f m0) as [m1|] eqn:D; [|discriminate H]. injection H as <-. apply keeps_tab. eauto.
Qed.
Lemma entry_keeps t p k x m m' : put_entry p k x m = Some m' -> leaf_keeps t m m'.
Proof.
  unfold put_entry. apply descend_keeps. intros d m1 m2 E. cbv beta in E. destruct (Bool.eqb _ _); [discriminate E|]. eapply alter_keeps; [|exact E]. intros n n' _ H. discriminate H.
Qed.
Lemma entries_keep t l : forall m m', put_entries l m = Some m' -> leaf_keeps t m m'.
Proof.
  induction l as [|[p x] l IH]; intros m m' E; cbn [put_entries] in E; [injection E as <-; intros q K; exact K|]. destruct (put_entry _ _ x m) as [m1|] eqn:P; [|discriminate E].
  intros q K. apply (IH _ _ E). exact (entry_keeps t _ _ _ _ _ P q K).
Qed.
Lemma section_keeps t b h l m m' : put_section b h l m = Some m' -> leaf_keeps t m m'.
Proof.
  unfold put_section. apply descend_keeps. intros d m1 m2 E. cbv beta in E. eapply alter_keeps; [|exact E]. intros n n' _ H. cbv beta in H.
  destruct b; destruct n as [x|i d0 m0|a]; try discriminate H; try apply keeps_arr.
  destruct i; [|discriminate H]. destruct d0; [discriminate H|]. destruct (put_entries l m0) as [m3|] eqn:P; [|discriminate H]. injection H as <-. apply keeps_tab. eapply entries_keep; eauto.
Qed.
Lemma sections_keep t f : forall l m m', run_sections f l m = Some m' -> leaf_keeps t m m'.
Proof.
  induction f as [|f IH]; intros l m m' E; cbn [run_sections] in E; [discriminate E|]. destruct l as [|[b p|p x] l]; [injection E as <-; intros q K; exact K| |discriminate E].
  destruct (entries_before l) as [es r]. destruct (put_section b p es m) as [m1|] eqn:P; [|discriminate E]. intros q K. apply (IH _ _ _ E). exact (section_keeps t _ _ _ _ _ P q K).
Qed.
Lemma before_split l : l = map ent (fst (entries_before l)) ++ snd (entries_before l) /\ match snd (entries_before l) with SEntry _ _ :: _ => False | _ => True end.
Proof.
  induction l as [|[b p|p x] l (E & H)]; [split; reflexivity || exact I | split; [reflexivity | exact I]|]. cbn [entries_before]. destruct (entries_before l) as [es r]. cbn [fst snd map app] in *. split; [now rewrite E at 1 | exact H].
Qed.
Lemma loads_says r lim s v : toml_from_str (toml_codec r (toml_text lim)) s = Ok v -> exists m u l, (m = [] \/ m = [65279]) /\ s = m ++ u /\ file_says lim u l /\
  ((exists p, In (Element p) l) /\ starts_with l v \/ exists a ts, l = lines_of a ts /\ no_clash (paths_of a) (shape ts) /\ holds_exactly (all_settings a ts) (map fst ts) v).
Proof.
  intros E. destruct (load_iff r lim s v E) as (m & T & R & V & _).
  assert (Q : ts_parse (toml_text lim) s = Ok (TvTab (table_entries m))) by (apply crate_parse; eauto). pose proof (proj1 (toml_text_tables lim s _ Q)) as PT. clear Q.
  unfold doc_root in R. destruct (stms lim (unmark s)) as [l|] eqn:L; [|discriminate R].
  assert (U : exists b, (b = [] \/ b = [65279]) /\ s = b ++ unmark s /\ txt (unmark s)).
  { rewrite unmark_eq. destruct s as [|c t']; [exists []; auto|]. destruct (Z.eqb_spec c 65279) as [->|N].
    - exists [65279]. split; [now right|]. split; [reflexivity | exact (txt_tail _ _ T)].
    - exists []. split; [now left|]. split; [reflexivity | exact T]. }
  destruct U as (b & Hb & Es & Tu). exists b, (unmark s), (map said_of l). split; [exact Hb|]. split; [exact Es|]. pose proof (statements_say lim (S (List.length (unmark s))) _ _ Tu L) as F. split; [exact F|].
  destruct (statement_split l) as [El|(tl & tt & El)].
  { left. split; [exact El|]. destruct (before_split l) as (Sp & Hr). unfold run_root in R. destruct (put_entries (fst (entries_before l)) []) as [m0|] eqn:E0; [|discriminate R].
    set (tl := fst (entries_before l)) in *. set (rest := snd (entries_before l)) in *. clearbody tl rest. subst l.
    assert (Pl : ppaths tl).
    { intros p t J. apply (file_some _ _ _ F (Setting p (doc_value t))). rewrite map_app, map_map. apply in_or_app. left. apply in_map_iff. exists (p, t). auto. }
    assert (NA : no_arrays []) by (intros [|x q]; [discriminate | rewrite kat_nil; discriminate]).
    destruct (entries_inv tl [] m0 NA Pl E0) as (AA & _ & _ & H). exists (map plain_pair tl), (map said_of rest). split; [rewrite map_app, !map_map; reflexivity|]. split; [|split].
    - destruct rest as [|[b0 p|p x] rest]; [exact I| |destruct Hr]. destruct b0; exact I.
    - clear - AA. unfold all_apart in AA. induction AA as [|a l Fa AA IH]; [constructor|]. cbn [map]. constructor; [|exact IH]. clear - Fa. induction Fa; constructor; auto.
    - intros p x J. apply plain_in in J as (t & J & ->). destruct (H p t J) as (_ & K & _). apply (sections_keep t _ _ _ _ R) in K.
      destruct (at_equiv _ _ _ _ V (at_value _ _ _ K)) as (y & A & Ey). eauto. }
  right. exists (map plain_pair tl), (map plain_table tt). subst l. rewrite said_lines in *. split; [reflexivity|].
  rewrite (root_tables lim) in R. destruct (put_entries tl []) as [m0|] eqn:E0; [|discriminate R].
  assert (Np : forall p v, In (Setting p v) (lines_of (map plain_pair tl) (map plain_table tt)) -> p <> []) by (intros p y J; exact (file_some _ _ _ F _ J)).
  assert (Nt : forall p, In (Table p) (lines_of (map plain_pair tl) (map plain_table tt)) -> p <> []) by (intros p J; exact (file_some _ _ _ F _ J)).
  assert (Pl : ppaths tl).
  { intros p t J. apply (Np p (doc_value t)). unfold lines_of. apply in_or_app. left. apply in_map_iff. exists (p, doc_value t). split; [reflexivity|]. apply plain_in. eauto. }
  assert (N : forall h es, In (h, es) tt -> h <> [] /\ ppaths es).
  { intros h es J. split.
    - apply Nt. unfold lines_of. apply in_or_app. right. apply in_flat_map. exists (plain_table (h, es)). split; [now apply in_map | now left].
    - intros p t Jt. apply (Np p (doc_value t)). unfold lines_of. apply in_or_app. right. apply in_flat_map. exists (plain_table (h, es)). split; [now apply in_map|]. right. cbn [plain_table snd].
      apply in_map_iff. exists (p, doc_value t). split; [reflexivity|]. apply plain_in. eauto. }
  pose proof (document_inv tl tt m0 m Pl N E0 R) as H. split; [|eapply holds_document; eauto].
  unfold no_clash. rewrite shape_heads, paths_plain. split; [exact (th_apart _ _ H)|]. split.
  - pose proof (th_heads _ _ H) as Hh. cbn [map fst] in Hh. now inversion Hh.
  - intros p h Jp Jh. apply doc_paths_in in Jp as (p0 & es & x & t & J & Jx & ->). apply in_map_iff in Jh as ([h0 hs] & <- & Jh). cbn [fst]. exact (th_before _ _ H p0 es x t h0 hs J Jx (or_intror Jh) (proj1 (N _ _ Jh))).
Qed.
