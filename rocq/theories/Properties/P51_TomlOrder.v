(** C135: the order of the sections of a TOML file, and of the settings in a
    section (Spec/TomlOrder.v). *)
From Coq Require Import ZArith Reals Bool String Lia.
From Coq Require Import List.
Import ListNotations.
From Verif.Model Require Import Text Num Flt Value Convert Serde Visitor Layers Toml TomlText.
From Verif.Spec Require Import Spec Numerals TomlSpec TomlTextSpec TomlGrammar TomlArrays TomlOrder.
From Verif.Proofs Require Import Basics TomlProofs TomlLex TomlNum TomlValues TomlSim TomlHand TomlWords TomlKinds TomlTables TomlRead TomlReadValues TomlReadDoc TomlMeaning TomlArrays TomlOrder.
From Verif.Properties Require Import P47_TomlTables P50_TomlArrays.
Local Open Scope Z_scope.

(** Two neighbouring sections may be swapped when neither header's path begins
    the other's: what loads in one order loads in the other, and is the same
    (so what does not load in one order does not load in the other). *)
Theorem C135_sections_in_any_order : forall lim r a p q s t b v, (2 <= lim)%nat -> file_start (means_alone r lim) lim a ->
  section_text (means_alone r lim) lim p s -> section_text (means_alone r lim) lim q t -> apart p q -> b = [] \/ begins_section b ->
  toml_from_str (toml_codec r (toml_text lim)) (a ++ s ++ t ++ b) = Ok v ->
  exists v', toml_from_str (toml_codec r (toml_text lim)) (a ++ t ++ s ++ b) = Ok v' /\ vequiv v v'.
Proof. intros lim r a p q s t b v L. apply (sections_order (means_alone r lim) lim (fun w x Ww M => alone_ok r lim w x L Ww M)). Qed.
Print Assumptions C135_sections_in_any_order.

(** And so may neighbouring settings of one section, whatever follows them. *)
Theorem C135_settings_in_any_order : forall lim r a l s k t b v, (2 <= lim)%nat -> file_start (means_alone r lim) lim a ->
  settings_text (means_alone r lim) lim l s -> settings_text (means_alone r lim) lim k t -> (forall e e', In e l -> In e' k -> apart (fst e) (fst e')) ->
  toml_from_str (toml_codec r (toml_text lim)) (a ++ s ++ t ++ b) = Ok v ->
  exists v', toml_from_str (toml_codec r (toml_text lim)) (a ++ t ++ s ++ b) = Ok v' /\ vequiv v v'.
Proof. intros lim r a l s k t b v L. apply (settings_order (means_alone r lim) lim (fun w x Ww M => alone_ok r lim w x L Ww M)). Qed.
Print Assumptions C135_settings_in_any_order.

(** Any number of such swaps. *)
Theorem C135_rearranged_files_load_the_same : forall lim r l a ps ps' b v, (2 <= lim)%nat -> settings_text (means_alone r lim) lim l a ->
  (forall p t, In (p, t) ps -> section_text (means_alone r lim) lim p t) -> rearranged ps ps' -> b = [] \/ begins_section b ->
  toml_from_str (toml_codec r (toml_text lim)) (a ++ List.concat (map snd ps) ++ b) = Ok v ->
  exists v', toml_from_str (toml_codec r (toml_text lim)) (a ++ List.concat (map snd ps') ++ b) = Ok v' /\ vequiv v v'.
Proof. intros lim r l a ps ps' b v L. apply (rearranged_order (means_alone r lim) lim (fun w x Ww M => alone_ok r lim w x L Ww M)). Qed.
Print Assumptions C135_rearranged_files_load_the_same.

Lemma rearranged_sym ps ps' : rearranged ps ps' -> rearranged ps' ps.
Proof. induction 1; [constructor | constructor; now apply apart_sym | eapply ReTrans; eauto]. Qed.
Lemma rearranged_text ps ps' : rearranged ps ps' -> is_text (List.concat (map snd ps')) = is_text (List.concat (map snd ps)).
Proof.
  induction 1 as [l|l p s q t l' A|a b c H1 I1 H2 I2]; [reflexivity | | congruence]. rewrite !map_app, !concat_app, !is_text_app. cbn [map List.concat snd]. rewrite !is_text_app.
  destruct (is_text (List.concat (map snd l))), (is_text s), (is_text t); reflexivity.
Qed.
(** Tables and arrays of tables may be mixed: a file whose sections can be
    rearranged into a document of C134 says what that document says. *)
Theorem C135_mixed_sections_load : forall lim r l a ps ps' d, (2 <= lim)%nat -> settings_text (means_alone r lim) lim l a ->
  (forall p t, In (p, t) ps -> section_text (means_alone r lim) lim p t) -> rearranged ps ps' ->
  doc_text (means_alone r lim) lim [] d (a ++ List.concat (map snd ps')) -> clear d -> is_text (a ++ List.concat (map snd ps)) = true ->
  exists v, toml_from_str (toml_codec r (toml_text lim)) (a ++ List.concat (map snd ps)) = Ok v /\ wf v /\ says d v.
Proof.
  intros lim r l a ps ps' d L Ha Hp R D C T. rewrite is_text_app, <- (rearranged_text ps ps' R), <- is_text_app in T.
  destruct (C134_arrays_of_tables_load lim r d _ L D T C) as (v & E & _ & S). rewrite <- (app_nil_r (List.concat _)) in E.
  destruct (C135_rearranged_files_load_the_same lim r l a ps' ps [] v L Ha (rearranged_apart _ ps ps' R Hp) (rearranged_sym _ _ R) (or_introl eq_refl) E) as (v' & E' & V).
  rewrite app_nil_r in E'. exists v'. split; [exact E'|]. split; [destruct (load_iff r lim _ v' E') as (m & _ & _ & _ & Wf); exact Wf | exact (says_equiv d v v' S V)].
Qed.
Print Assumptions C135_mixed_sections_load.

(** A table inside an array's element has to stay behind it, and two elements of
    one array keep their order. *)
Theorem C135_apart_is_needed :
  (exists v, toml_from_str (toml_codec false (toml_text 80)) (lit "[[a]]" ++ nl ++ lit "[a.b]" ++ nl) = Ok v)
  /\ (forall v, toml_from_str (toml_codec false (toml_text 80)) (lit "[a.b]" ++ nl ++ lit "[[a]]" ++ nl) <> Ok v)
  /\ (exists v v', toml_from_str (toml_codec false (toml_text 80)) (lit "[[a]]" ++ nl ++ lit "x = 1" ++ nl ++ lit "[[a]]" ++ nl) = Ok v
      /\ toml_from_str (toml_codec false (toml_text 80)) (lit "[[a]]" ++ nl ++ lit "[[a]]" ++ nl ++ lit "x = 1" ++ nl) = Ok v' /\ ~ vequiv v v').
Proof.
  split; [eexists; vm_compute; reflexivity|]. split; [intros v E; vm_compute in E; discriminate E|].
  exists (VMap [(lit "a", VArr [VMap [(lit "x", VInt 1)]; VMap []])]), (VMap [(lit "a", VArr [VMap []; VMap [(lit "x", VInt 1)]])]).
  split; [vm_compute; reflexivity|]. split; [vm_compute; reflexivity|]. intros V. inversion V as [? Sc|? ? Fa|m n H _];subst.
  destruct (H _ _ (or_introl eq_refl)) as (y & [[= <-]|[]] & E). inversion E as [? Sc|? ? F|]; subst. inversion F as [|? ? ? ? X _]; subst. inversion X as [? Sc|? ? Fa|? ? K _];subst.
  destruct (K _ _ (or_introl eq_refl)) as (z & [] & _).
Qed.
Print Assumptions C135_apart_is_needed.

(** A manifest with an array's elements on both sides of a table. *)
Definition bin (n : str) : list str * str := ([lit "bin"], (lit "[[bin]]" ++ nl) ++ line (lit "name") (lit "'" ++ n ++ lit "'")).
Definition deps : list str * str := ([lit "deps"], (lit "[deps]" ++ nl) ++ line (lit "x") (lit "2")).
Definition manifest : list (list str * str) := [bin (lit "a"); deps; bin (lit "b")].
Definition sorted_manifest : list (list str * str) := [deps; bin (lit "a"); bin (lit "b")].
Definition manifest_doc : doc := Doc [([lit "v"], VInt 1)] [([lit "deps"], [([lit "x"], VInt 2)])]
  [([lit "bin"], [Doc [([lit "name"], VStr (lit "a"))] [] []; Doc [([lit "name"], VStr (lit "b"))] [] []])].
Example C135_example :
  settings_text (means_alone false 80) 80 [([lit "v"], VInt 1)] (line (lit "v") (lit "1"))
  /\ (forall p t, In (p, t) manifest -> section_text (means_alone false 80) 80 p t) /\ rearranged manifest sorted_manifest
  /\ doc_text (means_alone false 80) 80 [] manifest_doc (line (lit "v") (lit "1") ++ List.concat (map snd sorted_manifest)) /\ clear manifest_doc
  /\ is_text (line (lit "v") (lit "1") ++ List.concat (map snd manifest)) = true
  /\ toml_from_str (toml_codec false (toml_text 80)) (line (lit "v") (lit "1") ++ List.concat (map snd manifest))
     = Ok (VMap [(lit "v", VInt 1); (lit "bin", VArr [VMap [(lit "name", VStr (lit "a"))]; VMap [(lit "name", VStr (lit "b"))]]); (lit "deps", VMap [(lit "x", VInt 2)])]).
Proof.
  assert (B : forall k, k <> [] -> forallb bare_char k = true -> path_text [k] k) by (intros k N H; pose proof (bare_path k [] (bare_of k N H) (fun c J => match J with end)) as X; rewrite app_nil_r in X; exact X).
  assert (S1 : settings_text (means_alone false 80) 80 [([lit "v"], VInt 1)] (line (lit "v") (lit "1"))).
  { apply one_setting; [now apply bare_of | apply int_value; [now apply tok_word | vm_compute; reflexivity]]. }
  assert (S2 : settings_text (means_alone false 80) 80 [([lit "x"], VInt 2)] (line (lit "x") (lit "2"))).
  { apply one_setting; [now apply bare_of | apply int_value; [now apply tok_word | vm_compute; reflexivity]]. }
  assert (Sn : forall n, n = lit "a" \/ n = lit "b" -> settings_text (means_alone false 80) 80 [([lit "name"], VStr n)] (line (lit "name") (lit "'" ++ n ++ lit "'"))).
  { intros n H. apply one_setting; [now apply bare_of|]. apply (text_value n); [destruct H as [->| ->]; now apply one_of | intros J; destruct H as [->| ->]; vm_compute in J; intuition discriminate]. }
  assert (He : element_text 80 [lit "bin"] (lit "[[bin]]" ++ nl)) by (apply (ElLine 80 [lit "bin"] (lit "bin") [] nl); [now apply B | cbn; lia | intros c [] | exact plain_tail]).
  assert (Hh : header_text 80 [lit "deps"] (lit "[deps]" ++ nl)) by (apply (HdLine 80 [lit "deps"] (lit "deps") [] nl); [now apply B | cbn; lia | intros c [] | exact plain_tail]).
  assert (Cb : forall n, clear (Doc [([lit "name"], VStr n)] [] [])).
  { intros n. apply Clear; [split; [|split] | | constructor | intros ? ? [] | intros ? ? ? []]; [repeat constructor | constructor | intros p h _ [] | intros p es d r h _ _ _ _ []]. }
  split; [exact S1|]. split.
  - intros p t [[= <- <-]|[[= <- <-]|[[= <- <-]|[]]]]; [exact (SxElement _ _ _ _ _ _ He (Sn (lit "a") (or_introl eq_refl))) | exact (SxTable _ _ _ _ _ _ Hh S2) | exact (SxElement _ _ _ _ _ _ He (Sn (lit "b") (or_intror eq_refl)))].
  - split; [apply (ReSwap [] [lit "bin"] _ [lit "deps"] _ [bin (lit "b")]); apply apart_of; vm_compute; discriminate|]. split.
    + apply (DtDoc _ _ [] [([lit "v"], VInt 1)] [([lit "deps"], [([lit "x"], VInt 2)])] _ (line (lit "v") (lit "1")) (snd deps) (snd (bin (lit "a")) ++ snd (bin (lit "b")))).
      * exact S1.
      * cbn [snd deps]. rewrite <- (app_nil_r (_ ++ line (lit "x") (lit "2"))), <- app_assoc. apply (TbMore _ _ [lit "deps"] _ [([lit "x"], VInt 2)] (line (lit "x") (lit "2")) [] []); [exact Hh | exact S2 | constructor].
      * intros t [<-|[]]. discriminate.
      * rewrite <- (app_nil_r (_ ++ _)). apply (GtMore _ _ [] [lit "bin"] _ [] _ []); [discriminate | discriminate | | constructor]. cbn [snd bin]. rewrite <- app_assoc.
        apply (EtMore _ _ [lit "bin"] _ _ (line (lit "name") (lit "'" ++ lit "a" ++ lit "'")) _ ((lit "[[bin]]" ++ nl) ++ line (lit "name") (lit "'" ++ lit "b" ++ lit "'"))); [exact He | |].
        -- rewrite <- (app_nil_r (line _ _)). apply (DtDoc _ _ [lit "bin"] _ [] [] _ [] []); [apply Sn; auto | constructor | intros t [] | constructor].
        -- rewrite <- (app_nil_r (_ ++ line _ _)), <- app_assoc. apply (EtMore _ _ [lit "bin"] _ _ (line (lit "name") (lit "'" ++ lit "b" ++ lit "'")) [] []); [exact He | | constructor].
           rewrite <- (app_nil_r (line _ _)). apply (DtDoc _ _ [lit "bin"] _ [] [] _ [] []); [apply Sn; auto | constructor | intros t [] | constructor].
    + split; [|split; vm_compute; reflexivity]. apply Clear; [split; [|split] | | | |].
      * repeat constructor; apply apart_of; vm_compute; discriminate.
      * repeat constructor; cbn; tauto.
      * intros p h Jp Jh (r & E). destruct Jh as [<-|[]]. destruct Jp as [<-|[<-|[]]]; vm_compute in E; discriminate E.
      * intros p es d r h J Jd Nd Nr Jh (z & E). destruct J as [J|[J|[]]]; injection J as <- <-; destruct Jd as [Jd|[]]; destruct d as [|a [|b d]]; try congruence; destruct r; try congruence; discriminate Jd.
      * repeat constructor; cbn; tauto.
      * intros g p [<-|[]] [[<-|[]]|[<-|[]]]; discriminate.
      * intros q ds d [[= <- <-]|[]] [<-|[<-|[]]]; apply Cb.
Qed.
