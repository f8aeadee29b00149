(** C134: arrays of tables in TOML documents written by hand
    (Spec/TomlArrays.v). *)
From Coq Require Import ZArith Reals Bool String Lia.
From Coq Require Import List.
Import ListNotations.
From Verif.Model Require Import Text Num Flt Value Convert Serde Visitor Layers Toml TomlText.
From Verif.Spec Require Import Spec Numerals TomlSpec TomlTextSpec TomlGrammar TomlArrays.
From Verif.Proofs Require Import Basics TomlProofs TomlLex TomlNum TomlValues TomlSim TomlHand TomlWords TomlKinds TomlTables TomlRead TomlReadValues TomlReadDoc TomlMeaning TomlArrays.
From Verif.Properties Require Import P47_TomlTables.
Local Open Scope Z_scope.

Theorem C134_arrays_of_tables_load : forall lim r d s, (2 <= lim)%nat -> doc_text (means_alone r lim) lim [] d s -> is_text s = true -> clear d ->
  exists v, toml_from_str (toml_codec r (toml_text lim)) s = Ok v /\ wf v /\ says d v.
Proof. intros lim r d s L. apply arrays_load. intros w x Ww M. exact (alone_ok r lim w x L Ww M). Qed.
Print Assumptions C134_arrays_of_tables_load.

(** Documents without arrays of tables say what C130 says. *)
Theorem C134_without_arrays : forall l ts v, says (Doc l ts []) v <-> holds_exactly (all_settings l ts) (map fst ts) v.
Proof.
  intros l ts v. split.
  - intros H. inversion H as [? ? ? ? H1 H2 _ H4]; subst. split; [exact H1|]. split; [exact H2|]. intros q y A. destruct (H4 q y A) as [E|[E|[E|(g & [] & _)]]]; auto.
  - intros (H1 & H2 & H3). apply Says; auto. intros q y A. destruct (H3 q y A) as [E|[E|E]]; auto.
Qed.
Print Assumptions C134_without_arrays.

(** A key that has been used for anything else cannot become an array of tables,
    whatever follows; nor can an array of tables be opened as a table. *)
Theorem C134_no_array_over_something_else : forall lim r l ts s k h rest, (2 <= lim)%nat -> TomlGrammar.document_text (means_alone r lim) lim l ts s -> element_text lim [k] h ->
  (exists p, (In p (map fst l) \/ In p (map fst ts)) /\ hd [] p = k) ->
  forall v, toml_from_str (toml_codec r (toml_text lim)) (s ++ h ++ rest) <> Ok v.
Proof.
  intros lim r l ts s k h rest L D H (p & J & E). apply (array_refused (means_alone r lim) lim (fun w x Ww M => alone_ok r lim w x L Ww M) r l ts s k h rest D H).
  apply in_map_iff. exists p. split; [exact E|]. apply in_or_app. exact J.
Qed.
Print Assumptions C134_no_array_over_something_else.
Theorem C134_no_table_over_an_array : forall lim r l ts gs s k ds h rest, (2 <= lim)%nat -> doc_text (means_alone r lim) lim [] (Doc l ts gs) s -> clear (Doc l ts gs) ->
  In ([k], ds) gs -> header_text lim [k] h -> forall v, toml_from_str (toml_codec r (toml_text lim)) (s ++ h ++ rest) <> Ok v.
Proof.
  intros lim r l ts gs s k ds h rest L D C J H. exact (table_refused (means_alone r lim) lim (fun w x Ww M => alone_ok r lim w x L Ww M) r l ts gs s k ds h rest D C J H).
Qed.
Print Assumptions C134_no_table_over_an_array.

(** Two servers, the first with a table and two ports of its own. *)
Definition server (name : str) (ts : list (list str * list (list str * value))) (gs : list (list str * list doc)) : doc := Doc [([lit "name"], VStr name)] ts gs.
Definition port (n : Z) : doc := Doc [([lit "n"], VInt n)] [] [].
Definition farm : doc := Doc [([lit "size"], VInt 2)] []
  [([lit "server"], [server (lit "a") [([lit "limits"], [([lit "cpu"], VInt 4)])] [([lit "port"], [port 1; port 2])]; server (lit "b") [] []])].
Definition line (k v : str) : str := k ++ lit " = " ++ v ++ nl.
Definition farm_text : str :=
  line (lit "size") (lit "2") ++ lit "[[server]]" ++ nl ++ line (lit "name") (lit "'a'") ++ lit "[server.limits]" ++ nl ++ line (lit "cpu") (lit "4")
  ++ lit "[[server.port]]" ++ nl ++ line (lit "n") (lit "1") ++ lit "[[server.port]]" ++ nl ++ line (lit "n") (lit "2")
  ++ lit "[[server]]" ++ nl ++ line (lit "name") (lit "'b'").
Definition server_ty : ty := TStruct [(lit "name", TString); (lit "limits", TOption (TMap TString (TInt I64))); (lit "port", TOption (TSeq (TStruct [(lit "n", TInt U16)])))].

Lemma one_setting k x v : bare_key k -> value_text (means_alone false 80) 80 0 x v -> settings_text (means_alone false 80) 80 [([k], v)] (line k x).
Proof.
  intros B V. unfold line. rewrite <- (app_nil_r (k ++ _)). apply (SsMore _ _ [] ([k], v) (k ++ lit " = " ++ x ++ nl) [] []); [constructor | | apply SsEnd; constructor].
  assert (E : k ++ lit " = " ++ x ++ nl = (k ++ lit " ") ++ [61] ++ lit " " ++ x ++ nl) by (now rewrite <- app_assoc). rewrite E.
  apply (SetLine _ _ [k] (k ++ lit " ") (lit " ") x v 0 nl); [apply bare_path; [exact B | now apply blank_of] | cbn; lia | now apply blank_of | exact V | lia | exact plain_tail].
Qed.
Lemma int_value s z : word s -> toml_from_str (toml_codec false (toml_text 80)) (setting_line (lit "k") s) = Ok (VMap [(lit "k", VInt z)]) -> value_text (means_alone false 80) 80 0 s (VInt z).
Proof. intros Ws E. apply VtWord; [exact Ws | now apply alone_of]. Qed.
Lemma text_value s : one_line s -> ~ In 39 s -> value_text (means_alone false 80) 80 0 (lit "'" ++ s ++ lit "'") (VStr s).
Proof. intros O N. exact (VtSingle _ _ 0 s O N). Qed.
Lemma farm_grammar : doc_text (means_alone false 80) 80 [] farm farm_text.
Proof.
  assert (B : forall k, k <> [] -> forallb bare_char k = true -> path_text [k] k) by (intros k N H; pose proof (bare_path k [] (bare_of k N H) (fun c J => match J with end)) as X; rewrite app_nil_r in X; exact X).
  assert (B2 : forall a k, a <> [] -> forallb bare_char a = true -> k <> [] -> forallb bare_char k = true -> path_text [a; k] (a ++ lit "." ++ k)).
  { intros a k Na Ha Nk Hk. apply (PtMore a a [] [] [k] k); [constructor; now apply bare_of | intros c [] | intros c [] | now apply B]. }
  assert (El1 : element_text 80 [lit "server"] (lit "[[server]]" ++ nl)) by (apply (ElLine 80 [lit "server"] (lit "server") [] nl); [now apply B | cbn; lia | intros c [] | exact plain_tail]).
  assert (El2 : element_text 80 [lit "server"; lit "port"] (lit "[[server.port]]" ++ nl)) by (apply (ElLine 80 [lit "server"; lit "port"] (lit "server.port") [] nl); [now apply (B2 (lit "server") (lit "port")) | cbn; lia | intros c [] | exact plain_tail]).
  assert (Pt : forall p s z, word s -> toml_from_str (toml_codec false (toml_text 80)) (setting_line (lit "k") s) = Ok (VMap [(lit "k", VInt z)]) -> doc_text (means_alone false 80) 80 p (port z) (line (lit "n") s)).
  { intros p s z Ws E. rewrite <- (app_nil_r (line _ _)). apply (DtDoc _ _ p [([lit "n"], VInt z)] [] [] (line (lit "n") s) [] []); [apply one_setting; [now apply bare_of | now apply int_value] | constructor | intros t [] | constructor]. }
  apply (DtDoc _ _ [] [([lit "size"], VInt 2)] [] _ (line (lit "size") (lit "2")) [] (lit "[[server]]" ++ nl ++ line (lit "name") (lit "'a'") ++ lit "[server.limits]" ++ nl ++ line (lit "cpu") (lit "4")
    ++ lit "[[server.port]]" ++ nl ++ line (lit "n") (lit "1") ++ lit "[[server.port]]" ++ nl ++ line (lit "n") (lit "2") ++ lit "[[server]]" ++ nl ++ line (lit "name") (lit "'b'"))).
  - apply one_setting; [now apply bare_of | apply int_value; [now apply tok_word | vm_compute; reflexivity]].
  - constructor.
  - intros t [].
  - rewrite <- (app_nil_r (_ ++ _)). apply (GtMore _ _ [] [lit "server"] _ [] _ []); [discriminate | discriminate | | constructor].
    apply (EtMore _ _ [lit "server"] (lit "[[server]]" ++ nl) _ (line (lit "name") (lit "'a'") ++ (lit "[server.limits]" ++ nl ++ line (lit "cpu") (lit "4")) ++ (lit "[[server.port]]" ++ nl ++ line (lit "n") (lit "1") ++ lit "[[server.port]]" ++ nl ++ line (lit "n") (lit "2")))
      _ (lit "[[server]]" ++ nl ++ line (lit "name") (lit "'b'"))); [exact El1 | |].
    + apply DtDoc.
      * apply one_setting; [now apply bare_of|]. apply (text_value (lit "a")); [now apply one_of | intros J; vm_compute in J; intuition discriminate].
      * apply (TbMore _ _ [lit "server"; lit "limits"] (lit "[server.limits]" ++ nl) [([lit "cpu"], VInt 4)] (line (lit "cpu") (lit "4")) [] []); [| | constructor].
        -- apply (HdLine _ [lit "server"; lit "limits"] (lit "server.limits") [] nl); [now apply (B2 (lit "server") (lit "limits")) | cbn; lia | intros c [] | exact plain_tail].
        -- apply one_setting; [now apply bare_of | apply int_value; [now apply tok_word | vm_compute; reflexivity]].
      * intros t [<-|[]]. discriminate.
      * rewrite <- (app_nil_r (_ ++ _)). apply (GtMore _ _ [lit "server"] [lit "port"] _ [] _ []); [discriminate | discriminate | | constructor].
        apply (EtMore _ _ [lit "server"; lit "port"] (lit "[[server.port]]" ++ nl) _ (line (lit "n") (lit "1")) _ (lit "[[server.port]]" ++ nl ++ line (lit "n") (lit "2"))); [exact El2 | apply Pt; [now apply tok_word | vm_compute; reflexivity] |].
        apply (EtMore _ _ [lit "server"; lit "port"] (lit "[[server.port]]" ++ nl) _ (line (lit "n") (lit "2")) [] []); [exact El2 | apply Pt; [now apply tok_word | vm_compute; reflexivity] | constructor].
    + apply (EtMore _ _ [lit "server"] (lit "[[server]]" ++ nl) _ (line (lit "name") (lit "'b'")) [] []); [exact El1 | | constructor].
      rewrite <- (app_nil_r (line _ _)). apply (DtDoc _ _ [lit "server"] _ [] [] _ [] []); [|constructor | intros t [] | constructor].
      apply one_setting; [now apply bare_of|]. apply (text_value (lit "b")); [now apply one_of | intros J; vm_compute in J; intuition discriminate].
Qed.
Example C134_example :
  doc_text (means_alone false 80) 80 [] farm farm_text /\ is_text farm_text = true /\ clear farm
  /\ exists v, toml_from_str (toml_codec false (toml_text 80)) farm_text = Ok v
     /\ de (TSeq server_ty) (v_get v (lit "server")) = Done (DSeq
          [DStruct [(lit "name", DStr (lit "a")); (lit "limits", DSome (DMap [(DStr (lit "cpu"), DInt I64 4)])); (lit "port", DSome (DSeq [DStruct [(lit "n", DInt U16 1)]; DStruct [(lit "n", DInt U16 2)]]))];
           DStruct [(lit "name", DStr (lit "b")); (lit "limits", DNone); (lit "port", DNone)]]).
Proof.
  split; [exact farm_grammar|]. split; [vm_compute; reflexivity|]. split.
  - assert (Cp : forall z, clear (port z)).
    { intros z. apply Clear; [split; [|split] | | constructor | intros ? ? [] | intros ? ? ? []].
      - repeat constructor.
      - constructor.
      - intros p h _ [].
      - intros p es d r h _ _ _ _ []. }
    assert (Cs : forall n ts gs, ts = [] \/ ts = [([lit "limits"], [([lit "cpu"], VInt 4)])] -> gs = [] \/ gs = [([lit "port"], [port 1; port 2])] -> clear (server n ts gs)).
    { intros n ts gs Ht Hg. apply Clear; [split; [|split] | | | |].
      - destruct Ht as [->| ->]; [repeat constructor|]. constructor; [|repeat constructor]. constructor; [|constructor]. apply apart_of; vm_compute; discriminate.
      - destruct Ht as [->| ->]; repeat constructor; cbn; intuition discriminate.
      - intros p h Jp Jh (r & E). destruct Ht as [->| ->]; [destruct Jh|]. vm_compute in Jp, Jh. destruct Jh as [<-|[]], Jp as [<-|[<-|[]]]; vm_compute in E; try discriminate E.
      - intros p es d r h J Jd Nd Nr Jh (z & E). destruct Ht as [->| ->]; [destruct Jh|]. destruct J as [J|[J|[]]]; injection J as <- <-; destruct Jd as [Jd|[]]; destruct d as [|a [|b d]]; try congruence; destruct r; try congruence; discriminate Jd.
      - destruct Hg as [->| ->]; repeat constructor; cbn; intuition discriminate.
      - intros g p Jg Jp. destruct Hg as [->| ->]; [destruct Jg|]. destruct Jg as [<-|[]]. destruct Ht as [->| ->]; vm_compute in Jp; intuition; subst; discriminate.
      - intros q ds d Jg Jd. destruct Hg as [->| ->]; [destruct Jg|]. destruct Jg as [[= <- <-]|[]]. destruct Jd as [<-|[<-|[]]]; apply Cp. }
    apply Clear; [split; [|split] | | | |].
    + repeat constructor.
    + constructor.
    + intros p h _ [].
    + intros p es d r h _ _ _ _ [].
    + repeat constructor; cbn; intuition discriminate.
    + intros g p [<-|[]] Jp. vm_compute in Jp. intuition; subst; discriminate.
    + intros q ds d [[= <- <-]|[]] [<-|[<-|[]]]; apply Cs; auto.
  - eexists. split; [vm_compute; reflexivity | vm_compute; reflexivity].
Qed.
