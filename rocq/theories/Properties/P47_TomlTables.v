(** C130, C131: TOML documents with tables, dotted keys, arrays and inline
    tables, written by hand (Spec/TomlGrammar.v). *)
From Coq Require Import ZArith Reals Bool String Lia.
From Coq Require Import List.
Import ListNotations.
From Verif.Model Require Import Text Num Flt Value Serde Visitor Layers Toml TomlText.
From Verif.Spec Require Import Spec Numerals TomlSpec TomlTextSpec TomlGrammar.
From Verif.Proofs Require Import Basics TomlProofs TomlLex TomlNum TomlValues TomlSim TomlHand TomlWords TomlKinds TomlTables TomlRead TomlReadValues TomlReadDoc TomlMeaning.
Local Open Scope Z_scope.

(** A word means what it means as the only setting of a file (C129 tells what that is). *)
Definition means_alone (r : bool) (lim : nat) (s : str) (v : value) : Prop :=
  exists k, bare_key k /\ toml_from_str (toml_codec r (toml_text lim)) (setting_line k s) = Ok (VMap [(k, v)]).
Lemma alone_ok r lim s v : (2 <= lim)%nat -> word s -> means_alone r lim s v -> exists t, token_value s = Some t /\ doc_value t = v.
Proof. intros L W (k & B & E). destruct (word_loaded r lim k s _ L B W E) as (t & T & V). injection V as ->. eauto. Qed.

Theorem C130_documents_load : forall lim r l ts s, (2 <= lim)%nat -> TomlGrammar.document_text (means_alone r lim) lim l ts s -> is_text s = true ->
  no_clash (paths_of l) (shape ts) -> dots_apart (paths_of l) (shape ts) ->
  exists v, toml_from_str (toml_codec r (toml_text lim)) s = Ok v /\ wf v /\ holds_exactly (all_settings l ts) (map fst ts) v.
Proof. intros lim r l ts s L. apply document_loads. intros w x Ww M. exact (alone_ok r lim w x L Ww M). Qed.
Print Assumptions C130_documents_load.

Theorem C131_what_loads_has_no_clash : forall lim r l ts s v, (2 <= lim)%nat -> TomlGrammar.document_text (means_alone r lim) lim l ts s ->
  toml_from_str (toml_codec r (toml_text lim)) s = Ok v ->
  no_clash (paths_of l) (shape ts) /\ holds_exactly (all_settings l ts) (map fst ts) v.
Proof. intros lim r l ts s v L. apply document_loaded. intros w x Ww M. exact (alone_ok r lim w x L Ww M). Qed.
Print Assumptions C131_what_loads_has_no_clash.

(** Documents whose settings have keys of one part (not dotted) load exactly when nothing clashes. *)
Theorem C131_simple_keys : forall lim r l ts s, (2 <= lim)%nat -> TomlGrammar.document_text (means_alone r lim) lim l ts s -> is_text s = true ->
  (forall h es p x, In (h, es) (([], l) :: ts) -> In (p, x) es -> List.length p = 1%nat) ->
  ((exists v, toml_from_str (toml_codec r (toml_text lim)) s = Ok v) <-> no_clash (paths_of l) (shape ts)).
Proof.
  intros lim r l ts s L D T One. split; [intros (v & E); exact (proj1 (C131_what_loads_has_no_clash lim r l ts s v L D E))|].
  intros C. destruct (C130_documents_load lim r l ts s L D T C) as (v & E & _); [|eauto].
  intros p es d x h J Jx Nd Nx _ _. assert (X : exists es' v, In (p, es') (([], l) :: ts) /\ In (d ++ x, v) es').
  { destruct J as [[= <- <-]|J].
    - apply in_map_iff in Jx as ([q v] & E & Jx). cbn [fst] in E. subst q. exists l, v. split; [now left | exact Jx].
    - apply in_map_iff in J as ([h0 es0] & [= <- <-] & J). apply in_map_iff in Jx as ([q v] & E & Jx). cbn [fst snd] in *. subst q. exists es0, v. split; [now right | exact Jx]. }
  destruct X as (es' & v & J1 & J2). pose proof (One _ _ _ _ J1 J2) as H. rewrite app_length in H. destruct d as [|? ?]; [congruence|]. destruct x as [|? ?]; [congruence|]. cbn in H. lia.
Qed.
Print Assumptions C131_simple_keys.

(** So do documents without tables, dotted keys or not. *)
Theorem C131_without_tables : forall lim r l s, (2 <= lim)%nat -> TomlGrammar.document_text (means_alone r lim) lim l [] s -> is_text s = true ->
  ((exists v, toml_from_str (toml_codec r (toml_text lim)) s = Ok v) <-> ForallOrdPairs apart (map fst l)).
Proof.
  intros lim r l s L D T. split.
  - intros (v & E). destruct (C131_what_loads_has_no_clash lim r l [] s v L D E) as ((C & _) & _). unfold all_paths, paths_of, shape in C. cbn in C. now rewrite app_nil_r in C.
  - intros A. destruct (C130_documents_load lim r l [] s L D T) as (v & E & _); [| |eauto].
    + split; [unfold all_paths, shape; cbn; now rewrite app_nil_r|]. split; [constructor|]. intros p h _ [].
    + intros p es d x h _ _ _ _ [].
Qed.
Print Assumptions C131_without_tables.

(** A document that meets the hypotheses of C130: a list over several lines, a
    dotted key, an inline table, quoted keys, escapes, [a.b] before [a]. *)
Definition nl : str := [10].
Definition sample : str :=
  lit "# settings" ++ nl ++ lit "size = [ 1, # one" ++ nl ++ lit "  0x2," ++ nl ++ lit "]" ++ nl ++ lit "x . y = ""\t\u0041"" # text" ++ nl ++ nl
  ++ lit "[a.b]" ++ nl ++ lit """p q"" = { u.v = true, w = 'C:\' }" ++ nl ++ lit "[ a ]" ++ nl ++ lit "'k' = {}" ++ nl.
Definition sample_root : list (list str * value) :=
  [([lit "size"], VArr [VInt 1; VInt 2]); ([lit "x"; lit "y"], VStr [9; 65])].
Definition sample_tables : list (list str * list (list str * value)) :=
  [([lit "a"; lit "b"], [([lit "p q"], VMap [(lit "u", VMap [(lit "v", VBool true)]); (lit "w", VStr (lit "C:\"))])]);
   ([lit "a"], [([lit "k"], VMap [])])].
Lemma blank_of s : forallb (fun c => (c =? 32) || (c =? 9)) s = true -> blank s.
Proof. intros H c J. rewrite forallb_forall in H. specialize (H c J). lia. Qed.
Lemma bare_of s : s <> [] -> forallb bare_char s = true -> bare_key s.
Proof. intros N H. split; auto. intros c J. rewrite forallb_forall in H. specialize (H c J). unfold bare_char, digit_char in H. lia. Qed.
Lemma alone_of s v : toml_from_str (toml_codec false (toml_text 80)) (setting_line (lit "k") s) = Ok (VMap [(lit "k", v)]) -> means_alone false 80 s v.
Proof. intros E. exists (lit "k"). split; [apply bare_of; [discriminate | reflexivity] | exact E]. Qed.
Lemma comment_of s : forallb (fun c => (32 <=? c) && negb (c =? 127)) s = true -> comment (35 :: s).
Proof. intros H. exists s. split; auto. intros c J. rewrite forallb_forall in H. specialize (H c J). lia. Qed.
Lemma one_of s : forallb (fun c => is_scalar c && (32 <=? c) && negb (c =? 127)) s = true -> one_line s.
Proof.
  intros H. rewrite forallb_forall in H. split; [unfold is_text; apply forallb_forall; intros c I; specialize (H c I); rewrite !andb_true_iff in H; apply H|].
  intros c I. specialize (H c I). rewrite !andb_true_iff in H. destruct H as [[_ H1] H2]. lia.
Qed.
Lemma plain_tail : line_tail nl.
Proof. exists [], [], nl. repeat split; [intros c [] | now left | now left]. Qed.
Lemma bare_path k w : bare_key k -> blank w -> path_text [k] (k ++ w).
Proof. intros B Bw. apply (PtOne k k [] w); auto; [now constructor | intros c []]. Qed.
Lemma no_gap : gap [].
Proof. exists [], []. repeat split; [constructor | intros c []]. Qed.
Lemma blank_gap w : blank w -> gap w.
Proof. intros B. exists [], w. repeat split; [constructor | exact B]. Qed.

Lemma sample_grammar : TomlGrammar.document_text (means_alone false 80) 80 sample_root sample_tables sample.
Proof.
  exists (lit "# settings" ++ nl ++ lit "size = [ 1, # one" ++ nl ++ lit "  0x2," ++ nl ++ lit "]" ++ nl ++ lit "x . y = ""\t\u0041"" # text" ++ nl ++ nl),
    (lit "[a.b]" ++ nl ++ lit """p q"" = { u.v = true, w = 'C:\' }" ++ nl ++ lit "[ a ]" ++ nl ++ lit "'k' = {}" ++ nl).
  split; [|split; [|reflexivity]].
  - apply (SsMore _ _ (lit "# settings" ++ nl) ([lit "size"], VArr [VInt 1; VInt 2]) (lit "size = [ 1, # one" ++ nl ++ lit "  0x2," ++ nl ++ lit "]" ++ nl) [([lit "x"; lit "y"], VStr [9; 65])] (lit "x . y = ""\t\u0041"" # text" ++ nl ++ nl)).
    + apply (QuLine [] (lit "# settings") nl []); [intros c [] | right; now apply comment_of | now left | constructor].
    + apply (SetLine _ _ [lit "size"] (lit "size ") (lit " ") (lit "[ 1, # one" ++ nl ++ lit "  0x2," ++ nl ++ lit "]") (VArr [VInt 1; VInt 2]) 1 nl); [apply (bare_path (lit "size") (lit " ")); [now apply bare_of | now apply blank_of] | cbn; lia | now apply blank_of | | lia | exact plain_tail].
      apply (VtArray _ _ 0 (lit " 1, # one" ++ nl ++ lit "  0x2," ++ nl ++ lit "]") [VInt 1; VInt 2]).
      apply (ItMore _ _ 0 (lit " ") (lit "1") (VInt 1) [] (lit " # one" ++ nl ++ lit "  0x2," ++ nl ++ lit "]") [VInt 2]); [apply blank_gap; now apply blank_of | | exact no_gap |].
      { apply VtWord; [now apply tok_word | apply alone_of; vm_compute; reflexivity]. }
      apply (ItMore _ _ 0 (lit " # one" ++ nl ++ lit "  ") (lit "0x2") (VInt 2) [] (nl ++ lit "]") []).
      * exists (lit " # one" ++ nl), (lit "  "). split; [|split; [now apply blank_of | reflexivity]]. apply (QuLine (lit " ") (lit "# one") nl []); [now apply blank_of | right; now apply comment_of | now left | constructor].
      * apply VtWord; [now apply tok_word | apply alone_of; vm_compute; reflexivity].
      * exact no_gap.
      * apply (ItEnd _ _ 0 nl). exists nl, []. split; [|split; [intros c [] | reflexivity]]. apply (QuLine [] [] nl []); [intros c [] | now left | now left | constructor].
    + apply (SsMore _ _ [] ([lit "x"; lit "y"], VStr [9; 65]) (lit "x . y = ""\t\u0041"" # text" ++ nl) [] nl); [constructor | | apply SsEnd; apply (QuLine [] [] nl []); [intros c [] | now left | now left | constructor]].
      apply (SetLine _ _ [lit "x"; lit "y"] (lit "x . y ") (lit " ") (lit """\t\u0041""") (VStr [9; 65]) 0 (lit " # text" ++ nl)); [| cbn; lia | now apply blank_of | | lia |].
      * apply (PtMore (lit "x") (lit "x") [] (lit " ") [lit "y"] (lit " y ")); [constructor; now apply bare_of | intros c [] | now apply blank_of |].
        apply (PtOne (lit "y") (lit "y") (lit " ") (lit " ")); [constructor; now apply bare_of | now apply blank_of..].
      * apply (VtDouble _ _ 0 (lit "\t\u0041") [9; 65]). apply (QuChar 9 (lit "\t") [65] (lit "\u0041")); [apply (QcShort 9 116); constructor|].
        apply (QuChar 65 (lit "\u0041") [] []); [|constructor]. apply (QcU4 65 [0; 0; 4; 1] (lit "0041")); [|reflexivity..]. repeat constructor; unfold digit_as; lia.
      * exists (lit " "), (lit "# text"), nl. repeat split; [now apply blank_of | right; now apply comment_of | now left].
  - apply (TbMore _ _ [lit "a"; lit "b"] (lit "[a.b]" ++ nl) [([lit "p q"], VMap [(lit "u", VMap [(lit "v", VBool true)]); (lit "w", VStr (lit "C:\"))])] (lit """p q"" = { u.v = true, w = 'C:\' }" ++ nl)
      [([lit "a"], [([lit "k"], VMap [])])] (lit "[ a ]" ++ nl ++ lit "'k' = {}" ++ nl)).
    + apply (HdLine _ [lit "a"; lit "b"] (lit "a.b") [] nl); [| cbn; lia | intros c [] | exact plain_tail].
      apply (PtMore (lit "a") (lit "a") [] [] [lit "b"] (lit "b")); [constructor; now apply bare_of | intros c [] | intros c [] |]. apply (bare_path (lit "b") []); [now apply bare_of | intros c []].
    + apply (SsMore _ _ [] ([lit "p q"], VMap [(lit "u", VMap [(lit "v", VBool true)]); (lit "w", VStr (lit "C:\"))]) (lit """p q"" = { u.v = true, w = 'C:\' }" ++ nl) [] []); [constructor | | apply SsEnd; constructor].
      apply (SetLine _ _ [lit "p q"] (lit """p q"" ") (lit " ") (lit "{ u.v = true, w = 'C:\' }") (VMap [(lit "u", VMap [(lit "v", VBool true)]); (lit "w", VStr (lit "C:\"))]) 1 nl); [| cbn; lia | now apply blank_of | | lia | exact plain_tail].
      * apply (PtOne (lit "p q") (lit """p q""") [] (lit " ")); [|intros c [] | now apply blank_of]. apply (KtDouble (lit "p q") (lit "p q")).
        assert (Q : forall k, forallb (fun c => is_scalar c && (32 <=? c) && negb (c =? 127) && negb (c =? 34) && negb (c =? 92)) k = true -> quoted k k).
        { induction k as [|c k IH]; intros H; [constructor|]. cbn in H. apply andb_true_iff in H as [H1 H2]. apply (QuChar c [c] k k); [|auto]. rewrite !andb_true_iff in H1. destruct H1 as [[[[S1 S2] S3] S4] S5].
          apply QcPlain; [split; [exact S1 | lia] | intros ->; discriminate S4 | intros ->; discriminate S5]. }
        now apply Q.
      * apply (VtTable _ _ 0 (lit " u.v = true, w = 'C:\' }") [([lit "u"; lit "v"], VBool true); ([lit "w"], VStr (lit "C:\"))]).
        2:{ repeat constructor; cbn; intuition discriminate. }
        apply (PaMore _ _ 0 [lit "u"; lit "v"] (lit " u.v ") (lit " ") (lit "true") (VBool true) [] (lit " w = 'C:\' }")); [| cbn; lia | now apply blank_of | | intros c [] |].
        { apply (PtMore (lit "u") (lit "u") (lit " ") [] [lit "v"] (lit "v ")); [constructor; now apply bare_of | now apply blank_of | intros c [] |]. apply (bare_path (lit "v") (lit " ")); [now apply bare_of | now apply blank_of]. }
        { apply VtWord; [now apply tok_word | apply alone_of; vm_compute; reflexivity]. }
        apply (PaLast _ _ 0 [lit "w"] (lit " w ") (lit " ") (lit "'C:\'") (VStr (lit "C:\")) (lit " ")); [| cbn; lia | now apply blank_of | | now apply blank_of].
        { apply (PtOne (lit "w") (lit "w") (lit " ") (lit " ")); [constructor; now apply bare_of | now apply blank_of..]. }
        { apply (VtSingle _ _ 0 (lit "C:\")); [now apply one_of | intros J; vm_compute in J; intuition discriminate]. }
    + apply (TbMore _ _ [lit "a"] (lit "[ a ]" ++ nl) [([lit "k"], VMap [])] (lit "'k' = {}" ++ nl) [] []); [| | constructor].
      * apply (HdLine _ [lit "a"] (lit " a ") [] nl); [| cbn; lia | intros c [] | exact plain_tail]. apply (PtOne (lit "a") (lit "a") (lit " ") (lit " ")); [constructor; now apply bare_of | now apply blank_of..].
      * apply (SsMore _ _ [] ([lit "k"], VMap []) (lit "'k' = {}" ++ nl) [] []); [constructor | | apply SsEnd; constructor].
        apply (SetLine _ _ [lit "k"] (lit "'k' ") (lit " ") (lit "{}") (VMap []) 1 nl); [| cbn; lia | now apply blank_of | | lia | exact plain_tail].
        -- apply (PtOne (lit "k") (lit "'k'") [] (lit " ")); [| intros c [] | now apply blank_of]. apply (KtSingle (lit "k")); [now apply one_of | intros J; vm_compute in J; intuition discriminate].
        -- apply (VtEmpty _ _ 0 []). intros c [].
Qed.
Lemma apart_of p q : firstn (List.length p) q <> p -> firstn (List.length q) p <> q -> apart p q.
Proof.
  intros H1 H2. split; intros (r & ->); [apply H1 | apply H2].
  - clear. induction p as [|x p IH]; [destruct r; reflexivity|]. cbn. now rewrite IH.
  - clear. induction q as [|x p IH]; [destruct r; reflexivity|]. cbn. now rewrite IH.
Qed.
Example C130_example :
  TomlGrammar.document_text (means_alone false 80) 80 sample_root sample_tables sample /\ is_text sample = true
  /\ no_clash (paths_of sample_root) (shape sample_tables) /\ dots_apart (paths_of sample_root) (shape sample_tables).
Proof.
  split; [exact sample_grammar|]. split; [vm_compute; reflexivity|]. split; [split; [|split]|].
  - repeat (constructor; [repeat (constructor; [apply apart_of; vm_compute; discriminate|]); constructor|]). constructor.
  - repeat constructor; cbn; intuition discriminate.
  - intros p h Jp Jh (r & E). vm_compute in Jp, Jh. destruct Jp as [<-|[<-|[<-|[<-|[]]]]], Jh as [<-|[<-|[]]]; vm_compute in E; try discriminate E; destruct r; discriminate E.
  - intros p es d r h J Jd Nd Nr Jh (z & E). assert (K : p = [] /\ d = [lit "x"]).
    { destruct d as [|a [|b d]]; [congruence | | exfalso]; destruct J as [J|[J|[J|[]]]]; injection J as <- <-; cbn [paths_of sample_root map fst app In] in Jd;
        repeat match type of Jd with _ \/ _ => destruct Jd as [Jd|Jd] | False => destruct Jd end; try (destruct r; [congruence|]; discriminate Jd); try (destruct d as [|? d]; [destruct r; [congruence | discriminate Jd] | discriminate Jd]).
      injection Jd as <- _. split; reflexivity. }
    destruct K as [-> ->]. vm_compute in Jh. destruct Jh as [<-|[<-|[]]]; discriminate E.
Qed.
