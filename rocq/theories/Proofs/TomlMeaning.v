(** What the tables built from a document hold (C130, C131). *)
From Coq Require Import ZArith Bool String Lia.
From Coq Require Import List.
Import ListNotations.
From Verif.Model Require Import Text Num Flt Value Serde Visitor Layers Toml TomlText.
From Verif.Spec Require Import Spec Numerals TomlSpec TomlTextSpec TomlGrammar.
From Verif.Proofs Require Import Basics TomlProofs TomlLex TomlNum TomlValues TomlDoc TomlProper TomlSim TomlJoin TomlFrame TomlHand TomlWords TomlKinds TomlTables TomlRead TomlReadValues TomlReadDoc.
Local Open Scope Z_scope.

Definition shown (n : node) : value := doc_value (of_node n).
Lemma shown_holds i d m k y : holds (shown (NTab i d m)) k y <-> exists n, In (k, n) m /\ y = shown n.
Proof.
  unfold shown. cbn [of_node doc_value]. rewrite map_map. split.
  - intros (m' & [= <-] & J). apply in_map_iff in J as ([k' n] & [= <- <-] & J). eauto.
  - intros (n & J & ->). eexists. split; [reflexivity|]. apply in_map_iff. exists (k, n). auto.
Qed.
Lemma node_get k (m : list (str * node)) n : mget k m = Some n -> In (k, n) m.
Proof. induction m as [|[k' x] m IH]; cbn [mget]; [discriminate|]. destruct (str_eqb_spec k k') as [->|N]; [intros [= ->]; now left | intros E; right; auto]. Qed.
Lemma node_in k (m : list (str * node)) n : NoDup (map fst m) -> In (k, n) m -> mget k m = Some n.
Proof.
  induction m as [|[k' x] m IH]; cbn [mget map fst]; intros D J; [destruct J|]. inversion D; subst. destruct J as [[= -> ->]|J]; [now rewrite str_eqb_refl|].
  destruct (str_eqb_spec k k') as [->|N]; auto. exfalso. match goal with H : ~ In _ _ |- _ => apply H end. apply in_map_iff. exists (k', n). auto.
Qed.
Lemma at_value p : forall n t, nkat n p = Some (KVal t) -> at_path (shown n) p (doc_value t).
Proof.
  induction p as [|k p IH]; intros n t E; cbn [nkat] in E.
  - destruct n; try discriminate E. injection E as ->. constructor.
  - destruct n as [|i d m|]; try discriminate E. destruct (mget k m) as [n|] eqn:K; [|discriminate E]. apply (AtKey _ k (shown n)); auto. apply shown_holds. eauto using node_get.
Qed.
Lemma at_table p : forall n i d, nkat n p = Some (KTab i d) -> exists m, at_path (shown n) p (VMap m).
Proof.
  induction p as [|k p IH]; intros n i d E; cbn [nkat] in E.
  - destruct n; try discriminate E. eexists. constructor.
  - destruct n as [|i' d' m|]; try discriminate E. destruct (mget k m) as [n|] eqn:K; [|discriminate E]. destruct (IH n i d E) as (m' & A). exists m'. apply (AtKey _ k (shown n)); auto. apply shown_holds. eauto using node_get.
Qed.
Lemma at_inv q : forall n y, proper_toml (of_node n) -> (forall p, nkat n p <> Some KArr) -> at_path (shown n) q y ->
  nkat n q <> None \/ exists p t, begins p q /\ nkat n p = Some (KVal t).
Proof.
  induction q as [|k q IH]; intros n y P NA A; [left; discriminate|]. destruct n as [t|i d m|l].
  - right. exists [], t. split; [exists (k :: q); reflexivity | reflexivity].
  - inversion A as [|? ? z ? ? H A']; subst. apply shown_holds in H as (n & J & ->). cbn [of_node] in P. inversion P as [| | | | | |? D Pm]; subst.
    rewrite map_map in D. cbn [fst] in D. pose proof (node_in k m n D J) as G. destruct (IH n y) as [H|(p & t & B & H)]; auto.
    + destruct (Pm k (of_node n)) as [_ Pn]; [apply in_map_iff; exists (k, n); auto | exact Pn].
    + intros p. specialize (NA (k :: p)). cbn [nkat] in NA. now rewrite G in NA.
    + left. cbn [nkat]. now rewrite G.
    + right. exists (k :: p), t. split; [destruct B as (r & ->); exists r; reflexivity|]. cbn [nkat]. now rewrite G.
  - destruct (NA [] eq_refl).
Qed.
Lemma at_equiv p : forall a b x, vequiv a b -> at_path a p x -> exists y, at_path b p y /\ vequiv x y.
Proof.
  induction p as [|k p IH]; intros a b x V A; inversion A as [|? ? z ? ? H A']; subst; [exists b; split; [constructor | exact V]|].
  destruct H as (m & -> & J). inversion V as [? Sc|?|? ? V1 V2]; subst; [destruct Sc|]. destruct (V1 _ _ J) as (z' & J' & Vz). destruct (IH _ _ _ Vz A') as (y & Ay & Vy).
  exists y. split; auto. apply (AtKey _ k z'); auto. exists n. auto.
Qed.

Lemma kat_strict m q r k : kat m (q ++ r) = Some k -> r <> [] -> exists i d, kat m q = Some (KTab i d).
Proof. intros E N. unfold kat in *. apply (nkat_app q _ r); auto. congruence. Qed.
Lemma plain_in (x : list str) v tl : In (x, v) (map plain_pair tl) <-> exists t, In (x, t) tl /\ v = doc_value t.
Proof. rewrite in_map_iff. split; [intros ([p t] & [= <- <-] & J); eauto | intros (t & J & ->); exists (x, t); auto]. Qed.
(** The settings of a document. *)
Lemma all_in tl tt (p : list str) v : In (p, v) (all_settings (map plain_pair tl) (map plain_table tt)) <-> exists h es x t, In (h, es) (([], tl) :: tt) /\ In (x, t) es /\ p = h ++ x /\ v = doc_value t.
Proof.
  unfold all_settings. rewrite in_app_iff, in_flat_map. split.
  - intros [J|([h es'] & J & Jx)].
    + apply plain_in in J as (t & J & ->). exists [], tl, p, t. repeat split; auto. now left.
    + apply in_map_iff in J as ([h0 es] & [= <- <-] & J). apply in_map_iff in Jx as ([x v'] & [= <- <-] & Jx). cbn [fst snd] in *. apply plain_in in Jx as (t & Jx & ->).
      exists h0, es, x, t. repeat split; auto. now right.
  - intros (h & es & x & t & [[= <- <-]|J] & Jx & -> & ->); [left; apply plain_in; eauto|]. right. exists (h, map plain_pair es). split; [apply in_map_iff; exists (h, es); auto|].
    apply in_map_iff. exists (x, doc_value t). cbn [fst snd]. split; auto. apply plain_in. eauto.
Qed.
Lemma heads_plain tt : map fst (map plain_table tt) = map fst tt.
Proof. rewrite map_map. reflexivity. Qed.
Lemma paths_plain tl tt : all_paths (paths_of (map plain_pair tl)) (shape (map plain_table tt)) = doc_paths (([], tl) :: tt).
Proof.
  unfold all_paths, paths_of, shape, doc_paths. cbn [flat_map fst snd app]. f_equal; [rewrite map_map; apply map_ext; reflexivity|]. rewrite map_map. induction tt as [|[h es] tt IH]; [reflexivity|]. cbn [map flat_map fst snd plain_table]. f_equal; [|exact IH].
  unfold paths_of. rewrite !map_map. reflexivity.
Qed.
Lemma shape_heads tt : map fst (shape (map plain_table tt)) = map fst tt.
Proof. unfold shape. rewrite !map_map. reflexivity. Qed.
Lemma doc_paths_in D q : In q (doc_paths D) <-> exists p es x t, In (p, es) D /\ In (x, t) es /\ q = p ++ x.
Proof.
  unfold doc_paths. rewrite in_flat_map. split.
  - intros ([p es] & J & Jx). apply in_map_iff in Jx as ([x t] & <- & Jx). cbn [fst snd] in *. eauto 8.
  - intros (p & es & x & t & J & Jx & ->). exists (p, es). split; auto. apply in_map_iff. exists (x, t). auto.
Qed.
Lemma clear_spec tl tt : ppaths tl -> (forall h es, In (h, es) tt -> h <> [] /\ ppaths es) ->
  no_clash (paths_of (map plain_pair tl)) (shape (map plain_table tt)) -> dots_apart (paths_of (map plain_pair tl)) (shape (map plain_table tt)) -> tclear (([], tl) :: tt).
Proof.
  intros Pl N (C1 & C2 & C3) D. unfold dots_apart in D. rewrite shape_heads in *. rewrite paths_plain in *. constructor.
  - exact C1.
  - cbn [map fst]. constructor; [|exact C2]. intros J. apply in_map_iff in J as ([h es] & E & J). cbn [fst] in E. subst h. exact (proj1 (N _ _ J) eq_refl).
  - intros p es x t h hs J Jx [[= <- <-]|J2] Nh; [congruence|]. apply C3; [apply doc_paths_in; eauto 8 | apply in_map_iff; exists (h, hs); auto].
  - intros p es d r t h hs J Jx Nd Nr [[= <- <-]|J2] Nh; [congruence|]. apply (D p (paths_of (map plain_pair es)) d r h); auto.
    + destruct J as [[= <- <-]|J]; [now left|]. right. apply in_map_iff. exists (plain_table (p, es)). split; [reflexivity | now apply in_map].
    + unfold paths_of. rewrite map_map. apply in_map_iff. exists (d ++ r, t). auto.
    + apply in_map_iff. exists (h, hs). auto.
  - intros p es x t [[= <- <-]|J] Jx; [eapply Pl; eauto | eapply (proj2 (N _ _ J)); eauto].
Qed.
Lemma holds_document tl tt m v : proper_toml (TvTab (table_entries m)) -> thist (([], tl) :: tt) m -> vequiv (doc_value (TvTab (table_entries m))) v ->
  holds_exactly (all_settings (map plain_pair tl) (map plain_table tt)) (map fst (map plain_table tt)) v.
Proof.
  intros P I V. change (doc_value (TvTab (table_entries m))) with (shown (NTab false false m)) in V. rewrite heads_plain. split; [|split].
  - intros p x J. apply all_in in J as (h & es & x0 & t & J & Jx & -> & ->). pose proof (th_leaf _ _ I _ _ _ _ J Jx) as K.
    destruct (at_equiv _ _ _ _ V (at_value _ _ _ K)) as (y & A & E). eauto.
  - intros h J. apply in_map_iff in J as ([h0 es] & <- & J). cbn [fst]. pose proof (th_head _ _ I h0 es (or_intror J)) as K. destruct (at_table _ _ _ _ K) as (n & A).
    destruct (at_equiv _ _ _ _ V A) as (y & A' & E). inversion E as [? Sc|?|]; subst; [destruct Sc | eauto].
  - intros q y A. destruct (at_equiv _ _ _ _ (vequiv_sym _ _ V) A) as (y0 & A0 & _).
    destruct (at_inv q (NTab false false m) y0 P (th_arr _ _ I) A0) as [K|(q1 & t & B & K)].
    + destruct (nkat (NTab false false m) q) as [k|] eqn:Ek; [|congruence]. destruct (th_only _ _ I q k Ek) as (p & es & J & [B|(x & t & Jx & B)]).
      * destruct J as [[= <- <-]|J]; [destruct B as (r & B); left; now destruct q | right; right; exists p; split; auto; apply in_map_iff; exists (p, es); auto].
      * right. left. exists (p ++ x), (doc_value t). split; [apply all_in; eauto 8 | now left].
    + change (kat m q1 = Some (KVal t)) in K. destruct (th_only _ _ I q1 _ K) as (p & es & J & [B1|(x & t' & Jx & B1)]).
      * destruct B1 as (r & ->). destruct (list_eq_dec (list_eq_dec Z.eq_dec) r []) as [->|Nr].
        -- pose proof (th_head _ _ I _ _ J) as K2. rewrite app_nil_r in K2. congruence.
        -- destruct (kat_strict m q1 r _ (th_head _ _ I _ _ J) Nr) as (i & d & K2). congruence.
      * destruct B1 as (r & E). pose proof (th_leaf _ _ I _ _ _ _ J Jx) as K2. destruct (list_eq_dec (list_eq_dec Z.eq_dec) r []) as [->|Nr].
        -- rewrite app_nil_r in E. right. left. exists (p ++ x), (doc_value t'). split; [apply all_in; eauto 8|]. right. now rewrite E.
        -- rewrite E in K2. destruct (kat_strict m q1 r _ K2 Nr) as (i & d & K3). congruence.
Qed.

Section Load.
Context (W : str -> value -> Prop) (lim : nat) (Wok : forall s v, word s -> W s v -> exists t, token_value s = Some t /\ doc_value t = v).
Lemma document_loads r l ts s : TomlGrammar.document_text W lim l ts s -> is_text s = true -> no_clash (paths_of l) (shape ts) -> dots_apart (paths_of l) (shape ts) ->
  exists v, toml_from_str (toml_codec r (toml_text lim)) s = Ok v /\ wf v /\ holds_exactly (all_settings l ts) (map fst ts) v.
Proof.
  intros D T C A. destruct (document_read W lim Wok l ts s D) as (tl & tt & <- & <- & Pl & N & R).
  destruct (document_ok tl tt (clear_spec tl tt Pl N C A) (fun h es J => proj1 (N h es J))) as (m0 & m & E0 & E1 & I). rewrite E0, E1 in R.
  destruct (load_root r lim s m T R) as (v & E & V & Wf). exists v. split; auto. split; auto. eapply holds_document; [|exact (document_inv tl tt m0 m Pl N E0 E1) | exact V].
  assert (Q : ts_parse (toml_text lim) s = Ok (TvTab (table_entries m))) by (apply crate_parse; eauto). exact (proj1 (toml_text_tables lim s _ Q)).
Qed.
Lemma document_loaded r l ts s v : TomlGrammar.document_text W lim l ts s -> toml_from_str (toml_codec r (toml_text lim)) s = Ok v ->
  no_clash (paths_of l) (shape ts) /\ holds_exactly (all_settings l ts) (map fst ts) v.
Proof.
  intros D E. destruct (load_iff r lim s v E) as (m & T & R & V & _).
  assert (Q : ts_parse (toml_text lim) s = Ok (TvTab (table_entries m))) by (apply crate_parse; eauto). pose proof (proj1 (toml_text_tables lim s _ Q)) as PT.
  destruct (document_read W lim Wok l ts s D) as (tl & tt & <- & <- & Pl & N & R2). rewrite R2 in R.
  destruct (put_entries tl []) as [m0|] eqn:E0; [|discriminate R]. pose proof (document_inv tl tt m0 m Pl N E0 R) as H. split; [|eapply holds_document; eauto].
  unfold no_clash. rewrite shape_heads, paths_plain. split; [exact (th_apart _ _ H)|]. split.
  - pose proof (th_heads _ _ H) as Hh. cbn [map fst] in Hh. now inversion Hh.
  - intros p h Jp Jh. apply doc_paths_in in Jp as (p0 & es & x & t & J & Jx & ->). apply in_map_iff in Jh as ([h0 hs] & <- & Jh). cbn [fst]. exact (th_before _ _ H p0 es x t h0 hs J Jx (or_intror Jh) (proj1 (N _ _ Jh))).
Qed.
End Load.
