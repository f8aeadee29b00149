(** C96: types with serde attributes (default, skip_deserializing, alias, rename,
    deny_unknown_fields). *)
From Coq Require Import ZArith Bool String Lia Permutation.
From Coq Require Import List.
Import ListNotations.
From Verif.Model Require Import Text Num Flt Value Merge Paths Finder World Layers Config Convert Serde Attributes.
From Verif.Spec Require Import Spec Numerals SerdeSpec ConfigSpec EnvSpec AttrSpec.
From Verif.Proofs Require Import Basics Merge ConfigBuild Env SerProofs DeProofs ReadAs Attrs.
Local Open Scope Z_scope.

Theorem C96_reads_exactly_this : forall a v d, aproper a -> uniq v -> (de_attr a v = Done d <-> areads a v d).
Proof. intros a v d P U. apply (attr_ok a P v U). Qed.
Print Assumptions C96_reads_exactly_this.

Theorem C96_refuses_exactly_this : forall a v e, aproper a -> uniq v -> (de_attr a v = Fail e <-> arefuses a v e).
Proof. intros a v e P U. apply (attr_ok a P v U). Qed.
Print Assumptions C96_refuses_exactly_this.

(** A field given no attribute. *)
Definition bare (f : str * ty) : afield aty := Field (fst f) [] Required (APlain (snd f)).
Theorem C96_no_attributes_no_difference : forall fs v, de_attr (AStruct None (map bare fs)) v = de (TStruct fs) v.
Proof.
  intros fs v. destruct v as [| | | | | | | | |m]; try reflexivity.
  change (de_attr (AStruct None (map bare fs)) (VMap m)) with
    (obind (attr_loop None (slots (map bare fs) de_attr) m []) (fun filled => obind (attr_collect (slots (map bare fs) de_attr) filled) (fun ds => Done (DStruct ds)))).
  change (de (TStruct fs) (VMap m)) with
    (obind (struct_loop (map (fun p => {| fs_name := fst p; fs_optional := is_option (snd p); fs_de := de (snd p) |}) fs) m []) (fun filled =>
     obind (collect_fields (map (fun p => {| fs_name := fst p; fs_optional := is_option (snd p); fs_de := de (snd p) |}) fs) filled) (fun ds => Done (DStruct ds)))).
  assert (L : forall m acc, attr_loop None (slots (map bare fs) de_attr) m acc =
    struct_loop (map (fun p => {| fs_name := fst p; fs_optional := is_option (snd p); fs_de := de (snd p) |}) fs) m acc).
  { clear m. intros m. induction m as [|[k x] m IH]; intros acc; [reflexivity|]. rewrite struct_loop_step. cbn [attr_loop].
    assert (F : match find (answers k) (slots (map bare fs) de_attr),
                      find_field k (map (fun p => {| fs_name := fst p; fs_optional := is_option (snd p); fs_de := de (snd p) |}) fs) with
                | Some f, Some g => f_name f = k /\ forall y, snd (f_type f) y = fs_de g y
                | None, None => True
                | _, _ => False
                end).
    { clear. unfold slots. induction fs as [|[n t] fs IH]; [exact I|]. cbn [map find find_field fs_name fst]. unfold answers at 1. cbn [bare mk f_presence f_name f_aliases fst snd skipped negb andb existsb].
      rewrite orb_false_r. destruct (str_eqb_spec k n) as [->|N]; [split; reflexivity | exact IH]. }
    destruct (find (answers k) _) as [f|], (find_field k _) as [g|]; try contradiction.
    - destruct F as [-> F]. destruct (mget k acc); auto. rewrite F. destruct (fs_de g x); cbn [obind]; auto.
    - rewrite ignored_any_done. cbn [obind]. apply IH. }
  rewrite L. destruct (struct_loop _ m []) as [filled|e|]; cbn [obind]; auto.
  assert (C : attr_collect (slots (map bare fs) de_attr) filled =
    collect_fields (map (fun p => {| fs_name := fst p; fs_optional := is_option (snd p); fs_de := de (snd p) |}) fs) filled).
  { clear. unfold slots. induction fs as [|[n t] fs IH]; [reflexivity|]. cbn [map attr_collect collect_fields fs_name fs_optional fst snd].
    rewrite IH. reflexivity. }
  now rewrite C.
Qed.
Print Assumptions C96_no_attributes_no_difference.

(** In a configuration, a default is taken exactly when no layer mentions the field
    (by its name or an alias); otherwise the merged Value decides. *)
Lemma build_mentions w c r vs ms skip v : registered c r -> reads w r (map Ok vs) -> (forall v, In v vs -> wf v) -> only_maps vs ms ->
  build_value w c skip = Ok v -> mapv v /\ wf v /\ forall k, lacks v k <-> forall m, In m ms -> lacks m k.
Proof.
  intros R Rd W O B. destruct (build_resolution w c r vs ms skip R Rd W O) as (v' & B' & M & Wv & S). rewrite B in B'. injection B' as <-.
  split; auto. split; auto. intros k.
  assert (D : forall ms, defs k ms [] <-> forall m, In m ms -> lacks m k).
  { clear. induction ms as [|m ms IH]; [split; [intros _ m [] | intros _; constructor]|]. split.
    - intros H. inversion H; subst. intros x [<-|Hx]; [assumption|]. now apply IH.
    - intros H. apply DefsLack; [apply H; left; reflexivity|]. apply IH. intros; apply H; right; auto. }
  rewrite <- D. transitivity (sees v [k] Nothing).
  - split.
    + intros L. apply SeesNothing. intros x H. inversion H as [|? ? y ? ? Hy _]; subst. exact (L y Hy).
    + intros H x Hx. inversion H as [| |? ? N]; subst. apply (N x). eapply AtKey; [exact Hx | constructor].
  - etransitivity; [apply S|]. split.
    + intros H. inversion H as [|? ? ? Hd| | |? ? ? ? ? ? ? ? ? ? Hr]; subst; [exact Hd|]. inversion Hr.
    + intros H. now apply ResNone.
Qed.
Theorem C96_defaults_are_for_what_no_layer_mentions : forall w c r vs ms skip v deny fs l f d,
  registered c r -> reads w r (map Ok vs) -> (forall v, In v vs -> wf v) -> only_maps vs ms ->
  build_value w c skip = Ok v -> aproper (AStruct deny fs) -> de_attr (AStruct deny fs) v = Done (DStruct l) ->
  In f fs -> f_presence f = Defaulted d ->
  ((forall m k, In m ms -> known f k -> lacks m k) -> In (f_name f, d) l)
  /\ (forall m k, In m ms -> known f k -> ~ lacks m k ->
        exists x d', holds v k x /\ de_attr (f_type f) x = Done d' /\ In (f_name f, d') l /\ forall d2, In (f_name f, d2) l -> d2 = d').
Proof.
  intros w c r vs ms skip v deny fs l f d R Rd W O B P D Hf Pf.
  destruct (build_mentions w c r vs ms skip v R Rd W O B) as (M & Wv & L). pose proof (wf_uniq v Wv) as U.
  apply C96_reads_exactly_this in D; auto. inversion D as [| | | | | |? ? m ? H1 H2 F]; subst. inversion P as [| | | | |? ? Nf Un Ap]; subst.
  destruct (Forall2_in_l _ _ _ f F Hf) as ([n e] & He & En & Hd). cbn [fst snd] in En, Hd. subst n.
  assert (One : forall d2, In (f_name f, d2) l -> d2 = e).
  { intros d2 H. assert (Nl : NoDup (map fst l)).
    { assert (E : map fst l = map f_name fs) by (clear - F; induction F as [|a b l r [E _] _ IH]; cbn; congruence). now rewrite E. }
    apply (mget_iff _ _ _ Nl) in H. apply (mget_iff _ _ _ Nl) in He. congruence. }
  split.
  - intros N. destruct Hd as [(k & x & K & Hx & _)|[S|[[_ S]|(_ & S & _)]]]; try congruence.
    exfalso. apply (L k) with (x := x); auto.
  - intros m' k Hm K N. destruct Hd as [(k' & x & K' & Hx & Ra)|[S|[[Um _]|(_ & S & _)]]]; try congruence.
    + assert (k = k') as <-.
      { apply (H2 f); auto; [|destruct Hx as (m2 & [= <-] & Hx); apply (in_map fst) in Hx; exact Hx].
        destruct (in_dec (list_eq_dec Z.eq_dec) k (map fst m)) as [H|H]; auto. exfalso. apply N. apply L; auto.
        intros y (m2 & [= <-] & Hy). apply H. apply (in_map fst) in Hy; exact Hy. }
      exists x, e. split; auto. split; [|auto]. apply C96_reads_exactly_this; auto.
      destruct Hx as (m2 & [= <-] & Hx). apply uniq_map in U as [_ U]. eapply U; eauto.
    + exfalso. apply N. apply L; auto.
Qed.
Print Assumptions C96_defaults_are_for_what_no_layer_mentions.

(** Nothing configured: every field has its default, or None. *)
Theorem C96_nothing_configured : forall w deny fs, (forall f, In f fs -> f_presence f <> Required \/ optional (f_type f)) ->
  exists v, build_value w config_new false = Ok v /\
  de_attr (AStruct deny fs) v = Done (DStruct (map (fun f => (f_name f,
    match f_presence f with Required => DNone | Defaulted d | Skipped d => d end)) fs)).
Proof.
  intros w deny fs H. exists new_map. split; [reflexivity|].
  change (obind (attr_collect (slots fs de_attr) []) (fun ds => @Done data model_error (DStruct ds)) = Done (DStruct (map (fun f => (f_name f,
    match f_presence f with Required => DNone | Defaulted d | Skipped d => d end)) fs))).
  assert (E : attr_collect (slots fs de_attr) [] = Done (map (fun f => (f_name f, match f_presence f with Required => DNone | Defaulted d | Skipped d => d end)) fs)).
  { unfold slots. induction fs as [|f l IH]; [reflexivity|]. cbn [map attr_collect mget]. rewrite IH by (intros; apply H; right; auto).
    unfold absent, mk. cbn [f_presence f_type f_name fst].
    destruct (f_presence f) eqn:P; [|reflexivity..]. destruct (H f (or_introl eq_refl)) as [N|Op%is_option_iff]; [congruence|]. now rewrite Op. }
  now rewrite E.
Qed.
Print Assumptions C96_nothing_configured.

(** Denying unknown fields changes nothing but to refuse them. *)
Theorem C96_deny_only_refuses_unknown_keys : forall expected fs v d, aproper (AStruct None fs) -> uniq v ->
  (de_attr (AStruct (Some expected) fs) v = Done d <->
   de_attr (AStruct None fs) v = Done d /\ forall k, ~ lacks v k -> exists f, In f fs /\ known f k).
Proof.
  intros ex fs v d P U. assert (P' : aproper (AStruct (Some ex) fs)) by (inversion P; subst; now constructor).
  rewrite !C96_reads_exactly_this by auto. split.
  - intros H. inversion H as [| | | | | |? ? m l H1 H2 F]; subst. split; [apply ArStruct; auto; discriminate|].
    intros k N. apply (H1 ex k eq_refl). destruct (in_dec (list_eq_dec Z.eq_dec) k (map fst m)) as [Hk|Hk]; auto.
    exfalso. apply N. intros y (m2 & [= <-] & Hy). apply Hk. apply (in_map fst) in Hy; exact Hy.
  - intros [H K]. inversion H as [| | | | | |? ? m l H1 H2 F]; subst. apply ArStruct; auto.
    intros e k _ Hk. apply K. intros N. apply in_map_iff in Hk as ([k' y] & <- & Hk). apply (N y). exists m; auto.
Qed.
Print Assumptions C96_deny_only_refuses_unknown_keys.

(** So one more environment variable under the prefix can make a configuration
    unreadable. *)
Theorem C96_an_unrelated_variable_breaks_a_denying_struct : forall w c c0 r n prefix p v v0 skip expected fs k s d,
  registered c (r ++ [(n, env_layer_new prefix)]) -> registered c0 r ->
  (forall n' l x, In (n', l) r -> layer_read w l = Ok x -> wf x) -> trimmed prefix p -> p <> [] ->
  build_value w c skip = Ok v -> build_value w c0 skip = Ok v0 -> aproper (AStruct (Some expected) fs) ->
  last_exposed p (w_env w) k s -> (forall f, In f fs -> ~ known f k) ->
  de_attr (AStruct (Some expected) fs) v <> Done d.
Proof.
  intros w c c0 r n prefix p v v0 skip ex fs k s d R R0 W T Np B B0 P L N D.
  destruct (env_overrides w c c0 r n prefix p v v0 skip R R0 W T Np B B0 k) as [H _]. destruct (H s L) as [Hk _].
  assert (U : uniq v).
  { apply (build_uniq w c _ skip v R); auto. intros n' l x Hl Hr. apply in_app_iff in Hl as [Hl|[[= <- <-]|[]]]; [eauto|].
    destruct (env_layer_read w prefix p T Np) as (e & Re & _ & We & _). congruence. }
  assert (P' : aproper (AStruct None fs)) by (inversion P; subst; now constructor).
  apply (C96_deny_only_refuses_unknown_keys ex fs v d P' U) in D as [_ D]. destruct (D k) as (f & Hf & K).
  - intros Lk. exact (Lk _ Hk).
  - exact (N f Hf K).
Qed.
Print Assumptions C96_an_unrelated_variable_breaks_a_denying_struct.

(** A skipped field has its default whatever the Value says. *)
Theorem C96_skipped_fields_are_never_read : forall deny fs v l f d, aproper (AStruct deny fs) -> uniq v ->
  de_attr (AStruct deny fs) v = Done (DStruct l) -> In f fs -> f_presence f = Skipped d ->
  In (f_name f, d) l /\ forall d', In (f_name f, d') l -> d' = d.
Proof.
  intros deny fs v l f d P U D Hf S. apply C96_reads_exactly_this in D; auto. inversion D as [| | | | | |? ? m ? H1 H2 F]; subst.
  inversion P as [| | | | |? ? Nf Un Ap]; subst.
  destruct (Forall2_in_l _ _ _ f F Hf) as ([n e] & He & En & Hd). cbn [fst snd] in En, Hd. subst n.
  assert (e = d) as ->.
  { destruct Hd as [(k & x & [_ K] & _)|[S'|[[_ S']|(_ & S' & _)]]]; try congruence. }
  split; auto. intros d' H. assert (Nl : NoDup (map fst l)).
  { assert (E : map fst l = map f_name fs) by (clear - F; induction F as [|a b l r [E _] _ IH]; cbn; congruence). now rewrite E. }
  apply (mget_iff _ _ _ Nl) in H. apply (mget_iff _ _ _ Nl) in He. congruence.
Qed.
Print Assumptions C96_skipped_fields_are_never_read.

(** A Value that has all fields of a plain struct (such as a saved one, C90) and no
    other keys reads the same with any defaults, denying or not. *)
Theorem C96_complete_values_read_the_same : forall fs ps deny v d, List.length ps = List.length fs ->
  NoDup (map fst fs) -> uniq v -> (forall p, In p ps -> forall x, p <> Skipped x) ->
  de (TStruct fs) v = Done d -> (forall k, In k (map fst fs) <-> ~ lacks v k) ->
  de_attr (AStruct deny (map (fun fp => Field (fst (fst fp)) [] (snd fp) (APlain (snd (fst fp)))) (List.combine fs ps))) v = Done d.
Proof.
  intros fs ps deny v d L Nd U Sk D Ks. rewrite <- C96_no_attributes_no_difference in D.
  assert (Kb : forall f k, known (bare f) k <-> k = fst f).
  { intros f k. unfold known, bare; cbn. split; [intros [[->|[]] _]; reflexivity | intros ->; split; [auto | discriminate]]. }
  assert (Pb : aproper (AStruct None (map bare fs))).
  { constructor.
    - rewrite map_map. exact Nd.
    - intros f g k Hf Hg Kf Kg. apply in_map_iff in Hf as (f' & <- & Hf). apply in_map_iff in Hg as (g' & <- & Hg).
      apply Kb in Kf. apply Kb in Kg. f_equal. destruct f' as [a b], g' as [a' b']. cbn in *. subst.
      apply (mget_iff _ _ _ Nd) in Hf. apply (mget_iff _ _ _ Nd) in Hg. congruence.
    - intros f Hf. apply in_map_iff in Hf as (f' & <- & _). constructor. }
  set (mkf := fun fp : (str * ty) * presence => Field (fst (fst fp)) [] (snd fp) (APlain (snd (fst fp)))).
  assert (Km : forall fp k, In fp (List.combine fs ps) -> (known (mkf fp) k <-> k = fst (fst fp))).
  { intros [f p] k H. unfold known, mkf; cbn. split; [intros [[->|[]] _]; reflexivity | intros ->; split; [auto|]].
    intros x. apply Sk. eapply in_combine_r; eauto. }
  assert (Nm : map f_name (map mkf (List.combine fs ps)) = map fst fs).
  { clear - L. revert ps L. induction fs as [|f fs IH]; intros [|p ps] L; cbn in *; try discriminate; auto. f_equal. apply IH. congruence. }
  assert (Pm : aproper (AStruct deny (map mkf (List.combine fs ps)))).
  { assert (Nc : NoDup (map (fun fp : (str * ty) * presence => fst (fst fp)) (List.combine fs ps))) by (rewrite map_map in Nm; cbn in Nm; now rewrite Nm).
    constructor.
    - now rewrite Nm.
    - intros f g k Hf Hg Kf Kg. apply in_map_iff in Hf as (f' & <- & Hf). apply in_map_iff in Hg as (g' & <- & Hg).
      apply (Km f' k Hf) in Kf. apply (Km g' k Hg) in Kg. f_equal. subst k. clear - Nc Hf Hg Kg.
      induction (List.combine fs ps) as [|a l IH]; [destruct Hf|]. cbn in Nc. inversion Nc as [|? ? N1 N2]; subst.
      destruct Hf as [->|Hf], Hg as [->|Hg]; auto; exfalso; apply N1.
      + rewrite Kg. now apply (in_map (fun fp : (str * ty) * presence => fst (fst fp))) in Hg.
      + rewrite <- Kg. now apply (in_map (fun fp : (str * ty) * presence => fst (fst fp))) in Hf.
    - intros f Hf. apply in_map_iff in Hf as (f' & <- & _). constructor. }
  apply C96_reads_exactly_this in D; auto. apply C96_reads_exactly_this; auto.
  inversion D as [| | | | | |? ? m l H1 H2 F]; subst.
  assert (Kin : forall k, In k (map fst m) -> In k (map fst fs)).
  { intros k Hk. apply Ks. intros N. apply in_map_iff in Hk as ([k' y] & <- & Hk). apply (N y). exists m; auto. }
  apply ArStruct.
  - intros ex k _ Hk. apply Kin in Hk. rewrite <- Nm in Hk. apply in_map_iff in Hk as (f & <- & Hf). exists f. split; auto.
    apply in_map_iff in Hf as (fp & <- & Hf). now apply Km.
  - intros f k k' Hf K K' _ _. apply in_map_iff in Hf as (fp & <- & Hf). apply (Km fp _ Hf) in K. apply (Km fp _ Hf) in K'. congruence.
  - clear D H1 H2 Kin Pm Pb Nm. revert ps l L Sk F Km.
    assert (Ks' : forall k, In k (map fst fs) -> ~ lacks (VMap m) k) by (intros; now apply Ks). clear Ks Nd. revert Ks'.
    induction fs as [|f fs IH]; intros Ks [|p ps] l L Sk F Km; cbn in L; try discriminate; inversion F as [|? d ? l' [E H] F']; subst; cbn [List.combine map]; constructor.
    + split; [exact E|]. left. destruct H as [(k & x & K & Hx & Ra)|[S|[[Um _]|(Um & _)]]].
      * exists k, x. split; [|split; auto]. apply Km; [left; reflexivity|]. now apply Kb.
      * discriminate S.
      * exfalso. apply (Ks (fst f)); [left; reflexivity|]. apply Um. now apply Kb.
      * exfalso. apply (Ks (fst f)); [left; reflexivity|]. apply Um. now apply Kb.
    + apply IH; auto; [intros; apply Ks; right; auto | intros; apply Sk; right; auto | intros; apply Km; right; auto].
Qed.
Print Assumptions C96_complete_values_read_the_same.

(** #[serde(deny_unknown_fields)] struct Server { #[serde(alias = "addr")] host: String,
    #[serde(default = "80")] port: u16, tls: Option<bool>, #[serde(skip_deserializing)] seen: u8 } *)
Definition at_server : aty := AStruct (Some [lit "host"; lit "addr"; lit "port"; lit "tls"])
  [Field (lit "host") [lit "addr"] Required (APlain TString);
   Field (lit "port") [] (Defaulted (DInt U16 80)) (APlain (TInt U16));
   Field (lit "tls") [] Required (AOption (APlain TBool));
   Field (lit "seen") [] (Skipped (DInt U8 0)) (APlain (TInt U8))].
Example C96_example : aproper (AMap at_server)
  /\ de_attr (AMap at_server) (VMap [(lit "a", VMap [(lit "addr", VStr (lit "x"))])]) =
     Done (DMap [(DStr (lit "a"), DStruct [(lit "host", DStr (lit "x")); (lit "port", DInt U16 80); (lit "tls", DNone); (lit "seen", DInt U8 0)])])
  /\ de_attr at_server (VMap [(lit "addr", VStr (lit "x")); (lit "port", VStr (lit "8080")); (lit "host", VInt 1)]) =
     Fail (EDeserialization (lit "duplicate field `host`"))
  /\ de_attr at_server (VMap [(lit "addr", VStr (lit "x")); (lit "seen", VInt 1)]) =
     Fail (EDeserialization (lit "unknown field `seen`, expected one of `host`, `addr`, `port`, `tls`"))
  /\ de_attr at_server (VMap [(lit "tls", VBool true)]) = Fail (EDeserialization (lit "missing field `host`")).
Proof.
  split; [|repeat split; reflexivity]. constructor. constructor.
  - repeat constructor; cbn; intuition discriminate.
  - assert (K : forall f k, In f [Field (lit "host") [lit "addr"] Required (APlain TString); Field (lit "port") [] (Defaulted (DInt U16 80)) (APlain (TInt U16));
        Field (lit "tls") [] Required (AOption (APlain TBool)); Field (lit "seen") [] (Skipped (DInt U8 0)) (APlain (TInt U8))] -> known f k ->
        (f_name f = lit "host" /\ (k = lit "host" \/ k = lit "addr")) \/ (f_name f = lit "port" /\ k = lit "port") \/ (f_name f = lit "tls" /\ k = lit "tls")).
    { intros f k [<-|[<-|[<-|[<-|[]]]]] [H N]; cbn [f_name f_aliases f_presence In] in *; [| | |exfalso; eapply N; reflexivity].
      - left; intuition.
      - right; left; intuition.
      - right; right; intuition. }
    intros f g k Hf Hg Kf Kg. apply K in Kf; auto. apply K in Kg; auto.
    assert (E : f_name f = f_name g).
    { destruct Kf as [[-> [->| ->]]|[[-> ->]|[-> ->]]], Kg as [[-> [X|X]]|[[-> X]|[-> X]]]; try reflexivity; discriminate X. }
    destruct Hf as [<-|[<-|[<-|[<-|[]]]]], Hg as [<-|[<-|[<-|[<-|[]]]]]; try reflexivity; discriminate E.
  - intros f [<-|[<-|[<-|[<-|[]]]]]; repeat constructor.
Qed.
