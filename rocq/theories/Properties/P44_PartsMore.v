(** C123-C125: settings types made of parts with their own impls - after a
    start, through a TOML file - and parts that convert and check what they
    read. *)
From Coq Require Import ZArith Bool String Lia.
From Coq Require Import List.
Import ListNotations.
From Verif.Model Require Import Text Num Flt Value Merge Paths Finder World Layers Config Macro Convert Serde Visitor Toml
  Buffered BufferedSer Readers Converted.
From Verif.Model Require Import TomlText.
From Verif.Spec Require Import ReadersSpec.
From Verif.Spec Require Import Spec Numerals MergeSpec ConfigSpec EnvSpec FinderSpec PathSpec MacroSpec ReadsSpec StartSpec SerdeSpec
  FloatSpec ShapeSpec VisitorSpec TomlSpec TypedStartSpec PartsSpec.
From Verif.Proofs Require Import Basics Utf8 Merge ConfigBuild Env VisitorProofs FormatTrip Files MacroProofs Reads StartProofs TomlProofs TomlExact TomlProper
  Conversions SerProofs DeProofs SerdeMore RoundTrip Loaded ReadersProofs PartsMore.
From Verif.Properties Require Import P08_Macro P17_Start P27_Toml P37_TypedStart P40_Parts P43_TomlExact.
Local Open Scope Z_scope.

(** ** C123: after a start *)
Lemma decided_field fts v l n t x : rproper (RStruct fts) -> uniq v -> de_r (RStruct fts) v = Done (DStruct l) -> In (n, t) fts -> holds v n x ->
  exists d, In (n, d) l /\ (forall d', In (n, d') l -> d' = d) /\ de_r t x = Done d.
Proof.
  intros P U D I H. assert (NF : NoDup (map fst fts)) by (now inversion P). destruct (struct_read fts v l NF U D) as [_ F].
  destruct (Forall2_in_l _ _ _ _ F I) as ([n' d] & Id & En & R). cbn in En, R. subst n'. exists d. split; auto. split.
  - intros d' Id'. assert (Nl : map fst l = map fst fts) by (clear - F; induction F as [|? ? ? ? [E _] F IH]; cbn; congruence).
    rewrite <- Nl in NF. exact (Override.nodup_fst l n d' d NF Id' Id).
  - destruct R as [(y & Hy & R)|(L & _)]; [|destruct (L x H)]. now rewrite (holds_fun v n x y U H Hy).
Qed.
Theorem C123_each_field_is_read_by_its_part : forall tc ms w cfg w' fs v fts l n t x,
  rproper (RStruct fts) -> distinct_start ms -> proper_defaults ms -> proper_codec tc ->
  create_config tc ms w = Done (cfg, w') -> file_layers tc ms w w' fs -> build_value w' cfg true = Ok v ->
  de_r (RStruct fts) v = Done (DStruct l) -> In (n, t) fts -> decides tc ms w w' fs n x ->
  exists d, In (n, d) l /\ (forall d', In (n, d') l -> d' = d) /\ de_r t x = Done d.
Proof.
  intros tc ms w cfg w' fs v fts l n t x Pt D P C E F B De I Dc. destruct (start_uniq _ _ _ _ _ _ D P C E B) as [M U].
  eapply decided_field; eauto. exact (decides_holds _ _ _ _ _ _ _ _ _ D P C E F B Dc).
Qed.
Print Assumptions C123_each_field_is_read_by_its_part.

Lemma unmentioned_lacks tc ms w cfg w' fs v n : distinct_start ms -> proper_defaults ms -> proper_codec tc ->
  create_config tc ms w = Done (cfg, w') -> file_layers tc ms w w' fs -> build_value w' cfg true = Ok v ->
  unmentioned tc ms w w' fs n -> lacks v n.
Proof.
  intros D P C E F B (N & L & Nd) y Hy. apply (start_default tc ms w cfg w' fs v D P C E F B n N L) in Hy. exact (Nd y Hy).
Qed.

(** A struct all of whose fields are decided or unmentioned can be read exactly
    when each part reads what decides it and only Options are unmentioned. *)
Theorem C123_readable_exactly_when_each_part_reads_its_field : forall tc ms w cfg w' fs v fts,
  rproper (RStruct fts) -> distinct_start ms -> proper_defaults ms -> proper_codec tc ->
  create_config tc ms w = Done (cfg, w') -> file_layers tc ms w w' fs -> build_value w' cfg true = Ok v ->
  (forall n t, In (n, t) fts -> (exists x, decides tc ms w w' fs n x) \/ unmentioned tc ms w w' fs n) ->
  ((exists d, de_r (RStruct fts) v = Done d) <->
   forall n t, In (n, t) fts ->
     (forall x, decides tc ms w w' fs n x -> exists d, de_r t x = Done d) /\ (unmentioned tc ms w w' fs n -> exists u, t = ROption u)).
Proof.
  intros tc ms w cfg w' fs v fts Pt D P C E F B All. destruct (start_uniq _ _ _ _ _ _ D P C E B) as [M U].
  assert (NF : NoDup (map fst fts)) by (now inversion Pt). split.
  - intros (d & De) n t I. destruct (struct_done _ _ _ De) as (l & ->). split.
    + intros x Dc. destruct (C123_each_field_is_read_by_its_part tc ms w cfg w' fs v fts l n t x Pt D P C E F B De I Dc) as (d & _ & _ & R). eauto.
    + intros Un. destruct (struct_read fts v l NF U De) as [_ Fr]. destruct (Forall2_in_l _ _ _ _ Fr I) as (d & _ & _ & [(x & Hx & _)|(_ & O & _)]); auto.
      destruct (unmentioned_lacks _ _ _ _ _ _ _ _ D P C E F B Un x Hx).
  - intros H. destruct (Forall2_exists (fun f d => fst d = fst f /\
      ((exists x, holds v (fst f) x /\ de_r (snd f) x = Done (snd d))
       \/ (lacks v (fst f) /\ (exists t, snd f = ROption t) /\ snd d = DNone))) fts) as (l & Fl).
    { intros [n t] I. destruct (H n t I) as [H1 H2]. destruct (All n t I) as [(x & Dc)|Un].
      - destruct (H1 x Dc) as (d & R). exists (n, d). cbn. split; auto. left. exists x. split; auto. exact (decides_holds _ _ _ _ _ _ _ _ _ D P C E F B Dc).
      - exists (n, DNone). cbn. split; auto. right. split; auto. exact (unmentioned_lacks _ _ _ _ _ _ _ _ D P C E F B Un). }
    exists (DStruct l). now apply struct_reads.
Qed.
Print Assumptions C123_readable_exactly_when_each_part_reads_its_field.

(** A field nobody mentions is an Option, and none. *)
Theorem C123_an_unmentioned_field_is_none : forall tc ms w cfg w' fs v fts l n t,
  rproper (RStruct fts) -> distinct_start ms -> proper_defaults ms -> proper_codec tc ->
  create_config tc ms w = Done (cfg, w') -> file_layers tc ms w w' fs -> build_value w' cfg true = Ok v ->
  de_r (RStruct fts) v = Done (DStruct l) -> In (n, t) fts -> unmentioned tc ms w w' fs n ->
  (exists u, t = ROption u) /\ In (n, DNone) l.
Proof.
  intros tc ms w cfg w' fs v fts l n t Pt D P C E F B De I Un. destruct (start_uniq _ _ _ _ _ _ D P C E B) as [M U].
  assert (NF : NoDup (map fst fts)) by (now inversion Pt). destruct (struct_read fts v l NF U De) as [_ Fr].
  destruct (Forall2_in_l _ _ _ _ Fr I) as ([n' d] & Id & En & [(x & Hx & _)|(_ & O & Dn)]); cbn in *; subst.
  - destruct (unmentioned_lacks _ _ _ _ _ _ _ _ D P C E F B Un x Hx).
  - auto.
Qed.
Print Assumptions C123_an_unmentioned_field_is_none.

(** ** C124: through a TOML file *)
Theorem C124_saved_settings_come_back : forall lim E t d v r ts w p w', rproper t -> rtyped t d -> outlives E t d ->
  ser_r t d = Done v -> right_syntax lim ts -> wf v -> writable v -> shallow lim v ->
  layer_write w (LFile (toml_handler (toml_codec r ts)) p) v = (w', Ok tt) ->
  forall p', same_file w p p' -> w_can_read w p' = true ->
  forall h w'', writes w' h w'' ->
    (forall l x, In (l, x) h -> built_in (toml_codec r ts) l) ->
    (forall q x, In (LFile (toml_handler (toml_codec r ts)) q, x) h -> ~ same_file w q p) ->
  exists v' d', layer_read w'' (LFile (toml_handler (toml_codec r ts)) p') = Ok v' /\ de_r t v' = Done d' /\ same_datum E t d d'.
Proof.
  intros lim E t d v r ts w p w' P T O Sv RS W Wr Sh Hw p' Sp CR h w'' Hh B Nf.
  destruct (C98_what_is_written_is_read_back lim r ts w p v w' RS W Wr Sh Hw p' Sp CR h w'' Hh B Nf) as (v' & R & W' & _ & Tp & Sn & _).
  destruct (file_trip E t d v v' P T O Sv Sn W' Tp) as (d' & De & Sd). eauto.
Qed.
Print Assumptions C124_saved_settings_come_back.

(** A field written as none that is no Option: the file cannot be read back. *)
Theorem C124_a_field_written_as_none_is_lost : forall lim fs l n t d v r ts w p w', rproper (RStruct fs) -> rtyped (RStruct fs) (DStruct l) ->
  In (n, t) fs -> In (n, d) l -> (forall u, t <> ROption u) -> writes_none t d ->
  ser_r (RStruct fs) (DStruct l) = Done v -> right_syntax lim ts -> wf v -> shallow lim v ->
  layer_write w (LFile (toml_handler (toml_codec r ts)) p) v = (w', Ok tt) -> w_can_read w p = true ->
  exists v', layer_read w' (LFile (toml_handler (toml_codec r ts)) p) = Ok v' /\ lacks v' n /\ forall x, de_r (RStruct fs) v' <> Done x.
Proof.
  intros lim fs l n t d v r ts w p w' P T I Id No Wn Sv RS W Sh Hw CR.
  assert (Pf : NoDup (map fst fs) /\ forall n t, In (n, t) fs -> rproper t) by (now inversion P). destruct Pf as [NF Pf].
  destruct (C122_what_is_read_back lim r ts w p v w' RS W Sh Hw p eq_refl CR [] w' (WritesNil w') ltac:(intros ? ? []) ltac:(intros ? ? []))
    as (m & v' & Be & R & La & W').
  exists v'. split; auto.
  assert (M : exists es, v = VMap es /\ In (n, VNone) es /\ NoDup (map fst es)).
  { pose proof (proj1 (ser_writes _ P _ T)) as Ws. rewrite Sv in Ws.
    inversion Ws as [| | | | | | | | | |? ? es F|? ? ? ? ? ? ? ? ? ? ? Z]; subst; [|exfalso; eapply stops_not; eassumption].
    exists es. split; auto. inversion T as [| | | | | | |? ? Tl]; subst. split; [|apply wf_map in W; tauto].
    assert (In ((n, t), (n, d)) (List.combine fs l)) as Ic.
    { clear - NF Tl I Id. induction Tl as [|[k a] [k' b] fs l [Ek Tb] Tl IH]; [destruct I|]. cbn in *. subst k'. inversion NF as [|? ? N1 N2]; subst.
      assert (Nl : map fst l = map fst fs) by (clear - Tl; induction Tl as [|? ? ? ? [E _] F IH]; cbn; congruence).
      destruct I as [E1|I], Id as [E2|Id].
      - left. congruence.
      - destruct N1. injection E1 as -> ->. rewrite <- Nl. now apply (in_map fst) in Id.
      - destruct N1. injection E2 as -> ->. now apply (in_map fst) in I.
      - right. auto. }
    destruct (Forall2_in_l _ _ _ _ F Ic) as ([k x] & Ix & Ek & Wx). cbn in Ek, Wx. subst k.
    destruct (Forall2_combine _ _ _ _ _ Tl Ic) as [_ Td]. cbn in Td. pose proof (Pf _ _ I) as Pt.
    assert (x = VNone) as -> ; [|exact Ix].
    apply (none_iff t Pt d Td) in Wn. apply (wagrees_done t (ser_writes t Pt) d x Td) in Wx. congruence. }
  destruct M as (es & -> & In0 & ND).
  assert (L : lacks v' n).
  { intros x Hx. inversion La as [| | | | | |? n' L1 L2]; subst. apply holds_map in Hx. destruct (L2 _ _ Hx) as (y & Hy & _).
    destruct (proj1 (C122_keys_kept_exactly r es m ND Be n)) as (z & Hz & Nz & _); eauto.
    apply Nz. exact (Override.nodup_fst es n z VNone ND Hz In0). }
  split; auto. intros x De. destruct (struct_done _ _ _ De) as (l' & ->).
  destruct (struct_read fs v' l' NF (wf_uniq _ W') De) as [_ Fr]. destruct (Forall2_in_l _ _ _ _ Fr I) as (e & _ & _ & [(y & Hy & _)|(_ & (u & O) & _)]).
  - exact (L y Hy).
  - exact (No u O).
Qed.
Print Assumptions C124_a_field_written_as_none_is_lost.

(** Parts of a plain type outlive a file. *)
Theorem C124_plain_parts_outlive_a_file : forall t d, round_trips t -> format_safe true t -> has_type t d -> ~ data_wide d ->
  outlives data_equiv (ROwn (de t) ser) d.
Proof.
  intros t d R F H W. destruct (format_trip true t R F d H W) as (v & E & _ & S). apply OlOwn with v; auto.
  intros v' Sn Wf _. destruct (S v' Sn (wf_ranged _ Wf)) as (d' & D & _ & Q). eauto.
Qed.
Print Assumptions C124_plain_parts_outlive_a_file.

(** An untagged enum's unit variant is written as none, so a struct that holds
    one in an ordinary field cannot be read back from a TOML file, although it
    can be read back from the Value. *)
Theorem C124_what_survives_a_value_survives_a_file_refuted : exists t d v lim r ts w p w' v', rproper t /\ rtyped t d /\ keeps t d
  /\ ser_r t d = Done v /\ right_syntax lim ts /\ wf v /\ shallow lim v /\ layer_write w (LFile (toml_handler (toml_codec r ts)) p) v = (w', Ok tt)
  /\ layer_read w' (LFile (toml_handler (toml_codec r ts)) p) = Ok v' /\ forall x, de_r t v' <> Done x.
Proof.
  exists (RStruct [(lit "limit", pt_limit); (lit "n", ROwn (de (TInt U8)) ser)]),
    (DStruct [(lit "limit", DUnitVariant (lit "Off")); (lit "n", DInt U8 1)]), (VMap [(lit "limit", VNone); (lit "n", VUInt 1)]), 80%nat, false, (toml_text 80), ts_world, (lit "/m/app.toml").
  do 2 eexists. split; [apply ReadersSpec.RpStruct; [repeat constructor; cbn; intuition discriminate|]; intros n t [[= <- <-]|[[= <- <-]|[]]]; constructor|].
  split; [repeat constructor|]. split; [apply ReadersSpec.KpStruct; repeat constructor; [now apply ReadersSpec.KpOwn with VNone | now apply ReadersSpec.KpOwn with (VUInt 1)]|].
  split; [reflexivity|]. split; [apply toml_text_right; lia|]. split; [apply wf_map; split; [repeat constructor; cbn; intuition discriminate|]; intros k x [[= <- <-]|[[= <- <-]|[]]]; (split; [reflexivity|]); cbn; auto; lia|].
  split; [apply shallow_depth; cbn; lia|].
  split; [reflexivity|]. split; [reflexivity|]. intros x H. discriminate H.
Qed.
Print Assumptions C124_what_survives_a_value_survives_a_file_refuted.

(** pt_settings of C118: a tagged enum, a list of untagged enums, a map of
    String, an optional tagged enum. *)
Definition pm_datum : data := DStruct [
  (lit "store", DStructVariant (lit "file") [(lit "path", DStr (lit "/x"))]);
  (lit "limits", DSeq [DNewtypeVariant (lit "Max") (DInt U16 5); DNewtypeVariant (lit "Named") (DStr (lit "5"))]);
  (lit "notes", DMap [(DStr (lit "a"), DStr (lit "1")); (DStr (lit "b"), DStr [])]); (lit "backup", DNone)].
Lemma sn_text s v' : same_numbers true (VStr s) v' -> v' = VStr s.
Proof. intros H. inversion H as [| |? ? ? ? ? I| | | |]; subst; [inversion I | reflexivity]. Qed.
Lemma sn_plain_int z v' : same_numbers true (VUInt z) v' -> toml_plain v' -> v' = VInt z.
Proof. intros H P. inversion H as [| |? ? ? ? ? I I'| | | |]; subst. inversion I; subst. inversion I'; subst; inversion P; reflexivity. Qed.
Lemma store_outlives : outlives eq pt_store (DStructVariant (lit "file") [(lit "path", DStr (lit "/x"))]).
Proof.
  apply OlOwn with (VMap [(lit "kind", VStr (lit "file")); (lit "path", VStr (lit "/x"))]); [reflexivity|].
  intros v' Sn W _. apply sn_map_l in Sn as (n & -> & S1 & S2). apply wf_map in W as [NN _]. exists (DStructVariant (lit "file") [(lit "path", DStr (lit "/x"))]). split; [|reflexivity].
  assert (K : In (lit "kind", VStr (lit "file")) n).
  { destruct (S1 _ _ (or_introl eq_refl)) as [(y & Hy & Sy)|(_ & X & _)]; [|discriminate]. now apply sn_text in Sy as ->. }
  assert (Q : In (lit "path", VStr (lit "/x")) n).
  { destruct (S1 _ _ (or_intror (or_introl eq_refl))) as [(y & Hy & Sy)|(_ & X & _)]; [|discriminate]. now apply sn_text in Sy as ->. }
  assert (A : forall k y, In (k, y) n -> (k, y) = (lit "kind", VStr (lit "file")) \/ (k, y) = (lit "path", VStr (lit "/x"))).
  { intros k y H. destruct (S2 k y H) as (x & [E|[E|[]]] & Sy); injection E as <- <-; apply sn_text in Sy as ->; auto. }
  destruct n as [|e1 [|e2 [|e3 n]]]; [destruct K | | |].
  - destruct K as [K|[]]. destruct Q as [Q|[]]. rewrite Q in K. discriminate K.
  - destruct K as [->|[->|[]]]; destruct Q as [Q|[Q|[]]]; try discriminate Q; subst; reflexivity.
  - exfalso. destruct e1 as [k1 y1], e2 as [k2 y2], e3 as [k3 y3]. cbn in NN. inversion NN as [|? ? N1 N2]; subst. inversion N2 as [|? ? N3 N4]; subst.
    destruct (A k1 y1 ltac:(cbn; auto)) as [E1|E1], (A k2 y2 ltac:(cbn; auto)) as [E2|E2], (A k3 y3 ltac:(cbn; auto)) as [E3|E3];
      injection E1 as -> ->; injection E2 as -> ->; injection E3 as -> ->; cbn in N1, N3; tauto.
Qed.
Example C124_example : rproper pt_settings /\ rtyped pt_settings pm_datum /\ outlives eq pt_settings pm_datum
  /\ exists v, ser_r pt_settings pm_datum = Done v /\ wf v /\ writable v.
Proof.
  split; [exact (proj1 C118_example)|].
  split.
  { apply ReadersSpec.RtStruct. constructor; [|constructor; [|constructor; [|constructor; [|constructor]]]]; (split; [reflexivity|]); cbn [fst snd].
    - constructor.
    - apply ReadersSpec.RtSeq. intros d _. constructor.
    - apply ReadersSpec.RtMap; [repeat constructor; cbn; intuition discriminate|]. intros k d [[= <- <-]|[[= <- <-]|[]]]; (split; [eauto | constructor]).
    - constructor. }
  split.
  { apply OlStruct. constructor; [|constructor; [|constructor; [|constructor; [|constructor]]]]; cbn [fst snd].
    - split; [exact store_outlives|]. right. intros H. inversion H as [? ? ? X| | |]; subst. discriminate X.
    - split; [|right; intros H; inversion H]. apply OlSeq. intros d [<-|[<-|[]]].
      + apply OlOwn with (VUInt 5); [reflexivity|]. intros v' Sn _ Tp. apply sn_plain_int in Sn as ->; auto. eexists. split; reflexivity.
      + apply OlOwn with (VStr (lit "5")); [reflexivity|]. intros v' Sn _ Tp. apply sn_text in Sn as ->; auto. eexists. split; reflexivity.
    - split; [|right; intros H; inversion H]. apply OlMap. intros k d [[= <- <-]|[[= <- <-]|[]]];
        (split; [|intros H; inversion H as [? ? ? X| | |]; subst; discriminate X]).
      + apply OlOwn with (VStr (lit "1")); [reflexivity|]. intros v' Sn _ _. apply sn_text in Sn as ->. eexists. split; reflexivity.
      + apply OlOwn with (VStr []); [reflexivity|]. intros v' Sn _ _. apply sn_text in Sn as ->. eexists. split; reflexivity.
    - split; [constructor | left; eauto]. }
  eexists. split; [reflexivity|]. split.
  - cbn. repeat split; repeat constructor; cbn; intuition (discriminate || lia).
  - constructor. intros k x [[= <- <-]|[[= <- <-]|[[= <- <-]|[[= <- <-]|[]]]]]; [right|right|right|left; reflexivity].
    + constructor. intros k x [[= <- <-]|[[= <- <-]|[]]]; right; constructor.
    + constructor. intros x [<-|[<-|[]]]; constructor; lia.
    + constructor. intros k x [[= <- <-]|[[= <- <-]|[]]]; right; constructor.
Qed.

(** ** C125: parts that convert and check *)
Theorem C125_reads_exactly_what_converts : forall t conv into v,
  (forall x, de_r (converted t conv into) v = Done x <-> exists d, de_r t v = Done d /\ conv d = Ok x)
  /\ (forall e, de_r (converted t conv into) v = Fail e <->
        de_r t v = Fail e \/ exists d msg, de_r t v = Done d /\ conv d = Err msg /\ e = EDeserialization msg)
  /\ (de_r (converted t conv into) v = Panic <-> de_r t v = Panic).
Proof.
  intros t conv into v. cbn [converted de_r]. unfold de_try_from. destruct (de_r t v) as [d|e|]; cbn [obind].
  - destruct (conv d) as [x|msg] eqn:E; (split; [|split]).
    + intros y. split; [intros [= <-]; eauto | intros (d' & [= <-] & E'); congruence].
    + intros y. split; [discriminate | intros [X|(d' & m & [= <-] & E' & _)]; congruence].
    + split; discriminate.
    + intros y. split; [discriminate | intros (d' & [= <-] & E'); congruence].
    + intros y. split; [intros [= <-]; right; eauto | intros [X|(d' & m & [= <-] & E' & ->)]; congruence].
    + split; discriminate.
  - split; [|split].
    + intros y. split; [discriminate | intros (d' & X & _); discriminate].
    + intros y. split; [auto | intros [X|(d' & m & X & _)]; [auto | discriminate]].
    + split; discriminate.
  - split; [|split].
    + intros y. split; [discriminate | intros (d' & X & _); discriminate].
    + intros y. split; [discriminate | intros [X|(d' & m & X & _)]; discriminate].
    + split; auto.
Qed.
Print Assumptions C125_reads_exactly_what_converts.

(** What was written comes back exactly when the inner type gives back
    something that converts to the datum; in particular if the inner datum
    survives and the conversions are inverse. *)
Theorem C125_comes_back : forall t conv into d,
  (keeps (converted t conv into) d <-> exists v x, ser_r t (into d) = Done v /\ de_r t v = Done x /\ conv x = Ok d)
  /\ (rproper t -> rtyped t (into d) -> keeps t (into d) -> conv (into d) = Ok d -> keeps (converted t conv into) d).
Proof.
  intros t conv into d.
  assert (A : keeps (converted t conv into) d <-> exists v x, ser_r t (into d) = Done v /\ de_r t v = Done x /\ conv x = Ok d).
  { split.
    - intros K. inversion K as [? ? ? v Ws Rs| | | | | | |]; subst. apply C125_reads_exactly_what_converts with (t := t) (into := into) in Rs as (x & R & C). exists v, x. auto.
    - intros (v & x & Ws & R & C). apply ReadersSpec.KpOwn with v; auto. apply (proj1 (C125_reads_exactly_what_converts t conv into v)). eauto. }
  split; auto. intros P T K C. apply A. apply C119_comes_back_exactly_when_the_parts_do in K as (v & Ws & R); auto. eauto.
Qed.
Print Assumptions C125_comes_back.

(** An invariant every part checks holds everywhere in what was read, whatever
    the layers hold. *)
Theorem C125_no_layer_breaks_an_invariant : forall (P : data -> Prop) t w c r skip v d, rproper t ->
  (forall rd wr, own_part rd wr t -> forall x y, rd x = Done y -> P y) ->
  registered c r -> (forall n l x, In (n, l) r -> layer_read w l = Ok x -> wf x) -> build_value w c skip = Ok v ->
  de_r t v = Done d -> own_data P t d.
Proof.
  intros P t w c r skip v d Pt H R W B D. destruct (build_uniq w c r skip v R W B) as [U _].
  apply (own_holds P t H v). now apply C118_reads_exactly_this.
Qed.
Print Assumptions C125_no_layer_breaks_an_invariant.

(** A variable whose text is rejected makes the configuration unreadable. *)
Theorem C125_a_rejected_variable_fails_the_read : forall w c c0 r n prefix p v v0 skip fs k conv into s msg d,
  registered c (r ++ [(n, env_layer_new prefix)]) -> registered c0 r ->
  (forall n' l x, In (n', l) r -> layer_read w l = Ok x -> wf x) -> trimmed prefix p -> p <> [] ->
  build_value w c skip = Ok v -> build_value w c0 skip = Ok v0 -> rproper (RStruct fs) ->
  In (k, converted (ROwn (de TString) ser) conv into) fs -> last_exposed p (w_env w) k s -> conv (DStr s) = Err msg ->
  de_r (RStruct fs) v <> Done d.
Proof.
  intros w c c0 r n prefix p v v0 skip fs k conv into s msg d R R0 W T Np B B0 P Hf L C D.
  destruct (struct_done _ _ _ D) as (l & ->).
  destruct (C118_the_variable_decides_its_field w c c0 r n prefix p v v0 skip fs k _ s l R R0 W T Np B B0 P Hf L D) as (x & _ & E).
  cbn in E. unfold de_try_from in E. cbn in E. rewrite C in E. discriminate E.
Qed.
Print Assumptions C125_a_rejected_variable_fails_the_read.

(** An Option field with its own reader (#[serde(with)], deserialize_with) is
    required: a missing entry is an error. *)
Theorem C125_an_option_with_its_own_reader_is_required : forall fs n rd wr v d, rproper (RStruct fs) -> uniq v ->
  In (n, ROwn rd wr) fs -> lacks v n -> de_r (RStruct fs) v <> Done d.
Proof.
  intros fs n rd wr v d P U I L D. destruct (struct_done _ _ _ D) as (l & ->).
  assert (NF : NoDup (map fst fs)) by (now inversion P). destruct (struct_read fs v l NF U D) as [_ F].
  destruct (Forall2_in_l _ _ _ _ F I) as (e & _ & _ & [(y & Hy & _)|(_ & (u & O) & _)]); [exact (L y Hy) | discriminate O].
Qed.
Print Assumptions C125_an_option_with_its_own_reader_is_required.

(** #[serde(try_from = "u16", into = "u16")] struct Port: not zero. *)
Definition cv_port : rty := converted (ROwn (de (TInt U16)) ser)
  (fun d => match d with DInt U16 0 => Err (lit "port 0") | d => Ok (DNewtype d) end)
  (fun d => match d with DNewtype d => d | d => d end).
Definition cv_settings : rty := RStruct [(lit "x", cv_port); (lit "y", RSeq cv_port); (lit "z", ROption cv_port)].
Example C125_example : rproper cv_settings
  /\ de_r cv_port (VStr (lit "80")) = Done (DNewtype (DInt U16 80)) /\ de_r cv_port (VInt 0) = Fail (EDeserialization (lit "port 0"))
  /\ keeps cv_port (DNewtype (DInt U16 80)) /\ ~ keeps cv_port (DNewtype (DInt U16 0))
  /\ (forall rd wr, own_part rd wr cv_settings -> forall x y, rd x = Done y -> y <> DNewtype (DInt U16 0))
  /\ de_r cv_settings (VMap [(lit "x", VInt 1); (lit "y", VArr [VInt 2; VInt 3])]) =
       Done (DStruct [(lit "x", DNewtype (DInt U16 1)); (lit "y", DSeq [DNewtype (DInt U16 2); DNewtype (DInt U16 3)]); (lit "z", DNone)]).
Proof.
  split. { apply ReadersSpec.RpStruct; [repeat constructor; cbn; intuition discriminate|]. intros n t [[= <- <-]|[[= <- <-]|[[= <- <-]|[]]]]; repeat constructor. }
  split; [reflexivity|]. split; [reflexivity|]. split; [apply (proj1 (C125_comes_back _ _ _ _)); exists (VUInt 80), (DInt U16 80); repeat split|].
  split. { intros K. apply (proj1 (C125_comes_back _ _ _ _)) in K as (v & x & [= <-] & [= <-] & X). discriminate X. }
  split; [|reflexivity].
  intros rd wr O x y R.
  assert (rd = de_try_from (ROwn (de (TInt U16)) ser) (fun d => match d with DInt U16 0 => Err (lit "port 0") | d => Ok (DNewtype d) end)) as ->.
  { inversion O as [| | | | | |? n t I Ot]; subst. destruct I as [[= <- <-]|[[= <- <-]|[[= <- <-]|[]]]].
    - now inversion Ot.
    - inversion Ot as [| | |? Ot'| | |]; subst. now inversion Ot'.
    - inversion Ot as [|? Ot'| | | | |]; subst. now inversion Ot'. }
  unfold de_try_from in R. apply obind_done in R as (d & _ & R).
  destruct d as [|i z| | | | | | | | | | | | | | | | | | | |]; try (injection R as <-; congruence).
  destruct i; try (injection R as <-; congruence). destruct z; [discriminate R | injection R as <-; congruence ..].
Qed.

(** C123: the start of C87_example, its field x being a port. *)
Definition pm_type : rty := RStruct [(lit "x", cv_port); (lit "y", ROwn (de TString) ser); (lit "z", ROption cv_port)].
Example C123_example : rproper pm_type
  /\ exists cfg w' v fs, create_config mx_codec st_ms st_world = Done (cfg, w') /\ build_value w' cfg true = Ok v
     /\ file_layers mx_codec st_ms st_world w' fs
     /\ decides mx_codec st_ms st_world w' fs (lit "x") (VInt 2) /\ decides mx_codec st_ms st_world w' fs (lit "y") (VStr (lit "9"))
     /\ unmentioned mx_codec st_ms st_world w' fs (lit "z")
     /\ de_r pm_type v = Done (DStruct [(lit "x", DNewtype (DInt U16 2)); (lit "y", DStr (lit "9")); (lit "z", DNone)]).
Proof.
  split. { apply ReadersSpec.RpStruct; [repeat constructor; cbn; intuition discriminate|]. intros n t [[= <- <-]|[[= <- <-]|[[= <- <-]|[]]]]; repeat constructor. }
  destruct C115_example as (_ & _ & _ & _ & cfg & w' & v & E & B & F & D1 & D2 & U & _). exists cfg, w', v. eexists.
  split; [exact E|]. split; [exact B|]. split; [exact F|]. split; [exact D1|]. split; [exact D2|]. split; [exact U|].
  destruct C87_example as (_ & _ & _ & _ & _ & cfg0 & w0 & E0 & _ & _ & B0). rewrite E in E0. injection E0 as <- <-. rewrite B in B0. injection B0 as ->. reflexivity.
Qed.
