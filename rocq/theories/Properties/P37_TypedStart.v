(** C115: typed settings after a start - [create_config!], [build_value], then
    deserialising the result. *)
From Coq Require Import ZArith Bool String Lia Permutation.
From Coq Require Import List.
Import ListNotations.
From Verif.Model Require Import Text Num Flt Value Merge Paths Finder World Layers Config Macro Convert Serde Visitor Toml.
From Verif.Model Require Import TomlText.
From Verif.Spec Require Import Spec Numerals MergeSpec ConfigSpec EnvSpec FinderSpec PathSpec MacroSpec ReadsSpec StartSpec SerdeSpec
  FloatSpec ShapeSpec VisitorSpec TomlSpec.
From Verif.Proofs Require Import Basics Utf8 Merge ConfigBuild Env VisitorProofs FormatTrip Files MacroProofs Reads StartProofs TomlProofs TomlStart TomlProper
  Conversions SerProofs DeProofs SerdeMore RoundTrip Loaded.
From Verif.Spec Require Import ReadSpec SettleSpec TypedStartSpec.
From Verif.Proofs Require Import ReadAs Override Settle SameReads.
From Verif.Properties Require Import P08_Macro P17_Start.

(** What the program's type is read as, out of the defaults, the files of the
    clauses and the environment: exactly what these settle. *)
Theorem C115_typed_settings_after_a_start : forall t tc ms w, proper t -> text_maps t ->
  distinct_start ms -> proper_defaults ms -> proper_codec tc ->
  exists dv cfg w' fs mm v,
    value_map_macro (ms_default ms) = Done dv /\ create_config tc ms w = Done (cfg, w') /\ file_layers tc ms w w' fs
    /\ Forall2 (contributes tc w') (LMemory dv :: map (fun np => LFile (toml_handler tc) (snd np)) fs ++ map snd (env_registration ms)) mm
    /\ build_value w' cfg true = Ok v
    /\ (forall d, de t v = Done d -> settled t (concat mm) d)
    /\ (forall d, settled t (concat mm) d -> exists d', de t v = Done d' /\ data_equiv d d').
Proof.
  intros t tc ms w Pt Tt D P C.
  destruct (start_build tc ms w D P C) as (dv & cfg & w' & fs & fm & em & V & M & W & E & R & En & G & F & X & B & Pr).
  exists dv, cfg, w', fs, ([dv] :: fm ++ em), (merge_all (dv :: concat fm ++ concat em)).
  split; [auto|]. split; [auto|]. split; [exists dv; auto|]. split.
  { constructor; [constructor; apply M|]. apply Forall2_app; apply exactly_contributes; auto. }
  split; [auto|]. cbn [concat]. rewrite concat_app. cbn [app].
  apply (de_settled t Pt Tt). intros u I. destruct (Pr u I). split; auto. now apply wf_uniq.
Qed.
Print Assumptions C115_typed_settings_after_a_start.

Lemma start_uniq tc ms w cfg w' v : distinct_start ms -> proper_defaults ms -> proper_codec tc ->
  create_config tc ms w = Done (cfg, w') -> build_value w' cfg true = Ok v -> mapv v /\ uniq v.
Proof.
  intros D P C E B. destruct (start_value tc ms w D P C) as (dv & cfg0 & w0 & fs & mm & v0 & _ & _ & E0 & _ & _ & B0 & M & W & _).
  rewrite E in E0. injection E0 as <- <-. rewrite B in B0. injection B0 as <-. split; auto. now apply wf_uniq.
Qed.
Lemma decides_holds tc ms w cfg w' fs v k x : distinct_start ms -> proper_defaults ms -> proper_codec tc ->
  create_config tc ms w = Done (cfg, w') -> file_layers tc ms w w' fs -> build_value w' cfg true = Ok v ->
  decides tc ms w w' fs k x -> holds v k x.
Proof.
  intros D P C E F B [s G|before n p after m y N Ef A H Nm L|y N L Lb].
  - exact (start_env_wins tc ms w cfg w' fs v D P C E F B k s G).
  - exact (start_last_file tc ms w cfg w' fs v D P C E F B k before n p after m y N Ef A H Nm L).
  - apply (start_default tc ms w cfg w' fs v D P C E F B k N L). exact Lb.
Qed.
Lemma struct_field fts v l n t : NoDup (map fst fts) -> uniq v -> reads_as (TStruct fts) v (DStruct l) -> In (n, t) fts ->
  exists d, In (n, d) l /\ (forall d', In (n, d') l -> d' = d)
    /\ ((exists x, holds v n x /\ reads_as t x d) \/ (lacks v n /\ (exists u, t = TOption u) /\ d = DNone)).
Proof.
  intros ND U R I. inversion R as [| | | | | | | | | | | | | | |? ? ? M F|]; subst.
  destruct (Forall2_in_l _ _ _ _ F I) as ([n' d] & Id & En & H). cbn in En, H. subst n'. exists d. split; auto. split; auto.
  intros d' Id'. assert (Nl : map fst l = map fst fts) by (clear - F; induction F as [|? ? ? ? [E _] F IH]; cbn; congruence).
  rewrite <- Nl in ND. exact (nodup_fst l n d' d ND Id' Id).
Qed.

(** Each field is read from what decides it. *)
Theorem C115_each_field_is_read_from_what_decides_it : forall tc ms w cfg w' fs v fts l n t x,
  proper (TStruct fts) -> distinct_start ms -> proper_defaults ms -> proper_codec tc ->
  create_config tc ms w = Done (cfg, w') -> file_layers tc ms w w' fs -> build_value w' cfg true = Ok v ->
  de (TStruct fts) v = Done (DStruct l) -> In (n, t) fts -> decides tc ms w w' fs n x ->
  exists d, In (n, d) l /\ (forall d', In (n, d') l -> d' = d) /\ reads_as t x d.
Proof.
  intros tc ms w cfg w' fs v fts l n t x Pt D P C E F B De I Dc. destruct (start_uniq _ _ _ _ _ _ D P C E B) as [M U].
  pose proof (decides_holds _ _ _ _ _ _ _ _ _ D P C E F B Dc) as H. apply (de_reads _ Pt v U) in De.
  assert (ND : NoDup (map fst fts)) by (inversion Pt; subst; tauto). destruct (struct_field fts v l n t ND U De I) as (d & I1 & I2 & [(y & Hy & R)|(L & _)]).
  - exists d. split; auto. split; auto. rewrite <- (at_path_fun v [n] y x U (AtKey _ _ _ _ _ Hy (AtHere _)) (AtKey _ _ _ _ _ H (AtHere _))). exact R.
  - destruct (L x H).
Qed.
Print Assumptions C115_each_field_is_read_from_what_decides_it.

(** A field nobody mentions is an Option, and none. *)
Theorem C115_an_unmentioned_field_is_none : forall tc ms w cfg w' fs v fts l n t,
  proper (TStruct fts) -> distinct_start ms -> proper_defaults ms -> proper_codec tc ->
  create_config tc ms w = Done (cfg, w') -> file_layers tc ms w w' fs -> build_value w' cfg true = Ok v ->
  de (TStruct fts) v = Done (DStruct l) -> In (n, t) fts -> unmentioned tc ms w w' fs n ->
  (exists u, t = TOption u) /\ In (n, DNone) l /\ forall d', In (n, d') l -> d' = DNone.
Proof.
  intros tc ms w cfg w' fs v fts l n t Pt D P C E F B De I (N & L & Nd). destruct (start_uniq _ _ _ _ _ _ D P C E B) as [M U].
  apply (de_reads _ Pt v U) in De. assert (ND : NoDup (map fst fts)) by (inversion Pt; subst; tauto).
  destruct (struct_field fts v l n t ND U De I) as (d & I1 & I2 & [(y & Hy & R)|(_ & O & ->)]); [|auto].
  apply (start_default tc ms w cfg w' fs v D P C E F B n N L) in Hy. destruct (Nd y Hy).
Qed.
Print Assumptions C115_an_unmentioned_field_is_none.

(** One setting its field's type does not accept, or one required field nobody
    mentions, fails the whole read (with an error). *)
Theorem C115_one_wrong_setting_fails_the_read : forall tc ms w cfg w' fs v fts n t,
  proper (TStruct fts) -> no_enum (TStruct fts) -> distinct_start ms -> proper_defaults ms -> proper_codec tc ->
  create_config tc ms w = Done (cfg, w') -> file_layers tc ms w w' fs -> build_value w' cfg true = Ok v ->
  In (n, t) fts ->
  (exists x, decides tc ms w w' fs n x /\ forall d, ~ reads_as t x d) \/ (unmentioned tc ms w w' fs n /\ forall u, t <> TOption u) ->
  exists e, de (TStruct fts) v = Fail e.
Proof.
  intros tc ms w cfg w' fs v fts n t Pt NE D P C E F B I H.
  destruct (de (TStruct fts) v) as [d|e|] eqn:De; [exfalso | eauto | destruct (de_no_panic _ NE v De)].
  destruct (start_uniq _ _ _ _ _ _ D P C E B) as [M U]. pose proof (proj1 (de_reads _ Pt v U) d De) as R.
  assert (exists l, d = DStruct l) as (l & ->) by (inversion R; eauto).
  destruct H as [(x & Dc & Bad)|(Un & No)].
  - destruct (C115_each_field_is_read_from_what_decides_it tc ms w cfg w' fs v fts l n t x Pt D P C E F B De I Dc) as (d & _ & _ & Rd). exact (Bad d Rd).
  - destruct (C115_an_unmentioned_field_is_none tc ms w cfg w' fs v fts l n t Pt D P C E F B De I Un) as ((u & O) & _). exact (No u O).
Qed.
Print Assumptions C115_one_wrong_setting_fails_the_read.

(** Creating the missing file with the defaults changes no typed settings: what
    could be read before the file was written is read afterwards. *)
Theorem C115_settings_survive_the_first_start : forall lim t r ts ms w cfg w' dv skip x d,
  proper t -> text_maps t -> format_safe true t -> right_syntax lim ts -> proper_defaults ms ->
  create_config (toml_codec r ts) ms w = Done (cfg, w') -> value_map_macro (ms_default ms) = Done dv -> writable dv -> shallow lim dv ->
  (forall ls ps p, In ls (ms_layers ms) -> clause_candidates w (ms_file_name ms) ls ps -> In p ps ->
     missing w p /\ w_space w p = None /\ w_can_read w p = true) ->
  build_value w cfg skip = Ok x -> de t x = Done d ->
  exists y d', build_value w' cfg skip = Ok y /\ de t y = Done d' /\ data_equiv d d'.
Proof.
  intros lim t r ts ms w cfg w' dv skip x d Pt Tt Ft [PT RB] PD E V Wr Sh H B De.
  assert (W : wf dv) by (eapply value_map_wf; [exact PD | | exact V]; cbn; repeat constructor).
  assert (M : mapv dv) by (destruct (Containers.value_map_spec (ms_default ms)) as (v0 & E0 & M0 & _); congruence).
  destruct (trip lim r ts dv W M Wr Sh RB) as (s & dv' & Es & Tx & L & _ & _ & _ & Sn).
  pose proof (start_keeps_fresh (toml_codec r ts) ms w cfg w' dv s dv' skip E V W Es Tx L Sn (codec_proper r ts PT)) as K.
  assert (K' : rsn (build_value w cfg skip) (build_value w' cfg skip)).
  { apply K. intros ls ps p I1 I2 I3. destruct (H ls ps p I1 I2 I3) as (A1 & A2 & A3). split; auto. split; auto. now left. }
  unfold rsn in K'. rewrite B in K'. destruct (build_value w' cfg skip) as [y|]; [|destruct K']. destruct K' as (Wx & Wy & S).
  destruct (sn_de true t x y d Pt Tt Ft S (wf_ranged _ Wx) (wf_ranged _ Wy) De) as (d' & D' & Q). exists y, d'. auto.
Qed.
Print Assumptions C115_settings_survive_the_first_start.

(** The converse fails: a none inside a list of maps makes the settings
    unreadable on the first start, before the file is written; TOML drops it, so
    afterwards they can be read. *)
Definition ts_spec (defaults : list (str * value)) : macro_spec :=
  {| ms_file_name := lit "app"; ms_default := defaults; ms_env := None;
     ms_layers := [{| ls_name := lit "a"; ls_dirs := [DirPath (lit "/m")]; ls_init := Some true |}] |}.
Definition ts_world : world :=
  {| w_files := fun _ => None; w_target := fun p => p; w_can_read := fun _ => true; w_can_open := fun _ => true;
     w_room := fun _ => None; w_env := [];
     w_platform := {| pf_base := Some {| bd_home := lit "/h"; bd_config := lit "/c"; bd_pref := lit "/p" |}; pf_cwd := None |} |}.
Definition ts_nones : list (str * value) := [(lit "l", VArr [VMap [(lit "a", VNone)]])].
Definition ts_maps : ty := TStruct [(lit "l", TSeq (TMap TString (TInt U8)))].
Theorem C115_the_first_start_reads_what_the_second_does_refuted : exists t r ts ms w cfg w' dv x y d e,
  proper t /\ text_maps t /\ format_safe true t /\ proper_defaults ms
  /\ create_config (toml_codec r ts) ms w = Done (cfg, w') /\ value_map_macro (ms_default ms) = Done dv /\ writable dv
  /\ build_value w cfg false = Ok x /\ build_value w' cfg false = Ok y
  /\ de t x = Fail e /\ de t y = Done d.
Proof.
  exists ts_maps, false, (toml_text 80), (ts_spec ts_nones), ts_world. do 7 eexists.
  split. { apply PrStruct; [repeat constructor; cbn; tauto|]. intros n t [[= <- <-]|[]]. apply PrSeq, PrMap; [constructor | now apply PrFlat]. }
  split. { apply TmStruct; [repeat constructor; cbn; tauto|]. intros n t [[= <- <-]|[]]. repeat constructor. }
  split. { apply FsStruct. intros n t [[= <- <-]|[]]. split; [|intros _; left; constructor]. apply FsSeq, FsMap; [now apply FsFlat | intros _; constructor]. }
  split. { intros k x [[= <- <-]|[]]. split; [reflexivity|]. cbn. repeat split; repeat constructor; cbn; tauto. }
  split; [reflexivity|]. split; [reflexivity|].
  split. { constructor. intros k x [[= <- <-]|[]]. right. constructor. intros x [<-|[]]. constructor. intros k x [[= <- <-]|[]]. now left. }
  split; [reflexivity|]. split; [reflexivity|]. split; reflexivity.
Qed.
Print Assumptions C115_the_first_start_reads_what_the_second_does_refuted.

(** The start of C87_example, read as struct { x: u8, y: u16, z: Option<bool> }. *)
Definition ts_type : ty := TStruct [(lit "x", TInt U8); (lit "y", TInt U16); (lit "z", TOption TBool)].
Example C115_example : proper ts_type /\ text_maps ts_type /\ no_enum ts_type /\ format_safe true ts_type
  /\ exists cfg w' v, create_config mx_codec st_ms st_world = Done (cfg, w') /\ build_value w' cfg true = Ok v
     /\ file_layers mx_codec st_ms st_world w' [(lit "local", lit "/n/app.toml"); (lit "global", lit "/e/app.toml")]
     /\ decides mx_codec st_ms st_world w' [(lit "local", lit "/n/app.toml"); (lit "global", lit "/e/app.toml")] (lit "x") (VInt 2)
     /\ decides mx_codec st_ms st_world w' [(lit "local", lit "/n/app.toml"); (lit "global", lit "/e/app.toml")] (lit "y") (VStr (lit "9"))
     /\ unmentioned mx_codec st_ms st_world w' [(lit "local", lit "/n/app.toml"); (lit "global", lit "/e/app.toml")] (lit "z")
     /\ de ts_type v = Done (DStruct [(lit "x", DInt U8 2); (lit "y", DInt U16 9); (lit "z", DNone)]).
Proof.
  split. { apply PrStruct; [repeat constructor; cbn; intuition discriminate|]. intros n t [[= <- <-]|[[= <- <-]|[[= <- <-]|[]]]]; [now apply PrFlat | now apply PrFlat | apply PrOption; now apply PrFlat]. }
  split. { apply TmStruct; [repeat constructor; cbn; intuition discriminate|]. intros n t [[= <- <-]|[[= <- <-]|[[= <- <-]|[]]]]; repeat constructor. }
  split. { apply NeStruct. intros n t [[= <- <-]|[[= <- <-]|[[= <- <-]|[]]]]; repeat constructor. }
  split. { apply FsStruct. intros n t [[= <- <-]|[[= <- <-]|[[= <- <-]|[]]]]; (split; [repeat constructor|]); intros _; [left; constructor.. | right; eauto]. }
  destruct C87_example as (_ & _ & _ & Gy & Gx & cfg & w' & E & F & A & B). exists cfg, w'. eexists. split; [exact E|]. split; [exact B|].
  split; [exact F|].
  assert (X : forall p m, file_answer mx_codec w' p (Ok m) -> layer_read w' (LFile (toml_handler mx_codec) p) = Ok m)
    by (intros p m; apply file_answer_iff).
  assert (R1 : match create_config mx_codec st_ms st_world with
               | Done (_, w0) => layer_read w0 (LFile (toml_handler mx_codec) (lit "/n/app.toml")) = Ok (VMap [(lit "x", VInt 1)])
               | _ => False
               end) by reflexivity.
  rewrite E in R1. apply file_answer_iff in A.
  split; [|split; [|split; [|reflexivity]]].
  - apply (DcFile _ _ _ _ _ _ [(lit "local", lit "/n/app.toml")] (lit "global") (lit "/e/app.toml") [] (VMap [(lit "x", VInt 2)])); auto.
    + apply file_answer_iff. exact A.
    + apply holds_map. left; reflexivity.
    + intros [? ?]; discriminate.
    + intros n p m [].
  - now apply DcVariable.
  - split; [|split].
    + intros s (prefix & p & Ep & T & Np & (before & kv & after & Ev & Y & _)). injection Ep as <-. apply trimmed_iff in T.
      vm_compute in T. subst p. destruct before as [|? [|? ?]]; try discriminate. injection Ev as <- _.
      apply expose_spec in Y; [|discriminate]. vm_compute in Y. discriminate.
    + intros n p m [[= <- <-]|[[= <- <-]|[]]] R; apply X in R; rewrite R in *; [injection R1 as -> | injection A as ->]; apply lacks_mget; reflexivity.
    + intros x (before & after & Eb & _). destruct before as [|? [|? ?]]; discriminate.
Qed.
