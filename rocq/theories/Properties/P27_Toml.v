(** C98, C99: TOML files. *)
From Coq Require Import ZArith Bool String Lia Permutation.
From Coq Require Import List.
Import ListNotations.
From Verif.Model Require Import Text Num Flt Value Convert Serde Visitor Paths Finder World Merge Layers Config Macro Toml TomlText.
From Verif.Spec Require Import Spec Numerals MergeSpec ConfigSpec EnvSpec FinderSpec PathSpec MacroSpec StartSpec SerdeSpec FloatSpec ShapeSpec VisitorSpec TomlSpec.
From Verif.Proofs Require Import Basics Utf8 Merge ConfigBuild Env VisitorProofs FormatTrip Files MacroProofs StartProofs TomlProofs TomlStart TomlProper.
Local Open Scope Z_scope.

(** ** C98: a Value through a TOML file.  [r]: which of the two rules for a none
    inside an array the crate has. *)

(** Under the strict rule a map is written exactly when TOML has a place for
    everything in it; nothing but a map is. *)
Theorem C98_written_exactly_when_toml_has_a_place : forall ts v, wf v ->
  (exists s, toml_to_string (toml_codec false ts) v = Ok s) <-> mapv v /\ writable v.
Proof.
  intros ts v W. split.
  - intros (s & E). apply strict_ok in E. tauto.
  - intros [M Wr]. destruct (written_document false ts v Wr M W) as (m & E & _). eauto.
Qed.
Print Assumptions C98_written_exactly_when_toml_has_a_place.

(** A refused write leaves the world alone and is reported. *)
Theorem C98_refused_writes_touch_nothing : forall ts w p v, wf v -> ~ (mapv v /\ writable v) ->
  exists m, layer_write w (LFile (toml_handler (toml_codec false ts)) p) v = (w, Err (BLayer (LSerializeError m))).
Proof.
  intros ts w p v W N. apply write_refused. intros s E. apply N. apply strict_ok in E. tauto.
Qed.
Print Assumptions C98_refused_writes_touch_nothing.

(** What is written: a proper document with the same content, except that
    entries without a value are missing and every integer is an i64. *)
Theorem C98_what_is_written : forall r ts v, wf v -> mapv v -> writable v ->
  exists m v', toml_to_string (toml_codec r ts) v = Ok (ts_print ts (TvTab m)) /\ proper_toml (TvTab m)
    /\ loads_as (TvTab m) v' /\ same_numbers true v v'.
Proof.
  intros r ts v W M Wr. destruct (written_document r ts v Wr M W) as (m & E & (Sn & Pr & _) & _).
  exists m, (doc_value (TvTab m)). split; auto. split; auto. split; auto. apply loads_doc, vequiv_refl.
Qed.
Print Assumptions C98_what_is_written.

(** What is loaded: exactly the documents the parser accepts, with their
    content. *)
Theorem C98_what_is_loaded : forall r ts s, parses_tables ts ->
  (forall t, ts_parse ts s = Ok t -> exists v, toml_from_str (toml_codec r ts) s = Ok v
     /\ loads_as t v /\ wf v /\ mapv v /\ toml_plain v)
  /\ (forall v, toml_from_str (toml_codec r ts) s = Ok v -> exists t, ts_parse ts s = Ok t /\ loads_as t v).
Proof.
  intros r ts s PT. assert (A : forall t, ts_parse ts s = Ok t -> exists v, toml_from_str (toml_codec r ts) s = Ok v
     /\ loads_as t v /\ wf v /\ mapv v /\ toml_plain v).
  { intros t P. destruct (PT s t P) as [Pr [m ->]]. destruct (load_document r ts s _ P Pr) as (v & E & V & W).
    exists v. split; auto. split; [now apply loads_doc|]. split; auto.
    split; [eapply vequiv_mapv; [exact V|]; apply doc_map; eauto | eapply plain_equiv; [exact V | apply doc_plain]]. }
  split; [exact A|]. intros v E. destruct (load_inv _ _ _ _ E) as (t & P). destruct (A t P) as (v' & E' & L & _).
  exists t. split; auto. congruence.
Qed.
Print Assumptions C98_what_is_loaded.

(** After a successful write the file layer reads the same numbers and texts,
    whatever is written elsewhere in between; no typed question tells. *)
Theorem C98_what_is_written_is_read_back : forall lim r ts w p v w', right_syntax lim ts ->
  wf v -> writable v -> shallow lim v ->
  layer_write w (LFile (toml_handler (toml_codec r ts)) p) v = (w', Ok tt) ->
  forall p', same_file w p p' -> w_can_read w p' = true ->
  forall h w'', writes w' h w'' ->
    (forall l x, In (l, x) h -> built_in (toml_codec r ts) l) ->
    (forall q x, In (LFile (toml_handler (toml_codec r ts)) q, x) h -> ~ same_file w q p) ->
  exists v', layer_read w'' (LFile (toml_handler (toml_codec r ts)) p') = Ok v' /\ wf v' /\ mapv v' /\ toml_plain v'
    /\ same_numbers true v v' /\ (forall q, alike (follow v q) (follow v' q))
    /\ (vequiv v v' <-> toml_plain v).
Proof.
  intros lim r ts w p v w' [PT RB] W Wr Sh Hw p' Sp CR h w'' Hh B Nf.
  assert (M : mapv v).
  { cbn in Hw. unfold toml_write in Hw. cbn in Hw. unfold format_to_string in Hw. cbn in Hw. unfold toml_document in Hw.
    destruct (written v Wr W) as (t & T & (_ & _ & Mt)). rewrite T in Hw. apply Mt. destruct t; try discriminate Hw. eauto. }
  destruct (trip lim r ts v W M Wr Sh RB) as (s & v' & Es & Tx & L & W' & M' & Pl & Sn).
  exists v'. split; [eapply (read_after_write (toml_codec r ts) w p v w' s v'); eauto|].
  split; auto. split; auto. split; auto. split; auto. split.
  - intros q. destruct (sn_follow true q v v' (wf_ranged _ W) (wf_ranged _ W') Sn) as (A1 & A2 & A3). eapply sn_alike; eauto.
  - split; [|intros P; now apply plain_sn]. intros V. eapply plain_equiv; [apply vequiv_sym; exact V | exact Pl].
Qed.
Print Assumptions C98_what_is_written_is_read_back.

(** What was loaded can be saved, and comes back as an equal Value. *)
Theorem C98_loaded_values_survive : forall lim r ts s v, right_syntax lim ts ->
  toml_from_str (toml_codec r ts) s = Ok v -> shallow lim v ->
  exists s' v', toml_to_string (toml_codec r ts) v = Ok s' /\ is_text s' = true
    /\ toml_from_str (toml_codec r ts) s' = Ok v' /\ vequiv v v'.
Proof.
  intros lim r ts s v [PT RB] E Sh. destruct (C98_what_is_loaded r ts s PT) as [A B].
  destruct (B v E) as (t & P & _). destruct (A t P) as (v0 & E0 & _ & W & M & Pl). assert (v0 = v) by congruence. subst v0.
  destruct (trip lim r ts v W M (plain_writable _ Pl) Sh RB) as (s' & v' & Es & Tx & L & W' & M' & Pl' & Sn).
  exists s', v'. split; auto. split; auto. split; auto. now apply plain_sn.
Qed.
Print Assumptions C98_loaded_values_survive.

(** Dates do not survive as dates: loading and saving a document turns a date
    into a table with the crate's special key. *)
Theorem C98_dates_survive_refuted : forall r ts s k d, ts_parse ts s = Ok (TvTab [(k, TvDate d)]) ->
  exists v, toml_from_str (toml_codec r ts) s = Ok v
    /\ toml_to_string (toml_codec r ts) v = Ok (ts_print ts (TvTab [(k, TvTab [(lit "$__toml_private_datetime", TvStr d)])])).
Proof.
  intros r ts s k d P. eexists. cbn. unfold format_from_str, format_to_string. cbn. rewrite P. split; reflexivity.
Qed.
Print Assumptions C98_dates_survive_refuted.

(** The other rule for nones in arrays loses data without an error: the whole
    entry is left out. *)
Theorem C98_nothing_is_lost_silently_refuted : forall lim ts, right_syntax (S lim) ts ->
  exists v s v', wf v /\ mapv v /\ toml_to_string (toml_codec true ts) v = Ok s
    /\ toml_from_str (toml_codec true ts) s = Ok v'
    /\ into_int I64 (follow v [Get (lit "a"); At 0]) = Ok 1 /\ lacks v' (lit "a").
Proof.
  intros lim ts [PT RB].
  destruct (RB [(lit "b", TvInt 2)]) as (T & t' & P & S & Pr').
  { constructor; [repeat constructor; intros []|]. intros k x [E|[]]. injection E as <- <-. split; [reflexivity|]. constructor. now apply Conversions.in_range_fits. }
  { constructor. intros k x [E|[]]. injection E as <- <-. constructor. }
  destruct (C98_what_is_loaded true ts (ts_print ts (TvTab [(lit "b", TvInt 2)])) PT) as [A _]. destruct (A t' P) as (v' & L & La & W & _).
  exists (VMap [(lit "a", VArr [VInt 1; VNone]); (lit "b", VInt 2)]), (ts_print ts (TvTab [(lit "b", TvInt 2)])), v'.
  split; [cbn; repeat split; repeat constructor; cbn; intuition discriminate|]. split; [eexists; reflexivity|].
  split; [reflexivity|]. split; [exact L|]. split; [reflexivity|].
  intros x H. inversion S as [| | | | | |? n S1 S2]; subst. inversion La as [| | | | | |? n' L1 L2]; subst.
  destruct H as (m & E & I). injection E as <-. destruct (L2 _ _ I) as (y & Iy & _). destruct (S2 _ _ Iy) as (z & Iz & _).
  destruct Iz as [Iz|[]]. discriminate Iz.
Qed.
Print Assumptions C98_nothing_is_lost_silently_refuted.

(** A syntax as required exists, and a Value that loses its entry without a
    value and its integer types. *)
Definition tx_value : value :=
  VMap [(lit "a", VArr [VUInt 1; VFloat (Flt.f64_of_Z 2); VMap []]); (lit "n", VNone); (lit "s", VStr (lit "x"))].
Example C98_example : right_syntax 80 (toml_text 80) /\ shallow 80 tx_value /\ wf tx_value /\ mapv tx_value /\ writable tx_value /\ ~ toml_plain tx_value
  /\ ~ writable (VMap [(lit "a", VArr [VNone])]) /\ ~ writable (VUInt (2 ^ 63)) /\ ~ writable (VLong 0)
  /\ exists s, toml_to_string (toml_codec false (toml_text 80)) tx_value = Ok s
       /\ toml_from_str (toml_codec false (toml_text 80)) s
          = Ok (VMap [(lit "a", VArr [VInt 1; VFloat (Flt.f64_of_Z 2); VMap []]); (lit "s", VStr (lit "x"))]).
Proof.
  split; [apply toml_text_right; lia|].
  split; [apply shallow_depth; cbn; lia|]. split; [cbn; repeat split; repeat constructor; cbn; intuition discriminate|]. split; [eexists; reflexivity|].
  split.
  { constructor. cbn [In]. intros k x [E|[E|[E|[]]]]; injection E as <- <-; [right|left; reflexivity|right; constructor].
    constructor. cbn [In]. intros y [<-|[<-|[<-|[]]]]; constructor; [lia | intros ? ? []]. }
  split. { intros P. inversion P as [| | | | |? Q]; subst. specialize (Q (lit "n") VNone (or_intror (or_introl eq_refl))). inversion Q. }
  split. { intros P. inversion P as [| | | | | |? Q]; subst. destruct (Q (lit "a") _ (or_introl eq_refl)) as [E|Q']; [discriminate E|].
    inversion Q' as [| | | | |? R|]; subst. specialize (R VNone (or_introl eq_refl)). inversion R. }
  split. { intros P. inversion P; subst. lia. }
  split. { intros P. inversion P. }
  exists [97; 32; 61; 32; 91; 10; 32; 32; 32; 32; 49; 44; 10; 32; 32; 32; 32; 50; 46; 48; 44; 10; 32; 32; 32; 32; 123; 125; 44; 10; 93; 10;
          115; 32; 61; 32; 34; 120; 34; 10].
  split; vm_compute; reflexivity.
Qed.

(** ** C99: first starts with [create_config!] *)
Theorem C99_first_start_changes_no_answer : forall lim r ts ms w cfg w' dv skip, right_syntax lim ts -> proper_defaults ms ->
  create_config (toml_codec r ts) ms w = Done (cfg, w') -> value_map_macro (ms_default ms) = Done dv -> writable dv -> shallow lim dv ->
  (forall ls ps p, In ls (ms_layers ms) -> clause_candidates w (ms_file_name ms) ls ps -> In p ps ->
     missing w p /\ w_space w p = None /\ w_can_read w p = true) ->
  match build_value w cfg skip, build_value w' cfg skip with
  | Ok x, Ok y => same_numbers true x y /\ forall q, alike (follow x q) (follow y q)
  | Err e, Err e' => e = e'
  | _, _ => False
  end.
Proof.
  intros lim r ts ms w cfg w' dv skip [PT RB] PD E V Wr Sh H.
  assert (W : wf dv) by (eapply value_map_wf; [exact PD | | exact V]; cbn; repeat constructor).
  assert (M : mapv dv) by (destruct (Containers.value_map_spec (ms_default ms)) as (v0 & E0 & M0 & _); congruence).
  destruct (trip lim r ts dv W M Wr Sh RB) as (s & dv' & Es & Tx & L & _ & _ & _ & Sn).
  pose proof (start_keeps_fresh (toml_codec r ts) ms w cfg w' dv s dv' skip E V W Es Tx L Sn (codec_proper r ts PT)) as K.
  assert (K' : rsn (build_value w cfg skip) (build_value w' cfg skip)).
  { apply K. intros ls ps p I1 I2 I3. destruct (H ls ps p I1 I2 I3) as (A & B & C). split; auto. split; auto. now left. }
  unfold rsn in K'. destruct (build_value w cfg skip) as [x|]; destruct (build_value w' cfg skip) as [y|]; auto.
  destruct K' as (Wx & Wy & S). split; auto. intros q.
  destruct (sn_follow true q x y (wf_ranged _ Wx) (wf_ranged _ Wy) S) as (A1 & A2 & A3). eapply sn_alike; eauto.
Qed.
Print Assumptions C99_first_start_changes_no_answer.

(** The same when later layers exist whose files the run does not touch. *)
Theorem C99_init_changes_no_answer : forall lim r ts ms w cfg w' dv r1 r2 skip, right_syntax lim ts -> proper_defaults ms ->
  create_config (toml_codec r ts) ms w = Done (cfg, w') -> value_map_macro (ms_default ms) = Done dv -> writable dv -> shallow lim dv ->
  registered cfg ((lit "default", LMemory dv) :: r1 ++ r2) ->
  (forall n l, In (n, l) r1 -> exists p, l = LFile (toml_handler (toml_codec r ts)) p /\ missing w p
     /\ w_space w p = None /\ w_can_read w p = true) ->
  (forall n l, In (n, l) r2 -> (exists prefix, l = env_layer_new prefix)
     \/ exists p, l = LFile (toml_handler (toml_codec r ts)) p /\ w_fs w' p = w_fs w p) ->
  match build_value w cfg skip, build_value w' cfg skip with
  | Ok x, Ok y => same_numbers true x y /\ forall q, alike (follow x q) (follow y q)
  | Err e, Err e' => e = e'
  | _, _ => False
  end.
Proof.
  intros lim r ts ms w cfg w' dv r1 r2 skip [PT RB] PD E V Wr Sh R H1 H2.
  assert (W : wf dv) by (eapply value_map_wf; [exact PD | | exact V]; cbn; repeat constructor).
  assert (M : mapv dv) by (destruct (Containers.value_map_spec (ms_default ms)) as (v0 & E0 & M0 & _); congruence).
  destruct (trip lim r ts dv W M Wr Sh RB) as (s & dv' & Es & Tx & L & _ & _ & _ & Sn).
  assert (K' : rsn (build_value w cfg skip) (build_value w' cfg skip)).
  { apply (start_keeps (toml_codec r ts) ms w cfg w' dv s dv' r1 r2 skip E V W Es Tx L Sn (codec_proper r ts PT) R); auto.
    intros n l I. destruct (H1 n l I) as (p & A & B & C & D). exists p. split; auto. split; auto. split; auto. now left. }
  unfold rsn in K'. destruct (build_value w cfg skip) as [x|]; destruct (build_value w' cfg skip) as [y|]; auto.
  destruct K' as (Wx & Wy & S). split; auto. intros q.
  destruct (sn_follow true q x y (wf_ranged _ Wx) (wf_ranged _ Wy) S) as (A1 & A2 & A3). eapply sn_alike; eauto.
Qed.
Print Assumptions C99_init_changes_no_answer.

(** Defaults that are plain TOML already: the very same effective value. *)
Theorem C99_plain_defaults_keep_the_effective_value : forall lim r ts ms w cfg w' dv skip, right_syntax lim ts -> proper_defaults ms ->
  create_config (toml_codec r ts) ms w = Done (cfg, w') -> value_map_macro (ms_default ms) = Done dv -> toml_plain dv -> shallow lim dv ->
  (forall ls ps p, In ls (ms_layers ms) -> clause_candidates w (ms_file_name ms) ls ps -> In p ps ->
     missing w p /\ w_space w p = None /\ w_can_read w p = true) ->
  requiv (build_value w cfg skip) (build_value w' cfg skip).
Proof.
  intros lim r ts ms w cfg w' dv skip [PT RB] PD E V Pl Sh H.
  assert (W : wf dv) by (eapply value_map_wf; [exact PD | | exact V]; cbn; repeat constructor).
  assert (M : mapv dv) by (destruct (Containers.value_map_spec (ms_default ms)) as (v0 & E0 & M0 & _); congruence).
  destruct (trip lim r ts dv W M (plain_writable _ Pl) Sh RB) as (s & dv' & Es & Tx & L & _ & _ & Pl' & Sn).
  apply (effective_unchanged_fresh (toml_codec r ts) ms w cfg w' dv s dv' skip E V (wf_uniq _ W) Es Tx L).
  - apply vequiv_sym. now apply plain_sn.
  - intros t v Et. apply wf_uniq. eapply codec_proper; eauto.
  - intros ls ps p I1 I2 I3. destruct (H ls ps p I1 I2 I3) as (A & B & C). split; auto. split; auto. now left.
Qed.
Print Assumptions C99_plain_defaults_keep_the_effective_value.

(** Defaults TOML has no place for: the macro creates no file, and says nothing. *)
Theorem C99_unwritable_defaults_create_nothing : forall ts ms w dv,
  value_map_macro (ms_default ms) = Done dv -> ~ writable dv ->
  exists cfg w', create_config (toml_codec false ts) ms w = Done (cfg, w')
    /\ same_system w w' /\ forall q, w_fs w' q = w_fs w q.
Proof.
  intros ts ms w dv V N. destruct (create_config_spec (toml_codec false ts) ms w) as (dv0 & h & r & cfg & w' & V' & _ & E & _).
  exists cfg, w'. split; auto. apply (start_unwritable (toml_codec false ts) ms w cfg w' dv E V).
  intros s Es. apply strict_ok in Es. tauto.
Qed.
Print Assumptions C99_unwritable_defaults_create_nothing.

(** Defaults with a u64, a none and a nested table; one init layer in a folder
    without a file. *)
Definition tx_ms : macro_spec :=
  {| ms_file_name := lit "app"; ms_default := [(lit "n", VUInt 7); (lit "o", VNone)]; ms_env := Some (lit "APP_");
     ms_layers := [{| ls_name := lit "a"; ls_dirs := [DirPath (lit "/m")]; ls_init := Some true |}] |}.
Definition tx_world : world :=
  {| w_files := fun _ => None; w_target := fun p => p; w_can_read := fun _ => true; w_can_open := fun _ => true;
     w_room := fun _ => None; w_env := [];
     w_platform := {| pf_base := Some {| bd_home := lit "/h"; bd_config := lit "/c"; bd_pref := lit "/p" |}; pf_cwd := None |} |}.
Lemma tx_runs : match create_config (toml_codec false (toml_text 80)) tx_ms tx_world with
              | Done (cfg, w') => layers_names cfg = map lit ["default"; "a"; "environment"]%string
                  /\ w_fs w' (lit "/m/app.toml") <> None
                  /\ build_value tx_world cfg false = Ok (VMap [(lit "n", VUInt 7); (lit "o", VNone)])
                  /\ build_value w' cfg false = Ok (VMap [(lit "n", VInt 7); (lit "o", VNone)])
              | _ => False
              end.
Proof. vm_compute. repeat split; discriminate. Qed.
Example C99_example : proper_defaults tx_ms
  /\ value_map_macro (ms_default tx_ms) = Done (VMap [(lit "n", VUInt 7); (lit "o", VNone)])
  /\ writable (VMap [(lit "n", VUInt 7); (lit "o", VNone)])
  /\ (forall ls ps p, In ls (ms_layers tx_ms) -> clause_candidates tx_world (ms_file_name tx_ms) ls ps -> In p ps ->
        missing tx_world p /\ w_space tx_world p = None /\ w_can_read tx_world p = true)
  /\ exists cfg w', create_config (toml_codec false (toml_text 80)) tx_ms tx_world = Done (cfg, w')
       /\ layers_names cfg = map lit ["default"; "a"; "environment"]%string
       /\ w_fs w' (lit "/m/app.toml") <> None
       /\ build_value tx_world cfg false = Ok (VMap [(lit "n", VUInt 7); (lit "o", VNone)])
       /\ build_value w' cfg false = Ok (VMap [(lit "n", VInt 7); (lit "o", VNone)]).
Proof.
  split. { intros k x [E|[E|[]]]; injection E as <- <-; split; reflexivity. }
  split; [reflexivity|].
  split. { constructor. intros k x [E|[E|[]]]; injection E as <- <-; [right; constructor; lia | now left]. }
  split; [intros; repeat split; reflexivity|].
  pose proof tx_runs as K.
  destruct (create_config (toml_codec false (toml_text 80)) tx_ms tx_world) as [[cfg w']|e|]; [|destruct K..].
  exists cfg, w'. split; [reflexivity | exact K].
Qed.
