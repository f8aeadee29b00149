(** C122: what a TOML write keeps, leaves out and refuses. *)
From Coq Require Import ZArith Bool String Lia.
From Coq Require Import List.
Import ListNotations.
From Verif.Model Require Import Text Num Flt Value Convert Serde Visitor Paths Finder World Merge Layers Config Toml.
From Verif.Model Require Import TomlText.
From Verif.Spec Require Import Spec Numerals MergeSpec ConfigSpec EnvSpec FinderSpec PathSpec SerdeSpec VisitorSpec TomlSpec.
From Verif.Proofs Require Import Basics Conversions Utf8 Merge ConfigBuild VisitorProofs FormatTrip Files TomlProofs TomlExact TomlProper.
Local Open Scope Z_scope.

(** [r]: which of the two rules for a none inside an array the crate has
    (Model/Toml.v).  Every Value has one document or one reason, never both. *)
Theorem C122_one_document_or_one_reason : forall r v, wf v ->
  ((exists t, becomes r v t) \/ (exists w, stuck r v w))
  /\ (forall t t', becomes r v t -> becomes r v t' -> t = t')
  /\ (forall w w', stuck r v w -> stuck r v w' -> w = w')
  /\ (forall t w, becomes r v t -> ~ stuck r v w).
Proof.
  intros r v W. destruct (toml_complete r) as (B & _ & _ & S). split; [|split; [|split]].
  - pose proof (item_says r v W) as H. destruct (toml_item r (value_calls v)) as [t|e]; cbn in H; [left; eauto|]. destruct H as (w & _ & H). right; eauto.
  - intros t t' H H'. apply B in H, H'. congruence.
  - intros w w' H H'. apply S in H, H'. apply why_inj. congruence.
  - intros t w H H'. apply B in H. apply S in H'. congruence.
Qed.
Print Assumptions C122_one_document_or_one_reason.

Theorem C122_written_exactly : forall r ts v s, wf v ->
  (toml_to_string (toml_codec r ts) v = Ok s <-> exists n, becomes r v (TvTab n) /\ s = ts_print ts (TvTab n)).
Proof.
  intros r ts v s W. cbn [toml_codec toml_to_string]. unfold format_to_string. cbn [toml_format fmt_emit]. unfold toml_document.
  pose proof (item_says r v W) as H. destruct (toml_complete r) as (B & _ & _ & S). split.
  - destruct (toml_item r (value_calls v)) as [[]|]; try discriminate. intros [= <-]. eauto.
  - intros (n & Hb & ->). rewrite (B _ _ Hb). reflexivity.
Qed.
Print Assumptions C122_written_exactly.

Theorem C122_refused_exactly : forall r ts v msg, wf v ->
  (toml_to_string (toml_codec r ts) v = Err msg <->
   (exists w, stuck r v w /\ msg = toml_says w)
   \/ (~ mapv v /\ (exists t, becomes r v t) /\ msg = lit "unsupported rust type")).
Proof.
  intros r ts v msg W. cbn [toml_codec toml_to_string]. unfold format_to_string. cbn [toml_format fmt_emit]. unfold toml_document.
  pose proof (item_says r v W) as H. destruct (toml_complete r) as (B & _ & _ & S). split.
  - destruct (toml_item r (value_calls v)) as [t|e]; cbn [says_of] in H.
    + intros E. right. split; [|split; eauto; destruct t; try discriminate E; now injection E as <-].
      intros (m & ->). inversion H; subst. discriminate E.
    + intros E. left. destruct H as (w & -> & H). exists w. split; auto. injection E as <-. apply why_text.
  - intros [(w & Hs & ->)|(N & (t & Hb) & ->)].
    + rewrite (S _ _ Hs). now rewrite why_text.
    + rewrite (B _ _ Hb). destruct t; try reflexivity. destruct N. inversion Hb; subst. eexists; reflexivity.
Qed.
Print Assumptions C122_refused_exactly.

(** A refused write leaves the world as it is and reports why. *)
Theorem C122_refused_writes_say_why : forall r ts w p v why, wf v -> stuck r v why ->
  layer_write w (LFile (toml_handler (toml_codec r ts)) p) v = (w, Err (BLayer (LSerializeError (toml_says why)))).
Proof.
  intros r ts w p v why W S. cbn [layer_write toml_handler fh_write]. unfold toml_write.
  rewrite (proj2 (C122_refused_exactly r ts v (toml_says why) W)); [reflexivity | left; eauto].
Qed.
Print Assumptions C122_refused_writes_say_why.

(** What a file layer reads after a successful write, whatever rule the crate
    has: the content of the one document, nothing else. *)
Theorem C122_what_is_read_back : forall lim r ts w p v w', right_syntax lim ts -> wf v -> shallow lim v ->
  layer_write w (LFile (toml_handler (toml_codec r ts)) p) v = (w', Ok tt) ->
  forall p', same_file w p p' -> w_can_read w p' = true ->
  forall h w'', writes w' h w'' ->
    (forall l x, In (l, x) h -> built_in (toml_codec r ts) l) ->
    (forall q x, In (LFile (toml_handler (toml_codec r ts)) q, x) h -> ~ same_file w q p) ->
  exists n v', becomes r v (TvTab n) /\ layer_read w'' (LFile (toml_handler (toml_codec r ts)) p') = Ok v'
    /\ loads_as (TvTab n) v' /\ wf v'.
Proof.
  intros lim r ts w p v w' [PT RB] W Sh Hw p' Sp CR h w'' Hh B Nf.
  assert (D : exists s, toml_to_string (toml_codec r ts) v = Ok s).
  { destruct (toml_to_string (toml_codec r ts) v) as [s|e] eqn:E; [eauto|]. cbn [layer_write toml_handler fh_write] in Hw. unfold toml_write in Hw. rewrite E in Hw. discriminate Hw. }
  destruct D as (s & Es). destruct (proj1 (C122_written_exactly r ts v s W) Es) as (n & Hb & ->).
  pose proof (proj1 (becomes_proper r) _ _ Hb W) as Pr. assert (Pl : plain_doc lim (TvTab n)) by (eapply shallow_plain; [exact Sh | apply (proj1 (toml_complete r)), Hb]).
  destruct (RB n Pr Pl) as (T & t' & P & Sm & Pr').
  destruct (load_document r ts _ t' P Pr') as (v' & L & V & W').
  assert (V' : vequiv (doc_value (TvTab n)) v') by (eapply vequiv_trans; [apply doc_same; eauto | exact V]).
  exists n, v'. split; auto. split; [|split; [now apply loads_doc | exact W']].
  eapply (read_after_write (toml_codec r ts) w p v w' (ts_print ts (TvTab n)) v'); eauto.
Qed.
Print Assumptions C122_what_is_read_back.

(** Loading fails exactly when the parser does, with the parser's error. *)
Theorem C122_load_errors_are_the_parsers : forall r ts s msg, parses_tables ts ->
  (toml_from_str (toml_codec r ts) s = Err msg <-> ts_parse ts s = Err msg).
Proof.
  intros r ts s msg PT. destruct (ts_parse ts s) as [t|e] eqn:P.
  - destruct (PT s t P) as [Pr _]. destruct (load_document r ts s t P Pr) as (v & E & _). rewrite E. split; discriminate.
  - cbn [toml_from_str toml_codec]. unfold format_from_str. cbn [fmt_present toml_format]. rewrite P. cbn [visit]. split; intros [= ->]; reflexivity.
Qed.
Print Assumptions C122_load_errors_are_the_parsers.

(** The keys of the document of a map. *)
Theorem C122_keys_kept_exactly : forall r m n, NoDup (map fst m) -> becomes r (VMap m) (TvTab n) ->
  forall k, (exists y, In (k, y) n) <-> exists x, In (k, x) m /\ x <> VNone /\ ~ (r = true /\ stuck r x WhyNone).
Proof.
  intros r m n ND H. inversion H as [| | | | | |? ? E]; subst. clear H. destruct (toml_complete r) as (B & _ & _ & S).
  assert (K : forall x y, becomes r x y -> x <> VNone /\ ~ (r = true /\ stuck r x WhyNone)).
  { intros x y H. split; [intros ->; inversion H|]. intros [_ H']. apply B in H. apply S in H'. congruence. }
  induction E as [|k x m y n Hb E IH|k m n E IH|k x m n L Hs E IH]; intros q;
    [split; [intros (y & []) | intros (x & [] & _)] | destruct (IH ltac:(now inversion ND) q) as [I1 I2] ..].
  - split.
    + intros (z & [[= <- <-]|Hz]); [exists x; split; [left; reflexivity | eauto]|]. destruct I1 as (x' & Hx & Q); eauto. exists x'. split; [right; auto | auto].
    + intros (x' & [[= <- <-]|Hx] & Q); [exists y; left; reflexivity|]. destruct I2 as (z & Hz); eauto. exists z. right; auto.
  - split.
    + intros Hz. destruct (I1 Hz) as (x' & Hx & Q). exists x'. split; [right; auto | auto].
    + intros (x' & [[= <- <-]|Hx] & Q & Q'); [contradiction | eauto].
  - split.
    + intros Hz. destruct (I1 Hz) as (x' & Hx & Q). exists x'. split; [right; auto | auto].
    + intros (x' & [[= <- <-]|Hx] & Q & Q'); [destruct Q'; auto | eauto].
Qed.
Print Assumptions C122_keys_kept_exactly.

(** Whatever the strict rule writes, the lenient one writes alike; what it
    refuses, the strict one refuses. *)
Theorem C122_the_strict_rule_is_stricter : forall v, wf v ->
  (forall t, becomes false v t -> becomes true v t)
  /\ (forall w, stuck true v w -> exists w', stuck false v w')
  /\ ((exists t, becomes false v t) <-> writable v).
Proof.
  intros v W. pose proof (proj1 strict_lenient v) as L. split; auto. split.
  - intros w S. destruct (proj1 (C122_one_document_or_one_reason false v W)) as [(t & B)|E]; auto. apply L in B.
    destruct (proj2 (proj2 (proj2 (C122_one_document_or_one_reason true v W))) _ _ B S).
  - destruct (toml_complete false) as (C & _ & _ & _). split.
    + intros (t & B). eapply strict_writable. apply C, B.
    + intros Wr. destruct (written v Wr W) as (t & T & _). pose proof (item_says false v W) as H. rewrite (T false) in H. eauto.
Qed.
Print Assumptions C122_the_strict_rule_is_stricter.

(** Refuted (lenient rule): "a setting saved to a higher layer wins": the entry
    is left out of the file, and the lower layer shows through. *)
Theorem C122_a_saved_setting_wins_refuted : forall lim ts w w' p c v, right_syntax (S (S lim)) ts ->
  registered c [(lit "default", LMemory (VMap [(lit "a", VArr [VInt 1])])); (lit "user", LFile (toml_handler (toml_codec true ts)) p)] ->
  layer_write w (LFile (toml_handler (toml_codec true ts)) p) (VMap [(lit "a", VArr [VInt 2; VNone])]) = (w', Ok tt) ->
  w_can_read w p = true -> build_value w' c false = Ok v ->
  into_int I64 (follow v [Get (lit "a"); At 0]) = Ok 1.
Proof.
  intros lim ts w w' p c v RS R Hw CR E.
  assert (W : wf (VMap [(lit "a", VArr [VInt 2; VNone])])) by (cbn; repeat split; repeat constructor; cbn; intuition discriminate).
  destruct (C122_what_is_read_back (S (S lim)) true ts w p _ w' RS W ltac:(apply shallow_depth; cbn; lia) Hw p eq_refl CR [] w' ltac:(constructor) ltac:(intros ? ? []) ltac:(intros ? ? [])) as (n & v' & B & Rd & La & W').
  assert (n = []) as ->.
  { destruct n as [|[k y] n]; auto. destruct (proj1 (C122_keys_kept_exactly true [(lit "a", VArr [VInt 2; VNone])] ((k, y) :: n) ltac:(repeat constructor; intros []) B k)) as (x & [[= <- <-]|[]] & _ & N); [exists y; left; reflexivity|].
    destruct N. split; auto. apply (SkArr true [VInt 2] [TvInt 2] VNone []); [|constructor]. apply ItCons; [|constructor]. apply BeInt, in_range_fits. reflexivity. }
  inversion La as [| | | | | |? q L1 L2]; subst. assert (q = []) as -> by (destruct q as [|[k y] q]; auto; destruct (L2 k y (or_introl eq_refl)) as (x & [] & _)).
  rewrite (build_value_list w' c _ false R) in E. cbn [map snd build_list] in E.
  change (layer_read w' (LMemory (VMap [(lit "a", VArr [VInt 1])]))) with (@Ok value bak_error (VMap [(lit "a", VArr [VInt 1])])) in E.
  cbn match in E. rewrite Rd in E. injection E as <-. reflexivity.
Qed.
Print Assumptions C122_a_saved_setting_wins_refuted.

(** A map with an entry of every fate, under both rules. *)
Definition fates : value := VMap [(lit "n", VNone); (lit "a", VArr [VUInt 7; VNone; VULong 1]); (lit "t", VMap [(lit "x", VInt 5)])].
Example C122_example : wf fates
  /\ becomes true fates (TvTab [(lit "t", TvTab [(lit "x", TvInt 5)])])
  /\ stuck false fates WhyNone
  /\ stuck true (VMap [(lit "a", VArr [VULong 1; VNone])]) WhyU128
  /\ exists ts, right_syntax 80 ts.
Proof.
  split; [cbn; repeat split; repeat constructor; cbn; intuition discriminate|].
  assert (F : forall z, 0 <= z <= 7 -> fits I64 z) by (intros z H; apply fits_I64; lia).
  split.
  { apply BeMap, EnNone, EnLost; auto.
    - apply (SkArr true [VUInt 7] [TvInt 7] VNone [VULong 1]); repeat constructor; lia.
    - apply EnKeep; [|constructor]. apply BeMap, EnKeep; [|constructor]. constructor. apply F; lia. }
  split.
  { apply (SkMap false [(lit "n", VNone)] [] (lit "a") (VArr [VUInt 7; VNone; VULong 1]) [(lit "t", VMap [(lit "x", VInt 5)])]).
    - apply EnNone, EnNil.
    - apply (SkArr false [VUInt 7] [TvInt 7] VNone [VULong 1]); repeat constructor; lia.
    - right. split; [reflexivity | discriminate]. }
  split.
  { apply (SkMap true [] [] (lit "a") (VArr [VULong 1; VNone]) []); [constructor| |left; discriminate].
    apply (SkArr true [] [] (VULong 1) [VNone]); constructor. }
  exists (toml_text 80). apply toml_text_right. lia.
Qed.
