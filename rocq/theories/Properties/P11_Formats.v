(** C70-C74: Values and arbitrary serde formats. *)
From Coq Require Import ZArith Bool String Lia Permutation.
From Coq Require Import List.
Import ListNotations.
From Verif.Model Require Import Text Num Flt Value Convert Serde Visitor Paths Finder World Merge Layers.
From Verif.Spec Require Import Spec Numerals EnvSpec SerdeSpec FloatSpec ShapeSpec VisitorSpec PathSpec.
From Verif.Proofs Require Import Basics Utf8 DeProofs RoundTrip SerdeMore VisitorProofs VisitorMore FormatTrip Files.
Open Scope Z_scope.

(** ** C70: reading a Value from any format *)
Theorem C70_reads_what_is_presented : forall e v, visit e = Ok v -> reads_as e v.
Proof. exact visit_reads. Qed.
Print Assumptions C70_reads_what_is_presented.

Theorem C70_succeeds_exactly_when_readable : forall e,
  (exists v, visit e = Ok v) <-> ~ unreadable e.
Proof.
  intros e; split.
  - intros (v & H) U. exact (visit_unreadable e U v H).
  - intros N. destruct (visit_total e) as [H|H]; [exact H | contradiction].
Qed.
Print Assumptions C70_succeeds_exactly_when_readable.

(** The error is the format's own, or serde's text for the first thing in the
    way, front to back. *)
Theorem C70_the_first_obstacle_is_reported : forall e msg, visit e = Err msg <-> obstacle e msg.
Proof. exact obstacle_iff. Qed.
Print Assumptions C70_the_first_obstacle_is_reported.

Theorem C70_what_is_presented_determines_the_value : forall e v v', sound_event e ->
  reads_as e v -> reads_as e v' -> vequiv v v'.
Proof. intros e v v' S H H'. exact (reads_fun e S v v' H H'). Qed.
Print Assumptions C70_what_is_presented_determines_the_value.

Theorem C70_values_read_are_well_formed : forall e v, sound_event e -> visit e = Ok v -> wf v.
Proof. intros e v S H. exact (reads_wf e S v (visit_reads e v H)). Qed.
Print Assumptions C70_values_read_are_well_formed.

Definition fx_event : event :=
  EvMap [(EvStr (lit "a"), EvSeq [EvInt U8 7; EvSome (EvChar 120); EvNone]);
         (EvChar 97, EvInt I128 (2 ^ 100)); (EvBytes [98], EvF64 (Flt.f64_of_Z 2))].
Example C70_example : sound_event fx_event
  /\ visit fx_event = Ok (VMap [(lit "a", VLong (2 ^ 100)); (lit "b", VFloat (Flt.f64_of_Z 2))])
  /\ unreadable (EvSeq [EvUnit; EvMap [(EvInt I64 1, EvUnit)]])
  /\ visit (EvSeq [EvUnit; EvBytes [1]])
     = Err (lit "invalid type: byte array, expected a valid configuration value").
Proof.
  split; [|split; [reflexivity|split; [|reflexivity]]].
  - constructor. cbn [In]. intros k e [[= <- <-]|[[= <- <-]|[[= <- <-]|[]]]]; split; try (constructor; reflexivity).
    + constructor. cbn [In]. intros e [<-|[<-|[<-|[]]]]; repeat constructor; cbv; intuition discriminate.
    + constructor. cbv; intuition discriminate.
  - apply (UrSeq _ (EvMap [(EvInt I64 1, EvUnit)])); [cbn; auto|].
    apply (UrKey _ (EvInt I64 1) EvUnit); [cbn; auto|]. intros s K; inversion K.
Qed.

(** ** C71: formats that keep everything *)
Theorem C71_faithful_formats_give_the_value_back : forall v e, uniq v -> faithful (value_calls v) e ->
  exists v', visit e = Ok v' /\ vequiv v v'.
Proof. intros v e U F. exact (faithful_back e v U F). Qed.
Print Assumptions C71_faithful_formats_give_the_value_back.

(** The Value itself is such a format. *)
Theorem C71_a_value_is_a_faithful_format : forall v, uniq v ->
  faithful (value_calls v) (value_events v)
  /\ exists v', visit (value_events v) = Ok v' /\ de TValue v = Done (DValue v) /\ vequiv v v'.
Proof.
  intros v U. split; [apply faithful_own|]. destruct (visit_own v U) as (v' & H & E). exists v'. split; auto. split; auto.
  cbn [de]. rewrite de_value_identity by auto. reflexivity.
Qed.
Print Assumptions C71_a_value_is_a_faithful_format.

Definition fx_value : value :=
  VMap [(lit "n", VNone); (lit "l", VArr [VUInt 1; VLong (-5); VStr (lit "x")]); (lit "o", VInt 3)].
Lemma fx_value_wf : wf fx_value.
Proof. cbn. repeat split; repeat constructor; cbn; intuition discriminate. Qed.
Example C71_example : uniq fx_value
  /\ faithful (value_calls fx_value)
       (EvMap [(EvStr (lit "o"), EvSome (EvInt I64 3)); (EvChar 110, EvUnit);
               (EvBytes [108], EvSeq [EvInt U64 1; EvInt I128 (-5); EvStr (lit "x")])]).
Proof.
  split; [apply wf_uniq, fx_value_wf|].
  apply FaMap with (m' := [(DStr (lit "o"), DInt I64 3); (DStr (lit "n"), DNone);
    (DStr (lit "l"), DSeq [DInt U64 1; DInt I128 (-5); DStr (lit "x")])]).
  - cbn. eapply Permutation_trans; [apply perm_skip, perm_swap | apply perm_swap].
  - repeat constructor. now apply utf8_decode_spec.
Qed.

(** ** C72: formats that keep numbers but not integer types *)
Theorem C72_no_question_tells : forall drop v e, wf v -> keeps_numbers drop (value_calls v) e ->
  exists v', visit e = Ok v' /\ wf v' /\ same_numbers drop v v'
  /\ forall p, alike (follow v p) (follow v' p) /\ (drop = false -> v_len (follow v p) = v_len (follow v' p)).
Proof. intros drop v e W K. exact (keeps_alike drop v e W K). Qed.
Print Assumptions C72_no_question_tells.

(** As TOML does it: every integer is an i64, the entry without a value is gone. *)
Definition fx_toml : event :=
  EvMap [(EvStr (lit "o"), EvInt I64 3); (EvStr (lit "l"), EvSeq [EvInt I64 1; EvInt I64 (-5); EvStr (lit "x")])].
Example C72_example : wf fx_value /\ keeps_numbers true (value_calls fx_value) fx_toml
  /\ into_int U16 (follow fx_value [Get (lit "l"); At 0]) = Ok 1.
Proof.
  split; [exact fx_value_wf|]. split; [|reflexivity].
  apply KnMap with (m' := [(DStr (lit "n"), DNone); (DStr (lit "o"), DInt I64 3);
    (DStr (lit "l"), DSeq [DInt U64 1; DInt I128 (-5); DStr (lit "x")])]).
  - cbn. apply perm_skip, perm_swap.
  - assert (F : forall z, z = 1 \/ z = -5 \/ z = 3 -> fits I64 z) by (intros z [->|[->| ->]]; cbv; intuition discriminate).
    apply KneDrop; [reflexivity|]. apply KneCons; [constructor | apply KnInt, F; auto|].
    apply KneCons; [constructor | | constructor]. apply KnSeq. repeat constructor; apply F; auto.
Qed.

(** ** C73: typed data through such a format *)
Theorem C73_typed_data_survives_a_format : forall drop t d,
  round_trips t -> format_safe drop t -> has_type t d -> ~ data_wide d ->
  exists v, ser d = Done v /\
    forall e, keeps_numbers drop (value_calls v) e ->
      exists v' d', visit e = Ok v' /\ de t v' = Done d' /\ has_type t d' /\ data_equiv d d' /\ (map_free t -> d' = d).
Proof.
  intros drop t d R S H W. destruct (format_trip drop t R S d H W) as (v & E & Rg & Sv). exists v; split; auto.
  intros e K. destruct (keeps_back drop e v Rg K) as (v' & V & R' & Sn).
  destruct (Sv v' Sn R') as (d' & D & T & Q). exists v', d'. repeat split; auto.
  intros M. symmetry. eapply map_free_equal; eauto.
Qed.
Print Assumptions C73_typed_data_survives_a_format.

(** struct { port: u16, host: Option<String>, limits: HashMap<i32, f32> } *)
Definition fx_ty : ty := TStruct [(lit "port", TInt U16); (lit "host", TOption TString); (lit "limits", TMap (TInt I32) TF32)].
Definition fx_datum : data :=
  DStruct [(lit "port", DInt U16 80); (lit "host", DNone);
           (lit "limits", DMap [(DInt I32 (-3), DF32 (SpecFloat.S754_finite false 8388608 (-23)))])].
Example C73_example : round_trips fx_ty /\ format_safe true fx_ty /\ has_type fx_ty fx_datum /\ ~ data_wide fx_datum.
Proof.
  split; [|split; [|split]].
  - constructor; [repeat constructor; cbn; intuition discriminate|].
    cbn [In]. intros n t [[= <- <-]|[[= <- <-]|[[= <- <-]|[]]]]; repeat constructor; cbn; tauto.
  - apply FsStruct. cbn [In]. intros n t [[= <- <-]|[[= <- <-]|[[= <- <-]|[]]]]; split; try (left; constructor); try (right; eexists; reflexivity).
    + now constructor.
    + apply FsOption. now constructor.
    + apply FsMap; [now constructor | constructor].
  - constructor; [reflexivity|]. constructor; [|constructor; [|constructor; [|constructor]]].
    + constructor. cbv; intuition discriminate.
    + constructor.
    + constructor; [constructor; cbn; tauto | repeat constructor; cbn; tauto |].
      intros a b [[= <- <-]|[]]. split; constructor; [cbv; intuition discriminate | reflexivity].
  - intros W. inversion W as [| | | | | | |fs n d Hin Wd| | | | |]; subst.
    cbn [In] in Hin. destruct Hin as [[= <- <-]|[[= <- <-]|[[= <- <-]|[]]]].
    + inversion Wd as [t z Wt| | | | | | | | | | | |]; subst. exact Wt.
    + inversion Wd.
    + inversion Wd as [| | | | |m a b Ha Wa|m a b Ha Wa| | | | | |]; subst; destruct Ha as [[= <- <-]|[]].
      * inversion Wa as [t z Wt| | | | | | | | | | | |]; subst. exact Wt.
      * inversion Wa.
Qed.

(** ** C74: a file layer over such a format *)
Definition format_codec (f : format) : codec :=
  {| toml_from_str := format_from_str f; toml_to_string := format_to_string f |}.

Theorem C74_what_is_written_answers_alike : forall f drop w p v w',
  (forall s, fmt_emit f (value_calls v) = Ok s -> is_text s = true /\ keeps_numbers drop (value_calls v) (fmt_present f s)) ->
  wf v -> layer_write w (LFile (toml_handler (format_codec f)) p) v = (w', Ok tt) ->
  forall p', same_file w p p' -> w_can_read w p' = true ->
  forall h w'', writes w' h w'' ->
    (forall l x, In (l, x) h -> built_in (format_codec f) l) ->
    (forall q x, In (LFile (toml_handler (format_codec f)) q, x) h -> ~ same_file w q p) ->
  exists v', layer_read w'' (LFile (toml_handler (format_codec f)) p') = Ok v' /\ wf v' /\ same_numbers drop v v'
    /\ forall q, alike (follow v q) (follow v' q).
Proof.
  intros f drop w p v w' K W Hw p' Sp C h w'' Hh B Nf.
  assert (exists s, fmt_emit f (value_calls v) = Ok s) as [s Es].
  { cbn in Hw. unfold toml_write, format_to_string in Hw. cbn in Hw. unfold format_to_string in Hw.
    destruct (fmt_emit f (value_calls v)); [eauto | discriminate]. }
  destruct (K s Es) as [T Ks]. destruct (keeps_alike drop v _ W Ks) as (v' & V & W' & S & A).
  exists v'. split; [|split; [auto|split; [auto|intros q; apply A]]].
  eapply (read_after_write (format_codec f) w p v w' s v'); eauto.
Qed.
Print Assumptions C74_what_is_written_answers_alike.

(** A format that leaves out entries without a value loses the override of a
    lower layer: after the trip the lower layer shows through. *)
Theorem C74_an_override_by_none_is_kept_refuted : exists base v e v',
  wf v /\ keeps_numbers true (value_calls v) e /\ visit e = Ok v'
  /\ is_none (v_get (v_merge base v) (lit "a")) = true /\ is_none (v_get (v_merge base v') (lit "a")) = false.
Proof.
  exists (VMap [(lit "a", VInt 1)]), (VMap [(lit "a", VNone)]), (EvMap []). eexists.
  split; [cbn; repeat split; repeat constructor; cbn; tauto|]. split.
  { eapply KnMap; [apply Permutation_refl|]. cbn. apply KneDrop; [reflexivity | constructor]. }
  repeat split.
Qed.
Print Assumptions C74_an_override_by_none_is_kept_refuted.

Definition fx_format : format := {| fmt_emit := fun _ => Ok (lit "t"); fmt_present := fun _ => fx_toml |}.
Definition fx_world : world :=
  {| w_files := fun _ => None; w_target := fun p => p; w_can_read := fun _ => true; w_can_open := fun _ => true;
     w_room := fun _ => Some 9%nat; w_env := []; w_platform := {| pf_base := None; pf_cwd := None |} |}.
Example C74_example :
  let l := LFile (toml_handler (format_codec fx_format)) (lit "b.toml") in
  (forall s, fmt_emit fx_format (value_calls fx_value) = Ok s ->
     is_text s = true /\ keeps_numbers true (value_calls fx_value) (fmt_present fx_format s))
  /\ wf fx_value /\ snd (layer_write fx_world l fx_value) = Ok tt
  /\ layer_read (fst (layer_write fx_world l fx_value)) l
     = Ok (VMap [(lit "o", VInt 3); (lit "l", VArr [VInt 1; VInt (-5); VStr (lit "x")])]).
Proof.
  cbv zeta. split; [|split; [exact fx_value_wf | split; reflexivity]].
  intros s [= <-]. split; [reflexivity | apply C72_example].
Qed.
