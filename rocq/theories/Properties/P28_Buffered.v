(** C100-C102: types that serde reads through its buffer (untagged and
    internally tagged enums, flattened parts). *)
From Coq Require Import ZArith Reals Bool String Lia.
From Coq Require Import List.
Import ListNotations.
From Verif.Model Require Import Text Num Flt Value Merge Paths Finder World Layers Config Convert Serde Attributes Buffered.
From Verif.Spec Require Import Spec Numerals SerdeSpec ConfigSpec EnvSpec ReadSpec AttrSpec BufferedSpec FloatSpec.
From Verif.Proofs Require Import Basics Conversions Merge ConfigBuild Env SerProofs DeProofs SerdeMore ReadAs Attrs BufferedProofs BufferedMore BufferedCompare FloatBase FloatConv Float32.
Local Open Scope Z_scope.

(** ** C100: what comes out of the buffer *)
Theorem C100_buffered_reads_exactly_this : forall o t v d, usable t -> uniq v ->
  (de_buffered o t v = Done d <-> ~ has_wide v /\ strict o true t v d).
Proof.
  intros o t v d S U. unfold de_buffered. split.
  - intros H. apply obind_done in H as (c & B & H). apply buffer_val in B. subst v. split; [apply val_narrow | now apply strict_usable].
  - intros [N H]. apply narrow_val in N as (c & ->). rewrite buffer_of_val. cbn [obind]. now apply strict_usable.
Qed.
Print Assumptions C100_buffered_reads_exactly_this.

(** A 128-bit number anywhere is refused, with a message naming the first one. *)
Theorem C100_wide_numbers_are_refused : forall o t v,
  (has_wide v <-> exists e, first_wide v e) /\ forall e, first_wide v e -> de_buffered o t v = Fail e.
Proof.
  intros o t v. split.
  - split.
    + intros W. pose proof (buffer_no_panic v). destruct (buffer v) as [c|e|] eqn:B; [|exists e; now apply buffer_fails | contradiction].
      exfalso. apply (proj1 (buffer_done v)); eauto.
    + intros (e & F). induction F; try constructor; econstructor; try eassumption; apply in_or_app; right; left; reflexivity.
  - intros e F. apply buffer_fails in F. unfold de_buffered. rewrite F. reflexivity.
Qed.
Print Assumptions C100_wide_numbers_are_refused.

(** 128-bit types cannot be read out of the buffer at all; the message names the type. *)
Theorem C100_wide_types_are_refused : forall o v, ~ has_wide v ->
  de_buffered o (TInt I128) v = Fail (EDeserialization (lit "i128 is not supported"))
  /\ de_buffered o (TInt U128) v = Fail (EDeserialization (lit "u128 is not supported")).
Proof. intros o v W. apply buffer_done in W as (c & B). unfold de_buffered. rewrite B. split; reflexivity. Qed.
Print Assumptions C100_wide_types_are_refused.

Theorem C100_never_panics : forall o t v, no_enum t -> de_buffered o t v <> Panic.
Proof.
  intros o t v N. unfold de_buffered. pose proof (buffer_no_panic v). destruct (buffer v) as [c|e|]; cbn [obind]; [now apply content_no_panic | discriminate | contradiction].
Qed.
Print Assumptions C100_never_panics.

(** Wherever both ways of reading give something, they give the same (f32 aside). *)
Theorem C100_agrees_with_direct_reading : forall o t v d d', usable t -> no_f32 t -> uniq v ->
  de t v = Done d -> de_buffered o t v = Done d' -> d' = d.
Proof.
  intros o t v d d' S F U D B. apply C100_buffered_reads_exactly_this in B as [_ B]; auto. destruct S. eapply both_agree; eauto.
Qed.
Print Assumptions C100_agrees_with_direct_reading.

(** What needs no conversion is read directly too. *)
Theorem C100_strict_values_are_read_directly : forall t v d, usable t -> no_f32 t -> uniq v ->
  strict false false t v d -> de t v = Done d.
Proof. intros t v d [P N] F U H. now apply strict_direct. Qed.
Print Assumptions C100_strict_values_are_read_directly.

(** But text stays text: no number and no truth value is read from it, so none
    from an environment variable either. *)
Theorem C100_text_is_not_converted : forall o t s d, numeric t -> de_buffered o t (VStr s) <> Done d.
Proof. intros o t s d N H. destruct t as [ |i| | | | | | | | | | | | | | | |]; cbn in N; try tauto; try discriminate H. destruct i; discriminate H. Qed.
Print Assumptions C100_text_is_not_converted.

(** Refuted: "what a field reads does not depend on whether it is flattened". *)
Theorem C100_conversions_are_lost_refuted : exists t v d, usable t /\ uniq v /\ de t v = Done d /\ forall o d', de_buffered o t v <> Done d'.
Proof.
  exists (TInt U16), (VStr (lit "8080")), (DInt U16 8080). split; [split; repeat constructor|]. split; [now constructor|]. split; [reflexivity|].
  intros o d'. now apply C100_text_is_not_converted.
Qed.
Print Assumptions C100_conversions_are_lost_refuted.

(** The first required field that is missing is named, if the fields that are
    there can be read. *)
Theorem C100_missing_field_is_named : forall o before n t after m, NoDup (map fst (before ++ (n, t) :: after)) ->
  uniq (VMap m) -> ~ has_wide (VMap m) -> (forall u, t <> TOption u) -> lacks (VMap m) n ->
  (forall k u x, In (k, u) (before ++ (n, t) :: after) -> In (k, x) m -> exists d, de_buffered o u x = Done d) ->
  (forall k u, In (k, u) before -> (exists x, In (k, x) m) \/ exists w, u = TOption w) ->
  de_buffered o (TStruct (before ++ (n, t) :: after)) (VMap m) = Fail (EDeserialization (lit "missing field `" ++ n ++ lit "`")).
Proof.
  intros o before n t after m ND U N NO L R B. destruct (narrow_val (VMap m) N) as (c & E). destruct c as [| | | | | | |cs]; try discriminate E. cbn [val] in E. injection E as ->.
  unfold de_buffered. change (VMap (map (fun e => (fst e, val (snd e))) cs)) with (val (CtMap cs)). rewrite buffer_of_val. cbn [obind de_content].
  set (fs := before ++ (n, t) :: after) in *. fold (c_slots o fs). apply uniq_map in U as [NM _]. rewrite map_map in NM. cbn [fst] in NM.
  assert (Iv : forall k x, In (k, x) cs -> In (k, val x) (map (fun e => (fst e, val (snd e))) cs)) by (intros k x I; apply in_map_iff; exists (k, x); auto).
  destruct (c_loop_ok (c_slots o fs) cs []) as (slots & Hs); auto.
  { intros k x f I F. apply c_find_some in F as (u & F & ->). cbn [cs_de]. destruct (R k u (val x) F (Iv k x I)) as (d & Hd). unfold de_buffered in Hd. rewrite buffer_of_val in Hd. eauto. }
  unfold c_struct. rewrite Hs. cbn [obind]. pose proof (c_loop_inv _ _ _ _ NM Hs) as SL.
  assert (C : c_collect (c_slots o fs) slots = Fail (EDeserialization (lit "missing field `" ++ n ++ lit "`"))); [|now rewrite C].
  assert (Sn : mget n slots = None).
  { destruct (SL n) as [-> _]. destruct (mget n cs) as [x|] eqn:G; [|reflexivity]. exfalso. apply mget_In in G. apply (L (val x)). eexists. split; [reflexivity|]. now apply Iv. }
  assert (Sb : forall k u, In (k, u) before -> (exists d, mget k slots = Some d) \/ is_option u = true).
  { intros k u I. destruct (B k u I) as [(x & Ix)|(w & ->)]; [left | now right]. apply in_map_iff in Ix as ([k' x'] & [= -> <-] & Ix). apply (In_mget k x' cs NM) in Ix.
    assert (F : In (k, u) fs) by (unfold fs; apply in_or_app; auto). pose proof (c_find_in o fs k u ND F) as FF. destruct (SL k) as [S1 S2]. destruct (S2 _ _ Ix FF) as [d Hd]. rewrite Ix, FF, Hd in S1. eauto. }
  clear - Sn Sb NO. unfold fs, c_slots. clear fs. induction before as [|[k u] before IH]; cbn [app map c_collect cs_name cs_optional fst snd].
  - rewrite Sn. destruct (is_option t) eqn:O; [|reflexivity]. apply DeProofs.is_option_iff in O as (w & ->). destruct (NO w eq_refl).
  - assert (X : exists d, match mget k slots with Some d => Done d | None => if is_option u then Done DNone else de_fail (lit "missing field `" ++ k ++ lit "`") end = Done d).
    { destruct (Sb k u (or_introl eq_refl)) as [(d & ->)| ->]; [eauto|]. destruct (mget k slots); eauto. }
    destruct X as (d & ->). cbn [obind]. rewrite IH; [reflexivity|]. intros; apply Sb; now right.
Qed.
Print Assumptions C100_missing_field_is_named.

Example C100_missing_example : de_buffered true (TStruct [(lit "a", TOption TBool); (lit "n", TInt U8); (lit "z", TBool)]) (VMap [(lit "z", VBool true)])
  = Fail (EDeserialization (lit "missing field `n`")).
Proof. reflexivity. Qed.

(** Whole numbers and floats become floats correctly rounded, once, zero being
    positive. *)
Theorem C100_numbers_round_once : forall o v z, whole v z ->
  exists f g, de_buffered o TF64 v = Done (DF64 f) /\ rounds_correctly (IZR z) (z <? 0) f
           /\ de_buffered o TF32 v = Done (DF32 g) /\ rounds_correctly32 (IZR z) (z <? 0) g.
Proof.
  intros o v z W. exists (f64_of_Z z), (f32_of_Z z). split; [destruct W as [->| ->]; reflexivity|]. split; [apply of_Z_rounds|].
  split; [destruct W as [->| ->]; reflexivity | apply normalize_rounds32].
Qed.
Print Assumptions C100_numbers_round_once.
Theorem C100_floats_round_to_f32 : forall o f,
  de_buffered o TF64 (VFloat f) = Done (DF64 f) /\ exists g, de_buffered o TF32 (VFloat f) = Done (DF32 g) /\ narrows f g.
Proof. intros o f. split; [reflexivity|]. exists (f64_to_f32 f). split; [reflexivity | apply f64_to_f32_narrows]. Qed.
Print Assumptions C100_floats_round_to_f32.

(** Refuted: the same for f32: a whole number is rounded once through the
    buffer, and twice directly. *)
Definition twice_rounded : Z := 2 ^ 60 + 2 ^ 36 + 1.
Theorem C100_f32_differs_refuted : fits I64 twice_rounded /\
  exists f f', de TF32 (VInt twice_rounded) = Done (DF32 f) /\ de_buffered true TF32 (VInt twice_rounded) = Done (DF32 f') /\ f <> f'.
Proof.
  split; [apply in_range_fits; reflexivity|]. exists (f64_to_f32 (f64_of_Z twice_rounded)), (f32_of_Z twice_rounded).
  split; [reflexivity|]. split; [reflexivity|]. vm_compute. discriminate.
Qed.
Print Assumptions C100_f32_differs_refuted.

(** Refuted: "the buffer only refuses more": arrays are taken for structs, and
    empty maps for units, which direct reading refuses. *)
Theorem C100_reads_more_refuted :
  (exists v d, de_buffered true (TStruct [(lit "a", TBool)]) v = Done d /\ forall d', de (TStruct [(lit "a", TBool)]) v <> Done d')
  /\ exists v d, de_buffered true TUnit v = Done d /\ forall d', de TUnit v <> Done d'.
Proof.
  split.
  - exists (VArr [VBool true]), (DStruct [(lit "a", DBool true)]). split; [reflexivity | intros d'; discriminate].
  - exists (VMap []), DUnit. split; [reflexivity | intros d'; discriminate].
Qed.
Print Assumptions C100_reads_more_refuted.

Ltac pro := repeat first [apply PrOption | apply PrSeq | apply PrNewtype | apply PrMap; [repeat constructor|] | apply PrFlat; exact I].
Definition bf_type : ty := TStruct [(lit "n", TInt U8); (lit "f", TOption TF64); (lit "m", TMap TString (TSeq TChar))].
Definition bf_value : value := VMap [(lit "m", VMap [(lit "x", VArr [VStr (lit "c"); VStr (lit "d")])]); (lit "n", VUInt 7); (lit "f", VInt 2)].
Example C100_example : usable bf_type /\ no_f32 bf_type /\ uniq bf_value
  /\ de_buffered false bf_type bf_value = Done (DStruct [(lit "n", DInt U8 7); (lit "f", DSome (DF64 (f64_of_Z 2))); (lit "m", DMap [(DStr (lit "x"), DSeq [DChar 99; DChar 100])])])
  /\ de bf_type bf_value = de_buffered false bf_type bf_value
  /\ de_buffered true bf_type (VArr [VInt 1; VArr [VInt 5; VLong (-3); VULong 4]]) =
     Fail (EDeserialization (lit "invalid type: integer `-3` as i128, expected any value")).
Proof.
  split; [split|].
  - apply PrStruct; [repeat constructor; cbn; intuition discriminate|]. intros n t [[= <- <-]|[[= <- <-]|[[= <- <-]|[]]]]; pro.
  - constructor. intros n t [[= <- <-]|[[= <- <-]|[[= <- <-]|[]]]]; repeat constructor.
  - split.
    + apply NfStruct. intros n t [[= <- <-]|[[= <- <-]|[[= <- <-]|[]]]].
      * now apply NfFlat.
      * apply NfOption. now apply NfFlat.
      * apply NfMap; [now apply NfFlat|]. apply NfSeq. now apply NfFlat.
    + split.
      * apply UMap; [repeat constructor; cbn; intuition discriminate|]. intros k x [[= <- <-]|[[= <- <-]|[[= <- <-]|[]]]]; try now constructor.
        apply UMap; [repeat constructor; cbn; tauto|]. intros k x [[= <- <-]|[]]. apply UArr. intros y [<-|[<-|[]]]; now constructor.
      * split; [reflexivity|]. split; reflexivity.
Qed.

(** ** C101: untagged and internally tagged enums *)
Theorem C101_first_variant_that_reads : forall name vs v d, (forall n sh, In (n, sh) vs -> shape_usable sh) -> uniq v ->
  (de_untagged name vs v = Done d <-> ~ has_wide v /\ exists before n sh after, vs = before ++ (n, sh) :: after /\
     variant_reads n sh v d /\ forall n' sh' d', In (n', sh') before -> ~ variant_reads n' sh' v d').
Proof.
  intros name vs v d S U. unfold de_untagged. split.
  - intros H. apply obind_done in H as (c & B & H). apply buffer_val in B. subst v. split; [apply val_narrow|]. now apply first_variant_done in H.
  - intros [N H]. apply narrow_val in N as (c & ->). rewrite buffer_of_val. cbn [obind]. now apply first_variant_done.
Qed.
Print Assumptions C101_first_variant_that_reads.

Theorem C101_untagged_refusals : forall name vs v e, (forall n sh, In (n, sh) vs -> shape_usable sh) -> uniq v ->
  (de_untagged name vs v = Fail e <-> first_wide v e \/
     ~ has_wide v /\ (forall n sh d, In (n, sh) vs -> ~ variant_reads n sh v d) /\
     e = EDeserialization (lit "data did not match any variant of untagged enum " ++ name)).
Proof.
  intros name vs v e S U. unfold de_untagged. destruct (buffer v) as [c|e'|] eqn:B; cbn [obind].
  - pose proof (buffer_val _ _ B). subst v. etransitivity; [apply first_variant_fail; auto|]. split.
    + intros H. right. split; [apply val_narrow | exact H].
    + intros [F|[_ H]]; [|exact H]. apply buffer_fails in F. congruence.
  - split.
    + intros [= ->]. left. now apply buffer_fails.
    + intros [F|[N _]]; [apply buffer_fails in F; congruence|]. apply buffer_done in N as (c & N). congruence.
  - destruct (buffer_no_panic v B).
Qed.
Print Assumptions C101_untagged_refusals.

(** So from text (an environment variable, say) the variants holding numbers or
    truth values are passed over, however the text looks. *)
Theorem C101_text_passes_numbers_by : forall name before n t rest s, numeric t ->
  de_untagged name (before ++ (n, ShNewtype t) :: rest) (VStr s) = de_untagged name (before ++ rest) (VStr s).
Proof.
  intros name before n t rest s N. unfold de_untagged. cbn [buffer obind]. induction before as [|[n' sh'] before IH]; cbn [app first_variant].
  - assert (E : exists e, try_variant n (ShNewtype t) (CtStr s) = Fail e).
    { destruct t as [ |i| | | | | | | | | | | | | | | |]; cbn in N; try tauto; try (eexists; reflexivity). destruct i; eexists; reflexivity. }
    destruct E as (e & ->). reflexivity.
  - destruct (try_variant n' sh' (CtStr s)); auto.
Qed.
Print Assumptions C101_text_passes_numbers_by.

Theorem C101_tagged_reads_exactly_this : forall tag vs v d, NoDup (map fst vs) -> (forall n sh, In (n, sh) vs -> tshape_usable sh) -> uniq v ->
  (de_tagged tag vs v = Done d <-> tagged_reads tag vs v d).
Proof. intros tag vs v d ND S U. now apply tagged_iff. Qed.
Print Assumptions C101_tagged_reads_exactly_this.

Theorem C101_empty_array_lacks_the_tag : forall tag vs, de_tagged tag vs (VArr []) = Fail (EDeserialization (lit "missing field `" ++ tag ++ lit "`")).
Proof. reflexivity. Qed.
Print Assumptions C101_empty_array_lacks_the_tag.
(** Without the tag nothing is read: not even a lenient variant. *)
Theorem C101_tag_is_needed : forall tag vs v d, uniq v -> mapv v -> lacks v tag -> de_tagged tag vs v <> Done d
  /\ (~ has_wide v -> de_tagged tag vs v = Fail (EDeserialization (lit "missing field `" ++ tag ++ lit "`"))).
Proof.
  intros tag vs v d U (m & ->) L. cbn [de_tagged].
  assert (G : forall rest, (forall k x, In (k, x) m -> k <> tag) ->
    (forall r, tag_loop tag vs m None rest <> Done r) /\
    (~ has_wide (VMap m) -> tag_loop tag vs m None rest = Fail (EDeserialization (lit "missing field `" ++ tag ++ lit "`")))).
  { clear. induction m as [|[k x] m IH]; intros rest N; [split; [discriminate | reflexivity]|]. cbn [tag_loop].
    destruct (str_eqb_spec k tag) as [->|_]; [destruct (N tag x (or_introl eq_refl)); reflexivity|].
    assert (N' : forall k' x', In (k', x') m -> k' <> tag) by (intros k' x' Hk; exact (N k' x' (or_intror Hk))).
    split.
    - intros r H. apply obind_done in H as (c & _ & H). destruct (IH (rest ++ [(k, c)]) N') as [I _]. exact (I r H).
    - intros W. assert (Nx : ~ has_wide x) by (intros Hx; apply W; econstructor; [left; reflexivity | exact Hx]).
      apply buffer_done in Nx as (c & ->). cbn [obind]. apply IH; auto. intros Hm. apply W. inversion Hm; subst. econstructor; [right; eassumption | assumption]. }
  assert (N : forall k x, In (k, x) m -> k <> tag) by (intros k x Hk ->; apply (L x); now apply holds_map).
  destruct (G [] N) as [G1 G2]. split.
  - intros H. apply obind_done in H as (r & H & _). exact (G1 r H).
  - intros W. rewrite (G2 W). reflexivity.
Qed.
Print Assumptions C101_tag_is_needed.

(** A tag naming no variant is refused with the names of the variants, whatever
    else the map holds behind it; a tag that is no text, with the text conversion's error. *)
Theorem C101_unknown_tags_are_named : forall tag vs m1 x m2, (forall k y, In (k, y) m1 -> k <> tag /\ ~ has_wide y) ->
  (forall n s, into_string x = Ok n -> ~ In n (map fst vs) -> expected_variants (map fst vs) s ->
     de_tagged tag vs (VMap (m1 ++ (tag, x) :: m2)) = Fail (EDeserialization (lit "unknown variant " ++ tick n ++ lit ", " ++ s)))
  /\ (forall e, into_string x = Err e -> de_tagged tag vs (VMap (m1 ++ (tag, x) :: m2)) = Fail e).
Proof.
  intros tag vs m1 x m2 H.
  assert (G : forall e, read_tag vs x = Fail e -> de_tagged tag vs (VMap (m1 ++ (tag, x) :: m2)) = Fail e).
  { intros e R. cbn [de_tagged]. assert (L : forall rest, tag_loop tag vs (m1 ++ (tag, x) :: m2) None rest = Fail e); [|now rewrite L].
    induction m1 as [|[k y] m1 IH]; intros rest; cbn [app tag_loop].
    - destruct (str_eqb_spec tag tag); [|congruence]. now rewrite R.
    - destruct (H k y (or_introl eq_refl)) as [Nk W]. destruct (str_eqb_spec k tag); [congruence|]. apply buffer_done in W as (c & ->). cbn [obind].
      apply IH. intros k' y' Hk. apply H. now right. }
  split.
  - intros n s E N Hs. apply G. unfold read_tag. rewrite E. cbn [of_result obind].
    destruct (find (fun p => str_eqb n (fst p)) vs) as [p|] eqn:F.
    + apply List.find_some in F as [F1 F2]. destruct (str_eqb_spec n (fst p)) as [->|]; [|discriminate]. destruct N. now apply in_map.
    + rewrite <- (unknown_variant_text n _ s Hs). unfold de_fail. do 2 f_equal. now destruct vs.
  - intros e E. apply G. unfold read_tag. now rewrite E.
Qed.
Print Assumptions C101_unknown_tags_are_named.

Theorem C101_never_panics : forall name tag us ts v,
  ((forall n sh, In (n, sh) us -> shape_usable sh) -> uniq v -> de_untagged name us v <> Panic)
  /\ ((forall n sh, In (n, sh) ts -> tshape_usable sh) -> de_tagged tag ts v <> Panic).
Proof.
  intros name tag us ts v. split.
  - intros S _. unfold de_untagged. pose proof (buffer_no_panic v). destruct (buffer v) as [c|e|]; cbn [obind]; try congruence.
    induction us as [|[n sh] us IH]; cbn [first_variant]; [discriminate|]. pose proof (variant_no_panic n sh c (S n sh (or_introl eq_refl))).
    destruct (try_variant n sh c); try congruence. apply IH. intros n' sh' Hn. exact (S n' sh' (or_intror Hn)).
  - intros S. now apply tagged_no_panic.
Qed.
Print Assumptions C101_never_panics.

Definition un_limit : list (str * shape) := [(lit "Off", ShUnit); (lit "Max", ShNewtype (TInt U16)); (lit "Range", ShTuple [TInt I32; TInt I32]);
  (lit "Named", ShStruct [(lit "name", TString)]); (lit "Text", ShNewtype TString)].
Definition tg_store : list (str * tshape) := [(lit "memory", TsUnit); (lit "file", TsStruct [(lit "path", TString); (lit "mode", TOption (TInt U16))]); (lit "other", TsNewtype (TMap TString TBool))].
Example C101_example :
  de_untagged (lit "Limit") un_limit (VInt 5) = Done (DNewtypeVariant (lit "Max") (DInt U16 5))
  /\ de_untagged (lit "Limit") un_limit (VStr (lit "5")) = Done (DNewtypeVariant (lit "Text") (DStr (lit "5")))
  /\ de_untagged (lit "Limit") un_limit (VArr [VInt 1; VInt (-2)]) = Done (DTupleVariant (lit "Range") [DInt I32 1; DInt I32 (-2)])
  /\ de_untagged (lit "Limit") un_limit (VMap [(lit "z", VNone); (lit "name", VStr (lit "x"))]) = Done (DStructVariant (lit "Named") [(lit "name", DStr (lit "x"))])
  /\ de_untagged (lit "Limit") un_limit (VInt 70000) = Fail (EDeserialization (lit "data did not match any variant of untagged enum Limit"))
  /\ (forall n sh, In (n, sh) un_limit -> shape_usable sh)
  /\ de_tagged (lit "kind") tg_store (VMap [(lit "path", VStr (lit "/x")); (lit "kind", VStr (lit "file"))]) = Done (DStructVariant (lit "file") [(lit "path", DStr (lit "/x")); (lit "mode", DNone)])
  /\ de_tagged (lit "kind") tg_store (VMap [(lit "kind", VStr (lit "disk"))]) = Fail (EDeserialization (lit "unknown variant `disk`, expected one of `memory`, `file`, `other`"))
  /\ NoDup (map fst tg_store) /\ (forall n sh, In (n, sh) tg_store -> tshape_usable sh).
Proof.
  repeat (split; [reflexivity|]). split.
  - intros n sh [[= <- <-]|[[= <- <-]|[[= <- <-]|[[= <- <-]|[[= <- <-]|[]]]]]]; cbn; auto; split.
    + now apply PrFlat.
    + now constructor.
    + apply PrTuple. intros t [<-|[<-|[]]]; now constructor.
    + constructor. intros t [<-|[<-|[]]]; now constructor.
    + apply PrStruct; [repeat constructor; cbn; tauto|]. intros n t [[= <- <-]|[]]; now constructor.
    + constructor. intros n t [[= <- <-]|[]]; now constructor.
    + now apply PrFlat.
    + now constructor.
  - repeat (split; [reflexivity|]). split; [repeat constructor; cbn; intuition discriminate|].
    intros n sh [[= <- <-]|[[= <- <-]|[[= <- <-]|[]]]]; cbn; auto; split.
    + apply PrStruct; [repeat constructor; cbn; intuition discriminate|]. intros n t [[= <- <-]|[[= <- <-]|[]]]; pro.
    + constructor. intros n t [[= <- <-]|[[= <- <-]|[]]]; repeat constructor.
    + pro.
    + repeat constructor.
Qed.

(** ** C102: flattened parts *)
Theorem C102_reads_exactly_this : forall own parts v d, NoDup (map fst own) -> (forall n p, In (n, p) parts -> part_usable p) -> uniq v ->
  (de_flat own parts v = Done d <-> flat_reads own parts v d).
Proof. intros own parts v d N S U. now apply flat_iff. Qed.
Print Assumptions C102_reads_exactly_this.

Theorem C102_non_maps_are_refused : forall own parts v, ~ mapv v ->
  de_flat own parts v = Fail (EDeserialization (lit "Can't deserialize " ++ v_display v ++ lit " to Map")).
Proof. intros own parts v N. destruct v as [| | | | | | | | |m]; try reflexivity. destruct N. eexists. reflexivity. Qed.
Print Assumptions C102_non_maps_are_refused.

Theorem C102_never_panics : forall own parts v, (forall n t, In (n, t) own -> no_enum t) -> (forall n p, In (n, p) parts -> part_usable p) ->
  de_flat own parts v <> Panic.
Proof.
  intros own parts v No S. destruct v as [| | | | | | | | |m]; try discriminate. cbn [de_flat]. fold (slots_of own).
  assert (L : forall acc oth, flat_loop (slots_of own) m acc oth <> Panic).
  { induction m as [|[k x] m IH]; intros acc oth; cbn [flat_loop]; [discriminate|]. destruct (find_field k (slots_of own)) as [f|] eqn:F.
    - destruct (mget k acc); [discriminate|]. apply find_field_some in F as (t & Ht & ->). cbn [fs_de]. pose proof (de_no_panic t (No _ _ Ht) x). destruct (de t x); cbn [obind]; auto; discriminate.
    - pose proof (buffer_no_panic x). destruct (buffer x); cbn [obind]; auto; discriminate. }
  specialize (L [] []). destruct (flat_loop (slots_of own) m [] []) as [[s oth]|e|]; cbn [obind fst snd]; try congruence.
  pose proof (collect_no_panic (slots_of own) s). destruct (collect_fields (slots_of own) s); cbn [obind]; try congruence.
  assert (P : forall cs, flat_parts parts cs <> Panic).
  { clear - S. induction parts as [|[n [fs|t]] parts IH]; intros cs; cbn [flat_parts]; [discriminate| |].
    - assert (N : usable (TStruct fs)) by (exact (S n (FpStruct fs) (or_introl eq_refl))). destruct N as [_ N].
      specialize (IH (fun n' p H => S n' p (or_intror H))). fold (c_slots true fs).
      assert (C : c_struct (c_slots true fs) (filter (fun e => names_it fs (fst e)) cs) <> Panic).
      { apply c_struct_no_panic. intros f Hf c. apply in_map_iff in Hf as ([n' t] & <- & Ht). cbn. apply content_no_panic. inversion N; subst; eauto. }
      destruct (c_struct _ _); cbn [obind]; try congruence. specialize (IH (filter (fun e => negb (names_it fs (fst e))) cs)). destruct (flat_parts _ _); cbn [obind]; congruence.
    - assert (N : usable t) by (exact (S n (FpMap t) (or_introl eq_refl))). destruct N as [_ N]. specialize (IH (fun n' p H => S n' p (or_intror H)) cs).
      assert (C : c_map (de_content false TString) (de_content false t) dinsert cs <> Panic) by (apply c_map_no_panic; intros c; apply content_no_panic; auto; constructor; exact I).
      destruct (c_map _ _ _ _); cbn [obind]; try congruence. destruct (flat_parts _ _); cbn [obind]; congruence. }
  specialize (P oth). destruct (flat_parts parts oth); cbn [obind]; congruence.
Qed.
Print Assumptions C102_never_panics.

(** Moving fields into a flattened part changes nothing when both forms read. *)
Theorem C102_flattening_is_transparent_when_both_read : forall own n fs v l ps l', NoDup (map fst (own ++ fs)) ->
  (forall k t, In (k, t) (own ++ fs) -> proper t) -> usable (TStruct fs) -> no_f32 (TStruct fs) -> uniq v ->
  de_flat own [(n, FpStruct fs)] v = Done (DStruct (l ++ [(n, DStruct ps)])) ->
  de (TStruct (own ++ fs)) v = Done (DStruct l') -> l' = l ++ ps.
Proof.
  intros own n fs v l ps l' ND Pr Us Nf U F D.
  assert (NO : NoDup (map fst own) /\ NoDup (map fst fs) /\ forall k, In k (map fst own) -> ~ In k (map fst fs)).
  { rewrite map_app in ND. clear - ND. induction own as [|[k t] own IH]; cbn in *; [split; [constructor | split; [exact ND | tauto]]|]. inversion ND as [|? ? N1 N2]; subst. destruct (IH N2) as (A & B & C).
    rewrite in_app_iff in N1. split; [constructor; tauto|]. split; auto. intros k' [<-|H]; [tauto | auto]. }
  destruct NO as (NO & Nfs & Dis). apply C102_reads_exactly_this in F; auto; [|intros n' p [[= <- <-]|[]]; exact Us].
  remember (DStruct (l ++ [(n, DStruct ps)])) as d0 eqn:E0. destruct F as [m l0 r Fo W R]. injection E0 as E.
  inversion R as [|? ? ? ? lp r' Fp R'|]; subst. inversion R'; subst. apply app_inj_tail in E as [-> E]. injection E as ->.
  pose proof (proj1 (uniq_map m) U) as [NM Um].
  apply de_struct_done in D as (l1 & [= <-] & G); auto. apply Forall2_app_inv_l in G as (la & lb & Ga & Gb & ->). f_equal.
  - assert (H : forall a b, Forall2 (field_result m) own a -> Forall2 (fun f d => fst d = fst f /\
      ((exists x, holds (VMap m) (fst f) x /\ de (snd f) x = Done (snd d)) \/ (lacks (VMap m) (fst f) /\ (exists t, snd f = TOption t) /\ snd d = DNone))) own b -> a = b).
    { clear - NM. induction own as [|f own IH]; intros a b A B; inversion A as [|? [k1 d1] ? ? [E1 A1] A2]; inversion B as [|? [k2 d2] ? ? [E2 B1] B2]; subst; auto.
      cbn [fst snd] in *. f_equal; [|eapply IH; eauto]. subst. f_equal.
      destruct A1 as [(x & Hx & Dx)|(N & _ & ->)], B1 as [(y & Hy & Dy)|(N' & _ & ->)]; auto.
      - apply holds_map in Hy. apply In_mget in Hx, Hy; auto. congruence.
      - destruct (N' x). now apply holds_map.
      - apply holds_map in Hy. destruct (N y Hy). }
    eapply H; eauto.
  - destruct Us as [Ps Ns]. assert (Pf : forall k t, In (k, t) fs -> proper t /\ no_enum t /\ no_f32 t).
    { intros k t H. split; [apply (Pr k), in_or_app; auto|]. split; [inversion Ns; subst; eauto | inversion Nf as [? X| | | | | | |]; subst; [destruct X | eauto]]. }
    clear - Gb Fp NM Um Pf Dis. assert (Dis' : forall k t, In (k, t) fs -> ~ In k (map fst own)).
    { intros k t H H'. apply (Dis k H'). now apply (in_map fst) in H. } clear Dis.
    revert lb ps Gb Fp. induction fs as [|[k t] fs IH]; intros a b A B; inversion A as [|? [k1 d1] ? ? [E1 A1] A2]; inversion B as [|? [k2 d2] ? ? [E2 B1] B2]; subst; auto.
    cbn [fst snd] in *. subst. f_equal; [|eapply IH; eauto; intros; [eapply Pf | eapply Dis']; right; eauto]. f_equal.
    destruct (Pf k t (or_introl eq_refl)) as (P1 & P2 & P3).
    destruct A1 as [(x & Hx & Dx)|(N & _ & ->)], B1 as [(_ & y & Hy & Sy)|([Hk|N'] & _ & ->)]; auto.
    + apply holds_map in Hy. assert (x = y) as -> by (apply In_mget in Hx, Hy; auto; congruence). symmetry. eapply both_agree; eauto.
    + exfalso. eapply Dis'; [left; reflexivity | exact Hk].
    + destruct (N' x). now apply holds_map.
    + apply holds_map in Hy. destruct (N y Hy).
Qed.
Print Assumptions C102_flattening_is_transparent_when_both_read.

(** A flattened number cannot be set by an environment variable: doing so makes
    the configuration unreadable. *)
Theorem C102_environment_breaks_flattened_numbers : forall w c c0 r n prefix p v v0 skip own pn fs k t s d,
  registered c (r ++ [(n, env_layer_new prefix)]) -> registered c0 r ->
  (forall n' l x, In (n', l) r -> layer_read w l = Ok x -> wf x) -> trimmed prefix p -> p <> [] ->
  build_value w c skip = Ok v -> build_value w c0 skip = Ok v0 ->
  NoDup (map fst own) -> usable (TStruct fs) -> In (k, t) fs -> numeric t -> ~ In k (map fst own) ->
  last_exposed p (w_env w) k s -> de_flat own [(pn, FpStruct fs)] v <> Done d.
Proof.
  intros w c c0 r n prefix p v v0 skip own pn fs k t s d R R0 W T Np B B0 ND Us Hf Nt Nk L D.
  destruct (env_overrides w c c0 r n prefix p v v0 skip R R0 W T Np B B0 k) as [H _]. destruct (H s L) as [Hk _].
  assert (U : uniq v).
  { apply (build_uniq w c _ skip v R); auto. intros n' l x Hl Hr. apply in_app_iff in Hl as [Hl|[[= <- <-]|[]]]; [eauto|].
    destruct (env_layer_read w prefix p T Np) as (e & Re & _ & We & _). congruence. }
  apply C102_reads_exactly_this in D; auto; [|intros n' q [[= <- <-]|[]]; exact Us].
  inversion D as [m l r' Fo Wd Rp]; subst. inversion Rp as [|? ? ? ? lp r'' Fp Rp'|]; subst.
  apply uniq_map in U as [NM _]. destruct (Forall2_in_l _ _ _ (k, t) Fp Hf) as ([k' x] & _ & _ & [(_ & y & Hy & Sy)|([X|X] & _)]); cbn [fst snd] in *.
  - apply holds_map in Hy, Hk. assert (y = VStr s) as -> by (apply In_mget in Hy, Hk; auto; congruence).
    destruct t as [ |i| | | | | | | | | | | | | | | |]; cbn in Nt; try tauto; inversion Sy as [|? ? ? [Z|Z]| |? ? [Z|Z]| |? ? [Z|Z]| | | | | | | | | | | | | | | | |]; discriminate.
  - contradiction.
  - exact (X _ Hk).
Qed.
Print Assumptions C102_environment_breaks_flattened_numbers.

(** And next to a flattened map of numbers no variable outside the own fields
    may exist at all. *)
Theorem C102_environment_breaks_flattened_maps : forall w c c0 r n prefix p v v0 skip own pn t k s d,
  registered c (r ++ [(n, env_layer_new prefix)]) -> registered c0 r ->
  (forall n' l x, In (n', l) r -> layer_read w l = Ok x -> wf x) -> trimmed prefix p -> p <> [] ->
  build_value w c skip = Ok v -> build_value w c0 skip = Ok v0 ->
  NoDup (map fst own) -> numeric t -> ~ In k (map fst own) ->
  last_exposed p (w_env w) k s -> de_flat own [(pn, FpMap t)] v <> Done d.
Proof.
  intros w c c0 r n prefix p v v0 skip own pn t k s d R R0 W T Np B B0 ND Nt Nk L D.
  destruct (env_overrides w c c0 r n prefix p v v0 skip R R0 W T Np B B0 k) as [H _]. destruct (H s L) as [Hk _].
  assert (U : uniq v).
  { apply (build_uniq w c _ skip v R); auto. intros n' l x Hl Hr. apply in_app_iff in Hl as [Hl|[[= <- <-]|[]]]; [eauto|].
    destruct (env_layer_read w prefix p T Np) as (e & Re & _ & We & _). congruence. }
  assert (Us : usable t) by (destruct t; cbn in Nt; try tauto; split; now constructor).
  apply C102_reads_exactly_this in D; auto; [|intros n' q [[= <- <-]|[]]; exact Us].
  inversion D as [m l r' Fo Wd Rp]; subst. inversion Rp as [| |? ? ? ? lp r'' Fp Rp']; subst.
  apply holds_map in Hk. assert (Ho : In (k, VStr s) (outside (map fst own) m)) by (apply outside_in; auto).
  destruct (Forall2_in_l _ _ _ _ Fp Ho) as ([k' x] & _ & _ & Sy). cbn [fst snd] in *.
  destruct t as [ |i| | | | | | | | | | | | | | | |]; cbn in Nt; try tauto; inversion Sy as [|? ? ? [Z|Z]| |? ? [Z|Z]| |? ? [Z|Z]| | | | | | | | | | | | | | | | |]; discriminate.
Qed.
Print Assumptions C102_environment_breaks_flattened_maps.

Definition fl_own : list (str * ty) := [(lit "name", TString)].
Definition fl_net : list (str * ty) := [(lit "port", TInt U16); (lit "host", TOption TString)].
Example C102_example :
  de_flat fl_own [(lit "net", FpStruct fl_net); (lit "rest", FpMap TBool)] (VMap [(lit "tls", VBool true); (lit "port", VInt 80); (lit "name", VInt 5)]) =
    Done (DStruct [(lit "name", DStr (lit "5")); (lit "net", DStruct [(lit "port", DInt U16 80); (lit "host", DNone)]); (lit "rest", DMap [(DStr (lit "tls"), DBool true)])])
  /\ NoDup (map fst (fl_own ++ fl_net)) /\ usable (TStruct fl_net) /\ no_f32 (TStruct fl_net) /\ numeric (TInt U16)
  /\ de_flat fl_own [(lit "net", FpStruct fl_net)] (VMap [(lit "port", VInt 80); (lit "name", VStr (lit "x"))]) =
     Done (DStruct ([(lit "name", DStr (lit "x"))] ++ [(lit "net", DStruct [(lit "port", DInt U16 80); (lit "host", DNone)])]))
  /\ de (TStruct (fl_own ++ fl_net)) (VMap [(lit "port", VInt 80); (lit "name", VStr (lit "x"))]) =
     Done (DStruct [(lit "name", DStr (lit "x")); (lit "port", DInt U16 80); (lit "host", DNone)])
  /\ (forall d, de_flat fl_own [(lit "net", FpStruct fl_net)] (VMap [(lit "port", VStr (lit "80")); (lit "name", VStr (lit "x"))]) <> Done d).
Proof.
  split; [reflexivity|]. split; [repeat constructor; cbn; intuition discriminate|]. split; [split|].
  - apply PrStruct; [repeat constructor; cbn; intuition discriminate|]. intros n t [[= <- <-]|[[= <- <-]|[]]]; pro.
  - constructor. intros n t [[= <- <-]|[[= <- <-]|[]]]; repeat constructor.
  - split; [apply NfStruct; intros n t [[= <- <-]|[[= <- <-]|[]]]; [now apply NfFlat | apply NfOption; now apply NfFlat]|].
    split; [exact I|]. split; [reflexivity|]. split; [reflexivity|]. intros d; discriminate.
Qed.
