(** C112: ordinary enums inside buffered types. *)
From Coq Require Import ZArith Bool String Lia.
From Coq Require Import List.
Import ListNotations.
From Verif.Model Require Import Text Num Flt Value Convert Serde Buffered BufferedSer BufferedEnum World Layers.
From Verif.Spec Require Import Spec Numerals Containers SerdeSpec ReadSpec AttrSpec BufferedSpec BufferedSerSpec BufferedEnumSpec.
From Verif.Proofs Require Import Basics Conversions SerProofs DeProofs RoundTrip Loaded VisitorProofs Attrs BufferedProofs BufferedMore BufferedTrips BufferedTripsMore Override BufferedEnumProofs.
Local Open Scope Z_scope.

(** An enum whose variants have distinct names and readable contents. *)
Definition good_enum (vs : list (str * shape)) : Prop := NoDup (map fst vs) /\ forall n sh, In (n, sh) vs -> shape_usable sh.

Theorem C112_reads_exactly_this : forall o vs v d, good_enum vs -> uniq v ->
  (de_buffered_enum o vs v = Done d <-> ~ has_wide v /\ enum_reads o vs v d).
Proof.
  intros o vs v d [ND S] U. unfold de_buffered_enum. etransitivity; [apply obind_done|]. split.
  - intros (c & B & H). apply buffer_val in B. subst v. split; [apply val_narrow|]. now apply enum_iff.
  - intros [W H]. apply narrow_val in W as (c & ->). exists c. split; [apply buffer_of_val|]. now apply enum_iff.
Qed.
Print Assumptions C112_reads_exactly_this.

(** Never a panic, while the same enum read directly always panics (C58). *)
Theorem C112_never_panics : forall o vs v name n fs, (forall k sh, In (k, sh) vs -> shape_usable sh) ->
  (forall f us k sh, In (f, us) fs -> In (k, sh) us -> shape_usable sh) ->
  de_buffered_enum o vs v <> Panic /\ de_wrapped_enum name n vs v <> Panic /\ de_flat_enums n fs v <> Panic /\ de TEnum v = Panic.
Proof.
  intros o vs v name n fs S Sf. unfold de_buffered_enum, de_wrapped_enum. pose proof (buffer_no_panic v) as B. split; [|split; [|split; [now apply flat_enums_no_panic | reflexivity]]];
    destruct (buffer v) as [c|e|]; cbn [obind]; try congruence.
  - now apply enum_no_panic.
  - pose proof (enum_no_panic false vs c S). destruct (de_content_enum false vs c); [discriminate | discriminate | congruence].
Qed.
Print Assumptions C112_never_panics.

(** In an untagged enum with the one variant n holding it. *)
Theorem C112_wrapped_reads_exactly_this : forall name n vs v d, good_enum vs -> uniq v ->
  (de_wrapped_enum name n vs v = Done d <-> ~ has_wide v /\ exists x, d = DNewtypeVariant n x /\ enum_reads false vs v x).
Proof.
  intros name n vs v d G U. unfold de_wrapped_enum. etransitivity; [apply obind_done|]. destruct G as [ND S]. split.
  - intros (c & B & H). apply buffer_val in B. subst v. split; [apply val_narrow|].
    destruct (de_content_enum false vs c) as [x|e|] eqn:E; try discriminate H. injection H as <-. exists x. split; auto. now apply enum_iff.
  - intros (W & x & -> & H). apply narrow_val in W as (c & ->). exists c. split; [apply buffer_of_val|]. apply enum_iff in H; auto. now rewrite H.
Qed.
Print Assumptions C112_wrapped_reads_exactly_this.

(** Everything else is refused: with the message for the first 128-bit number,
    or else with serde's message for untagged enums. *)
Theorem C112_wrapped_refusals : forall name n vs v e, good_enum vs -> uniq v ->
  (de_wrapped_enum name n vs v = Fail e <-> first_wide v e \/
     ~ has_wide v /\ (forall x, ~ enum_reads false vs v x) /\
     e = EDeserialization (lit "data did not match any variant of untagged enum " ++ name)).
Proof.
  intros name n vs v e [ND S] U. unfold de_wrapped_enum. destruct (buffer v) as [c|e'|] eqn:B; cbn [obind].
  - pose proof (buffer_val _ _ B). subst v. pose proof (enum_no_panic false vs c S) as NP.
    assert (X : forall x, de_content_enum false vs c = Done x <-> enum_reads false vs (val c) x) by (intros x; now apply enum_iff).
    destruct (de_content_enum false vs c) as [x|e'|]; [| |congruence]; split.
    + discriminate.
    + intros [F|(_ & N & _)]; [apply buffer_fails in F; congruence|]. destruct (N x). now apply X.
    + intros [= <-]. right. split; [apply val_narrow|]. split; auto. intros x R. apply X in R. discriminate R.
    + intros [F|(_ & _ & ->)]; [apply buffer_fails in F; congruence | reflexivity].
  - split.
    + intros [= ->]. left. now apply buffer_fails.
    + intros [F|[N _]]; [apply buffer_fails in F; congruence|]. apply buffer_done in N as (c & N). congruence.
  - destruct (buffer_no_panic v B).
Qed.
Print Assumptions C112_wrapped_refusals.

(** A name the enum does not have, alone or as the one key of a map, is refused
    with the names it does have. *)
Theorem C112_unknown_variants_are_named : forall o vs v n s, ~ In n (map fst vs) -> expected_variants (map fst vs) s ->
  v = VStr n \/ (exists x, v = VMap [(n, x)] /\ ~ has_wide x) ->
  de_buffered_enum o vs v = Fail (EDeserialization (lit "unknown variant " ++ tick n ++ lit ", " ++ s)).
Proof.
  intros o vs v n s Nn Hs Hv.
  assert (C : c_variant vs n = Fail (EDeserialization (lit "unknown variant " ++ tick n ++ lit ", " ++ s))).
  { unfold c_variant. destruct (find (fun p => str_eqb n (fst p)) vs) as [p|] eqn:F.
    - apply List.find_some in F as [F1 F2]. destruct (str_eqb_spec n (fst p)) as [->|]; [|discriminate]. destruct Nn. now apply in_map.
    - rewrite <- (unknown_variant_text n _ s Hs). unfold de_fail. do 2 f_equal. now destruct vs. }
  destruct Hv as [->|(x & -> & W)]; unfold de_buffered_enum.
  - cbn [buffer obind de_content_enum]. now rewrite C.
  - apply buffer_done in W as (c & B). cbn [buffer buffer_entries]. rewrite B. cbn [obind de_content_enum]. now rewrite C.
Qed.
Print Assumptions C112_unknown_variants_are_named.

(** Every value of the enum survives in such a wrapper. *)
Theorem C112_wrapped_comes_back : forall name n vs k sh d, good_enum vs -> In (k, sh) vs -> shape_kept sh -> has_variant k sh d -> ~ data_wide d ->
  exists v, ser_untagged (DNewtypeVariant n d) = Done v /\ forall v', vequiv v v' -> uniq v' ->
    exists d', de_wrapped_enum name n vs v' = Done (DNewtypeVariant n d') /\ same_variant d d'.
Proof.
  intros name n vs k sh d G Hin K H W. destruct (enum_written k sh d K H W) as (v & E & Nw). exists v. split; [exact E|].
  intros v' Ev U. destruct (enum_returns false vs k sh d v v' Hin K H E Ev U) as (d' & R & S). exists d'. split; auto.
  apply C112_wrapped_reads_exactly_this; auto. split; [exact (narrow_equiv v v' Nw Ev) | eauto].
Qed.
Print Assumptions C112_wrapped_comes_back.

(** As fields of a flattened struct: unknown entries are allowed, but no 128-bit
    number may be anywhere. *)
Theorem C112_flattened_reads_exactly_this : forall n fs v d, NoDup (map fst fs) -> (forall f vs, In (f, vs) fs -> good_enum vs) -> uniq v ->
  (de_flat_enums n fs v = Done d <-> mapv v /\ ~ has_wide v /\ exists l, d = DStruct [(n, DStruct l)] /\
     Forall2 (fun f e => fst e = fst f /\ exists x, holds v (fst f) x /\ enum_reads true (snd f) x (snd e)) fs l).
Proof. intros n fs v d ND G U. now apply flat_enums_iff. Qed.
Print Assumptions C112_flattened_reads_exactly_this.
Theorem C112_flattened_needs_a_map : forall n fs v, ~ mapv v ->
  de_flat_enums n fs v = Fail (EDeserialization (lit "Can't deserialize " ++ v_display v ++ lit " to Map")).
Proof. intros n fs v M. destruct v; try reflexivity. destruct M. now eexists. Qed.
Print Assumptions C112_flattened_needs_a_map.

Theorem C112_flattened_comes_back : forall n fs ds, NoDup (map fst fs) -> (forall f vs, In (f, vs) fs -> good_enum vs) ->
  Forall2 (fun f e => fst e = fst f /\ exists k sh, In (k, sh) (snd f) /\ shape_kept sh /\ has_variant k sh (snd e) /\ ~ data_wide (snd e)) fs ds ->
  exists v, ser_flat [] [(n, DStruct ds)] = Done v /\ forall v', vequiv v v' -> uniq v' ->
    exists l, de_flat_enums n fs v' = Done (DStruct [(n, DStruct l)]) /\
      Forall2 (fun e e' => fst e' = fst e /\ same_variant (snd e) (snd e')) ds l.
Proof.
  intros n fs ds ND G F.
  assert (X : exists es, field_entries ds es /\ forall k x, In (k, x) es -> ~ has_wide x).
  { clear - F. induction F as [|f e fs ds (E & k & sh & Hk & K & H & W) F IH]; [exists []; split; [constructor | intros k x []]|].
    destruct IH as (es & F1 & N1). destruct (enum_written k sh _ K H W) as (x & Ex & Nx). exists ((fst e, x) :: es). split; [constructor; auto|].
    intros k0 x0 [[= <- <-]|Hx]; auto. eapply N1; eauto. }
  destruct X as (es & Fe & Nw). exists (VMap (puts [] es)). split; [apply flat_one_written; eauto|]. intros v' Ev U.
  assert (Kds : map fst ds = map fst fs) by (clear - F; induction F as [|? ? ? ? [E _] F IH]; cbn; congruence).
  assert (Kes : map fst es = map fst ds) by (now apply field_entries_keys).
  pose proof (narrow_equiv _ _ (puts_narrow es Nw) Ev) as Nv.
  destruct (made_nodup es (VMap (puts [] es))) as (m & Em & _ & Mi); [congruence | apply puts_made_of|]. injection Em as <-.
  apply vequiv_map_l in Ev as (m' & -> & A & _).
  assert (Y : exists l, Forall2 (fun f e => fst e = fst f /\ exists x, holds (VMap m') (fst f) x /\ enum_reads true (snd f) x (snd e)) fs l /\
     Forall2 (fun e e' => fst e' = fst e /\ same_variant (snd e) (snd e')) ds l).
  { assert (In' : forall k x, In (k, x) es -> exists x', In (k, x') m' /\ vequiv x x') by (intros k x Hx; apply A, Mi, Hx).
    pose proof (proj1 (uniq_map _) U) as [_ Um]. clear - F Fe In' Um. revert es Fe In'.
    induction F as [|f e fs ds (E & k & sh & Hk & K & H & W) F IH]; intros es Fe In'; [exists []; split; constructor|].
    inversion Fe as [|? [k0 x] ? es' [E1 E2] Fe']; subst. cbn in E1, E2. subst k0.
    destruct (IH es' Fe') as (l & L1 & L2); [intros; eapply In'; right; eauto|].
    destruct (In' (fst e) x (or_introl eq_refl)) as (x' & Hx' & Ex). rewrite E in Hx'.
    destruct (enum_returns true (snd f) k sh (snd e) x x' Hk K H E2 Ex (Um _ _ Hx')) as (d' & R & S).
    exists ((fst f, d') :: l). split; constructor; auto; cbn.
    - split; auto. exists x'. split; auto. now apply holds_map. }
  destruct Y as (l & L1 & L2). exists l. split; auto. apply C112_flattened_reads_exactly_this; auto. split; [eexists; reflexivity|]. split; eauto.
Qed.
Print Assumptions C112_flattened_comes_back.

(** Unit variants are read from their names, so also from environment
    variables, whose values are texts (C33); the other variants never are. *)
Theorem C112_from_text : forall name n vs s d, good_enum vs ->
  (de_wrapped_enum name n vs (VStr s) = Done d <-> In (s, ShUnit) vs /\ d = DNewtypeVariant n (DUnitVariant s)).
Proof.
  intros name n vs s d G. etransitivity; [apply C112_wrapped_reads_exactly_this; auto; now constructor|]. split.
  - intros (_ & x & -> & H). inversion H; subst. auto.
  - intros [H ->]. split; [intros X; inversion X|]. eexists. split; [reflexivity|]. now constructor.
Qed.
Print Assumptions C112_from_text.

(** enum Level { Off, Limit(u16), Range(i32, i32), Named { name: String } } *)
Definition be_level : list (str * shape) := [(lit "Off", ShUnit); (lit "Limit", ShNewtype (TInt U16)); (lit "Range", ShTuple [TInt I32; TInt I32]);
  (lit "Named", ShStruct [(lit "name", TString)])].
Definition be_fields : list (str * list (str * shape)) := [(lit "log", be_level); (lit "net", be_level)].
Definition be_datum : data := DStructVariant (lit "Named") [(lit "name", DStr (lit "x"))].
Example C112_example : good_enum be_level /\ NoDup (map fst be_fields)
  /\ has_variant (lit "Named") (ShStruct [(lit "name", TString)]) be_datum /\ ~ data_wide be_datum /\ shape_kept (ShStruct [(lit "name", TString)])
  /\ de_wrapped_enum (lit "W") (lit "It") be_level (VMap [(lit "Named", VMap [(lit "name", VStr (lit "x"))])]) = Done (DNewtypeVariant (lit "It") be_datum)
  /\ de_wrapped_enum (lit "W") (lit "It") be_level (VStr (lit "Off")) = Done (DNewtypeVariant (lit "It") (DUnitVariant (lit "Off")))
  /\ de_flat_enums (lit "p") be_fields (VMap [(lit "net", VMap [(lit "Range", VArr [VInt 1; VInt 2])]); (lit "other", VBool true); (lit "log", VMap [(lit "Off", VMap [])])])
     = Done (DStruct [(lit "p", DStruct [(lit "log", DUnitVariant (lit "Off")); (lit "net", DTupleVariant (lit "Range") [DInt I32 1; DInt I32 2])])])
  /\ (exists e, de_flat_enums (lit "p") be_fields (VMap [(lit "log", VStr (lit "Off"))]) = Fail e).
Proof.
  assert (Kn : shape_kept (ShStruct [(lit "name", TString)])).
  { cbn. apply KeStruct; [repeat constructor; cbn; intuition discriminate|]. intros n t [[= <- <-]|[]]. now apply KeFlat. }
  split. { split; [repeat constructor; cbn; intuition discriminate|].
    intros n sh [[= <- <-]|[[= <- <-]|[[= <- <-]|[[= <- <-]|[]]]]]; [exact I| | |].
    - apply kept_usable. apply KeFlat. exact (fun x => x).
    - apply kept_usable, KeTuple. intros t [<-|[<-|[]]]; apply KeFlat; exact (fun x => x).
    - now apply kept_usable. }
  split; [repeat constructor; cbn; intuition discriminate|]. split.
  { constructor. apply HtStruct; [reflexivity|]. repeat constructor. }
  split.
  { intros X. inversion X as [| | | | | | | | | | | |? ? f d Hd Wd]; subst. destruct Hd as [[= <- <-]|[]]; inversion Wd. }
  split; [exact Kn|]. split; [reflexivity|]. split; [reflexivity|]. split; [reflexivity|]. eexists; reflexivity.
Qed.
