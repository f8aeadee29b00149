(** C104-C106: untagged enums, internally tagged enums and flattened structs
    written to a Value and read back. *)
From Coq Require Import ZArith Bool String Lia.
From Coq Require Import List.
Import ListNotations.
From Verif.Model Require Import Text Num Flt Value Convert Serde Buffered BufferedSer.
From Verif.Spec Require Import Spec Numerals SerdeSpec ReadSpec BufferedSpec BufferedSerSpec.
From Verif.Proofs Require Import Basics Conversions SerProofs DeProofs RoundTrip VisitorProofs BufferedProofs BufferedMore BufferedTrips BufferedTripsMore.
Local Open Scope Z_scope.

(** ** C104: untagged enums *)
Theorem C104_survives_unless_an_earlier_variant_reads_it : forall name before n sh after d,
  NoDup (map fst (before ++ (n, sh) :: after)) -> (forall n' sh', In (n', sh') (before ++ (n, sh) :: after) -> shape_usable sh') ->
  shape_kept sh -> has_variant n sh d -> ~ data_wide d ->
  exists v, ser_untagged d = Done v /\ forall v', vequiv v v' -> uniq v' ->
    ((exists d', de_untagged name (before ++ (n, sh) :: after) v' = Done d' /\ same_variant d d')
     <-> forall n' sh' d', In (n', sh') before -> ~ variant_reads n' sh' v' d').
Proof.
  intros name before n sh after d ND Us K H W. destruct (untagged_written n sh d K H W) as (v & E & Nw). exists v. split; auto.
  intros v' Ev U. pose proof (narrow_equiv v v' Nw Ev) as Nw'. apply narrow_val in Nw' as (c & ->). unfold de_untagged. rewrite buffer_of_val. cbn [obind]. split.
  - intros (d' & D & S). apply first_variant_done in D as (b2 & n2 & sh2 & a2 & Eq & R & No); auto.
    assert (n2 = n) as -> by (eapply is_variant_fun; [eapply variant_reads_name; eauto | eapply same_variant_name; eauto; eapply has_variant_name; eauto]).
    assert (b2 = before) as ->; [|exact No]. clear - ND Eq. revert b2 Eq. induction before as [|[k s] before IH]; intros [|[k2 s2] b2] Eq; cbn in *; auto.
    + injection Eq as <- <- ->. inversion ND as [|? ? N1 N2]; subst. destruct N1. rewrite map_app. apply in_or_app. right; left; reflexivity.
    + injection Eq as -> -> Eq. inversion ND as [|? ? N1 N2]; subst. destruct N1. rewrite map_app. apply in_or_app. right; left; reflexivity.
    + injection Eq as -> -> Eq. inversion ND; subst. f_equal. now apply IH.
  - intros No. destruct (untagged_returns n sh d v (val c) K H E Ev U) as (d' & R & S). exists d'. split; auto. apply first_variant_done; eauto 8.
Qed.
Print Assumptions C104_survives_unless_an_earlier_variant_reads_it.

(** It is read back as something in any case. *)
Theorem C104_is_always_read_back : forall name vs n sh d v v', In (n, sh) vs -> (forall n' sh', In (n', sh') vs -> shape_usable sh') ->
  shape_kept sh -> has_variant n sh d -> ~ data_wide d -> ser_untagged d = Done v -> vequiv v v' -> uniq v' -> exists d', de_untagged name vs v' = Done d'.
Proof.
  intros name vs n sh d v v' Hin Us K H W E Ev U. destruct (untagged_written n sh d K H W) as (v0 & E0 & Nw). assert (v0 = v) as -> by congruence.
  pose proof (narrow_equiv v v' Nw Ev) as Nw'. apply narrow_val in Nw' as (c & ->). unfold de_untagged. rewrite buffer_of_val. cbn [obind].
  destruct (first_variant name vs c) as [d'|e|] eqn:F; [eauto| |].
  - apply first_variant_fail in F as [F _]; auto. destruct (untagged_returns n sh d v (val c) K H E Ev U) as (d' & R & _). destruct (F _ _ _ Hin R).
  - exfalso. clear - F Us. induction vs as [|[k s] vs IH]; [discriminate|]. cbn in F. pose proof (variant_no_panic k s c (Us _ _ (or_introl eq_refl))).
    destruct (try_variant k s c); try congruence. apply IH; auto. intros; eapply Us; right; eauto.
Qed.
Print Assumptions C104_is_always_read_back.

(** Refuted: "what is written is what is read": enum { Small(u8), Big(u64) }. *)
Definition ut_sizes : list (str * shape) := [(lit "Small", ShNewtype (TInt U8)); (lit "Big", ShNewtype (TInt U64))].
Theorem C104_comes_back_as_another_variant_refuted : exists v, has_variant (lit "Big") (ShNewtype (TInt U64)) (DNewtypeVariant (lit "Big") (DInt U64 5)) /\
  ser_untagged (DNewtypeVariant (lit "Big") (DInt U64 5)) = Done v /\ de_untagged (lit "Size") ut_sizes v = Done (DNewtypeVariant (lit "Small") (DInt U8 5)).
Proof. exists (VUInt 5). split; [constructor; constructor; cbv; intuition discriminate|]. split; reflexivity. Qed.
Print Assumptions C104_comes_back_as_another_variant_refuted.

(** Maps keyed by numbers or truth values are written, but (unless empty) never
    come back, although they do outside such enums (C57). *)
Theorem C104_maps_keyed_by_numbers_do_not_come_back : forall name n tk tv m v v' d', key_type tk -> ~ text_like tk -> usable tv ->
  has_type (TMap tk tv) (DMap m) -> m <> [] -> ser_untagged (DNewtypeVariant n (DMap m)) = Done v -> vequiv v v' -> uniq v' ->
  de_untagged name [(n, ShNewtype (TMap tk tv))] v' <> Done d'.
Proof.
  intros name n tk tv m v v' d' K Nt Us H Nm E Ev U D.
  assert (S : forall l p s a, ~ strict l p tk (VStr s) a).
  { intros l p. clear - K Nt. induction K as [|t N| | |t K IH]; intros s a X.
    - inversion X.
    - inversion X as [|? ? ? [W|W]| |? ? [W|W]| |? ? [W|W]| | | | | | | | | | | | | | | | |]; discriminate.
    - destruct Nt. constructor.
    - destruct Nt. constructor.
    - inversion X; subst. apply (IH (fun T => Nt (TlkNewtype _ T)) s d). assumption. }
  assert (Usm : usable (TMap tk tv)).
  { destruct Us as [P1 P2]. split; [now apply PrMap|]. constructor; auto. clear - K. induction K; now constructor. }
  unfold de_untagged in D. apply obind_done in D as (c & B & D). apply buffer_val in B. subst v'.
  apply first_variant_done in D as (b & k & sh & a & Eq & R & _); auto; [|intros n' sh' [[= <- <-]|[]]; exact Usm].
  destruct b as [|? [|? ?]]; [injection Eq as <- <- _ | discriminate Eq | discriminate Eq].
  inversion R as [|? ? ? x X| |]; subst. cbn [ser_untagged] in E. destruct m as [|[a1 b1] m]; [contradiction|].
  destruct (ser_map_stored tk tv _ v H E) as (S1 & _). destruct (S1 a1 b1 (or_introl eq_refl)) as (s & y & _ & _ & Hy).
  destruct Hy as (mv & -> & Hy). apply vequiv_map_l in Ev as (m' & Em & V1 & _). rewrite Em in X. destruct (V1 s y Hy) as (z & Hz & _).
  inversion X as [| | | | | | | | | | | | | | | | | | |? ? ? r F| | |]; subst. destruct (Forall2_in_l _ _ _ _ F Hz) as (q & _ & Q & _). exact (S _ _ _ _ Q).
Qed.
Print Assumptions C104_maps_keyed_by_numbers_do_not_come_back.

Definition ut_limit : list (str * shape) := [(lit "Off", ShUnit); (lit "Max", ShNewtype (TInt U16)); (lit "Range", ShTuple [TInt I32; TInt I32]);
  (lit "Named", ShStruct [(lit "name", TString); (lit "soft", TOption TF32)])].
Definition ut_before : list (str * shape) := [(lit "Off", ShUnit); (lit "Max", ShNewtype (TInt U16)); (lit "Range", ShTuple [TInt I32; TInt I32])].
Definition ut_shape : shape := ShStruct [(lit "name", TString); (lit "soft", TOption TF32)].
Definition ut_datum : data := DStructVariant (lit "Named") [(lit "name", DStr (lit "x")); (lit "soft", DNone)].
Example C104_example : ut_limit = ut_before ++ (lit "Named", ut_shape) :: [] /\ NoDup (map fst ut_limit) /\ (forall n sh, In (n, sh) ut_limit -> shape_usable sh)
  /\ shape_kept ut_shape /\ has_variant (lit "Named") ut_shape ut_datum /\ ~ data_wide ut_datum
  /\ ser_untagged ut_datum = Done (VMap [(lit "name", VStr (lit "x")); (lit "soft", VNone)])
  /\ de_untagged (lit "Limit") ut_limit (VMap [(lit "soft", VNone); (lit "name", VStr (lit "x"))]) = Done ut_datum
  /\ key_type (TInt U16) /\ ~ text_like (TInt U16) /\ ser_untagged (DNewtypeVariant (lit "Ports") (DMap [(DInt U16 80, DStr (lit "http"))])) = Done (VMap [(lit "80", VStr (lit "http"))])
  /\ has_type (TMap (TInt U16) TString) (DMap [(DInt U16 80, DStr (lit "http"))]).
Proof.
  assert (Kn : shape_kept ut_shape).
  { cbn. apply KeStruct; [repeat constructor; cbn; intuition discriminate|]. intros n t [[= <- <-]|[[= <- <-]|[]]]; [now apply KeFlat|].
    apply KeOption; [now apply KeFlat | constructor]. }
  split; [reflexivity|]. split; [repeat constructor; cbn; intuition discriminate|]. split.
  { intros n sh [[= <- <-]|[[= <- <-]|[[= <- <-]|[[= <- <-]|[]]]]]; [exact I| | |].
    - apply kept_usable. apply KeFlat. exact (fun x => x).
    - apply kept_usable, KeTuple. intros t [<-|[<-|[]]]; apply KeFlat; exact (fun x => x).
    - now apply kept_usable. }
  split; [exact Kn|]. split.
  { constructor. apply HtStruct; [reflexivity|]. repeat constructor. }
  split.
  { intros X. inversion X as [| | | | | | | | | | | |? ? f d Hd Wd]; subst. destruct Hd as [[= <- <-]|[[= <- <-]|[]]]; inversion Wd. }
  split; [reflexivity|]. split; [reflexivity|]. split; [constructor; exact (fun x => x)|]. split; [intros X; inversion X|]. split; [reflexivity|].
  apply HtMap; [constructor; exact (fun x => x) | repeat constructor; intros []|]. intros a b [[= <- <-]|[]]. split; constructor. cbv. intuition discriminate.
Qed.

(** ** C105: internally tagged enums *)
(** What is written: the tag, then the entries of the content; of several under
    one name the last remains. *)
Theorem C105_written_exactly : forall tag d,
  (forall v, ser_tagged tag d = Done v -> exists n es, is_variant n d /\ variant_entries d es /\ made_of ((tag, VStr n) :: es) v)
  /\ forall n es, is_variant n d -> variant_entries d es -> exists v, ser_tagged tag d = Done v /\ made_of ((tag, VStr n) :: es) v.
Proof.
  intros tag d. split.
  - intros v E. apply tagged_iff_entries in E as (n & es & V & He & ->). exists n, es. split; auto. split; auto. exact (puts_made_of ((tag, VStr n) :: es)).
  - intros n es V He. exists (VMap (puts [(tag, VStr n)] es)). split; [apply tagged_iff_entries; eauto | exact (puts_made_of ((tag, VStr n) :: es))].
Qed.
Print Assumptions C105_written_exactly.

(** A newtype variant can be written iff its content can, and is map-like. *)
Theorem C105_written_iff_content_is_a_map : forall tag n d,
  (exists v, ser_tagged tag (DNewtypeVariant n d) = Done v) <-> taggable d /\ exists v, ser d = Done v.
Proof.
  intros tag n d. split.
  - intros (v & E). apply tagged_iff_entries in E as (n' & es & _ & He & _). inversion He; subst. eapply entries_taggable; eauto.
  - intros (T & v & E). destruct (entries_exist d v T E) as (es & He). eexists. apply tagged_iff_entries. exists n, es. split; [reflexivity|]. split; [now constructor | reflexivity].
Qed.
Print Assumptions C105_written_iff_content_is_a_map.

Theorem C105_survives : forall tag vs n sh d, NoDup (map fst vs) -> (forall n sh, In (n, sh) vs -> tshape_usable sh) -> In (n, sh) vs ->
  tshape_kept sh -> has_tvariant n sh d -> ~ data_wide d -> (forall k x, d = DNewtypeVariant k x -> taggable x) -> ~ variant_writes d tag ->
  exists v, ser_tagged tag d = Done v /\ forall v', vequiv v v' -> uniq v' -> exists d', de_tagged tag vs v' = Done d' /\ same_variant d d'.
Proof. exact tagged_returns. Qed.
Print Assumptions C105_survives.

(** When the content does have an entry named like the tag, that entry replaces
    the tag and says which variant is read back. *)
Theorem C105_an_entry_named_like_the_tag_replaces_it : forall tag vs d es x v v' d', NoDup (map fst vs) -> (forall n sh, In (n, sh) vs -> tshape_usable sh) ->
  variant_entries d es -> last_binding es tag x -> ser_tagged tag d = Done v -> vequiv v v' -> uniq v' ->
  holds v tag x /\ (de_tagged tag vs v' = Done d' -> exists n, into_string x = Ok n /\ is_variant n d').
Proof.
  intros tag vs d es x v v' d' ND Us He L E Ev U. apply tagged_iff_entries in E as (n0 & es' & Hv & He' & ->).
  assert (es' = es) as ->.
  { assert (Fu : forall A (f : A -> mres value) (a b : list value) (l : list A), Forall2 (fun y z => f y = Done z) l a -> Forall2 (fun y z => f y = Done z) l b -> a = b).
    { clear. intros A f a b l F; revert b; induction F as [|y z l a E F IH]; intros b G; inversion G; subst; auto. f_equal; [congruence | auto]. }
    clear - He He'. destruct He as [n|n d l He|n fs l F]; [inversion He'; subst; auto | inversion He' as [|? ? ? G|]; subst | inversion He' as [| |? ? ? F']; subst].
    - clear He'. revert es' G. induction He as [| |d l He IH|fs l F|m l F|m l F|d l k y H ->]; intros es' G.
      + inversion G as [| | | | | |? ? ? ? X]; subst; auto. destruct X as [[Y _]|[(z & Y & _)|[(z & Y & _)|(z & Y & _)]]]; discriminate Y.
      + inversion G as [| | | | | |? ? ? ? X]; subst; auto. destruct X as [[Y _]|[(z & Y & _)|[(z & Y & _)|(z & Y & _)]]]; discriminate Y.
      + inversion G as [| | | | | |? ? ? ? X]; subst; auto. destruct X as [[Y _]|[(z & Y & _)|[(z & Y & _)|(z & Y & _)]]]; discriminate Y.
      + inversion G as [| | |? ? F'| | |? ? ? ? X]; subst; [|destruct X as [[Y _]|[(z & Y & _)|[(z & Y & _)|(z & Y & _)]]]; discriminate Y].
        clear - F F'. revert es' F'. induction F as [|f [k y] fs l [E1 E2] F IH]; intros es' F'; inversion F' as [|? [k' y'] ? ? [E3 E4] G]; subst; auto. cbn [fst snd] in *. f_equal; [congruence | auto].
      + inversion G as [| | | |? ? F'| |? ? ? ? X]; subst; [|destruct X as [[Y _]|[(z & Y & _)|[(z & Y & _)|(z & Y & _)]]]; discriminate Y].
        clear - F F'. revert es' F'. induction F as [|f [k y] fs l [(kv & K1 & K2) E2] F IH]; intros es' F'; inversion F' as [|? [k' y'] ? ? [(kv' & K3 & K4) E4] G]; subst; auto. cbn [fst snd] in *. f_equal; [congruence | auto].
      + inversion G as [| | | | |? ? F'|? ? ? ? X]; subst; [|destruct X as [[Y _]|[(z & Y & _)|[(z & Y & _)|(z & Y & _)]]]; discriminate Y].
        clear - F F'. revert es' F'. induction F as [|f [k y] fs l [E1 E2] F IH]; intros es' F'; inversion F' as [|? [k' y'] ? ? [E3 E4] G]; subst; auto. cbn [fst snd] in *. f_equal; [congruence | auto].
      + destruct H as [[-> ->]|[(z & -> & Z)|[(z & -> & Z)|(z & -> & Z)]]]; inversion G as [| | | | | |? ? k' y' X]; subst;
          destruct X as [[Y W]|[(w & Y & W)|[(w & Y & W)|(w & Y & W)]]]; try discriminate Y; injection Y as Y1; subst; try reflexivity; f_equal; f_equal; congruence.
    - clear He'. revert es' F'. induction F as [|f [k y] fs l [E1 E2] F IH]; intros es' F'; inversion F' as [|? [k' y'] ? ? [E3 E4] G]; subst; auto. cbn [fst snd] in *. f_equal; [congruence | auto]. }
  destruct (puts_made_of ((tag, VStr n0) :: es)) as (m & Em & NM & B). change (puts [] ((tag, VStr n0) :: es)) with (puts [(tag, VStr n0)] es) in Em. rewrite Em in *.
  assert (L' : last_binding ((tag, VStr n0) :: es) tag x) by (destruct L as (b & a & -> & N); exists ((tag, VStr n0) :: b), a; auto).
  apply B in L'. split; [exists m; auto|]. intros D. apply tagged_iff in D; auto.
  apply vequiv_map_l in Ev as (m' & -> & V1 & _). apply uniq_map in U as [NM' _]. destruct (V1 tag x L') as (y & Hy & Exy).
  inversion D as [m1 z m2 n sh d1 N1 Hz Hin Nw C|]; subst. assert (y = z) as ->.
  { apply (In_mget tag y) in Hy; auto. assert (Hz' : In (tag, z) (m1 ++ (tag, z) :: m2)) by (apply in_or_app; right; left; reflexivity). apply In_mget in Hz'; auto. congruence. }
  exists n. split; [|destruct C; reflexivity].
  destruct x; try (apply vequiv_scalar_l in Exy; [|exact I]; subst; exact Hz).
  - apply vequiv_arr_l in Exy as (r & -> & _). discriminate Hz.
  - apply vequiv_map_l in Exy as (r & -> & _). discriminate Hz.
Qed.
Print Assumptions C105_an_entry_named_like_the_tag_replaces_it.

(** Refuted: "a tagged enum comes back as the variant it was". *)
Definition tt_events : list (str * tshape) := [(lit "ping", TsUnit); (lit "labels", TsNewtype (TMap TString TString))].
Theorem C105_comes_back_as_another_variant_refuted : exists d v, has_tvariant (lit "labels") (TsNewtype (TMap TString TString)) d /\
  ser_tagged (lit "type") d = Done v /\ de_tagged (lit "type") tt_events v = Done (DUnitVariant (lit "ping")).
Proof.
  exists (DNewtypeVariant (lit "labels") (DMap [(DStr (lit "type"), DStr (lit "ping"))])), (VMap [(lit "type", VStr (lit "ping"))]).
  split; [|split; reflexivity]. constructor. apply HtMap; [constructor | repeat constructor; intros []|]. intros a b [[= <- <-]|[]]. split; constructor.
Qed.
Print Assumptions C105_comes_back_as_another_variant_refuted.

Definition tt_store : list (str * tshape) := [(lit "memory", TsUnit); (lit "file", TsStruct [(lit "path", TString); (lit "mode", TOption (TInt U16))]); (lit "other", TsNewtype (TMap TString TBool)); (lit "none", TsNewtype TUnit)].
Definition tt_datum : data := DNewtypeVariant (lit "other") (DMap [(DStr (lit "a"), DBool true); (DStr (lit "b"), DBool false)]).
Example C105_example : NoDup (map fst tt_store) /\ (forall n sh, In (n, sh) tt_store -> tshape_usable sh) /\ In (lit "other", TsNewtype (TMap TString TBool)) tt_store
  /\ tshape_kept (TsNewtype (TMap TString TBool)) /\ has_tvariant (lit "other") (TsNewtype (TMap TString TBool)) tt_datum
  /\ ~ data_wide tt_datum /\ (forall k x, tt_datum = DNewtypeVariant k x -> taggable x) /\ ~ variant_writes tt_datum (lit "kind")
  /\ ser_tagged (lit "kind") tt_datum = Done (VMap [(lit "kind", VStr (lit "other")); (lit "a", VBool true); (lit "b", VBool false)])
  /\ de_tagged (lit "kind") tt_store (VMap [(lit "b", VBool false); (lit "kind", VStr (lit "other")); (lit "a", VBool true)]) =
     Done (DNewtypeVariant (lit "other") (DMap [(DStr (lit "b"), DBool false); (DStr (lit "a"), DBool true)]))
  /\ ser_tagged (lit "kind") (DNewtypeVariant (lit "none") DUnit) = Done (VMap [(lit "kind", VStr (lit "none"))])
  /\ de_tagged (lit "kind") tt_store (VMap [(lit "kind", VStr (lit "none"))]) = Done (DNewtypeVariant (lit "none") DUnit)
  /\ ~ taggable (DSeq []) /\ ~ taggable (DSome (DMap [])).
Proof.
  assert (KO : kept (TMap TString TBool)) by (apply KeMap; [constructor | now apply KeFlat]).
  split; [repeat constructor; cbn; intuition discriminate|]. split.
  { intros n sh [[= <- <-]|[[= <- <-]|[[= <- <-]|[[= <- <-]|[]]]]]; [exact I| | |]; cbn; apply kept_usable; auto.
    - apply KeStruct; [repeat constructor; cbn; intuition discriminate|]. intros n t [[= <- <-]|[[= <- <-]|[]]]; [now apply KeFlat|].
      apply KeOption; [apply KeFlat; exact (fun x => x) | constructor].
    - now apply KeFlat. }
  split; [right; right; left; reflexivity|]. split; [exact KO|]. split.
  { constructor. apply HtMap; [constructor | repeat constructor; cbn; intuition discriminate|]. intros a b [[= <- <-]|[[= <- <-]|[]]]; split; constructor. }
  split.
  { intros X. inversion X as [| | | | | | | | | |? ? Y| |]; subst. inversion Y as [| | | | |? a b Hin Z|? a b Hin Z| | | | | |]; subst;
      destruct Hin as [[= <- <-]|[[= <- <-]|[]]]; inversion Z. }
  split; [intros k x [= <- <-]; constructor|]. split.
  { intros X. inversion X as [? ? ? Y|]; subst. inversion Y as [| |? a b ? Hin Hk|]; subst. destruct Hin as [[= <- <-]|[[= <- <-]|[]]]; inversion Hk. }
  split; [reflexivity|]. split; [reflexivity|]. split; [reflexivity|]. split; [reflexivity|].
  split; intros X; inversion X as [| | | | | |? Y]; inversion Y.
Qed.

(** ** C106: flattened structs *)
(** What is written: own fields, then the entries of the parts; of several under
    one name the last remains. *)
Theorem C106_written_exactly : forall own parts,
  (forall v, ser_flat own parts = Done v -> exists es ess, field_entries own es /\ Forall2 (fun p l => part_entries (snd p) l) parts ess /\ made_of (es ++ concat ess) v)
  /\ forall es ess, field_entries own es -> Forall2 (fun p l => part_entries (snd p) l) parts ess -> exists v, ser_flat own parts = Done v /\ made_of (es ++ concat ess) v.
Proof.
  intros own parts. split.
  - intros v E. apply flat_written in E as (es & ess & F1 & F2 & ->). exists es, ess. split; auto. split; auto. apply puts_made_of.
  - intros es ess F1 F2. eexists. split; [apply flat_written; eauto | apply puts_made_of].
Qed.
Print Assumptions C106_written_exactly.

(** With distinct names, and a flattened map only in last place, everything
    comes back. *)
Theorem C106_survives : forall own sps rest od spds rpds,
  NoDup (map fst own ++ flat_map part_names sps) -> (forall n t, In (n, t) own -> round_trips t) ->
  (forall p, In p sps -> is_struct_part p) -> (rest = [] \/ exists n t, rest = [(n, FpMap t)]) ->
  (forall n p, In (n, p) (sps ++ rest) -> part_kept p) ->
  has_type (TStruct own) (DStruct od) -> Forall2 (fun p d => fst d = fst p /\ has_part (snd p) (snd d)) sps spds ->
  Forall2 (fun p d => fst d = fst p /\ has_part (snd p) (snd d)) rest rpds ->
  ~ data_wide (DStruct (od ++ spds ++ rpds)) ->
  (forall n d k, In (n, d) rpds -> writes_under d k -> ~ In k (map fst own ++ flat_map part_names sps)) ->
  exists v, ser_flat od (spds ++ rpds) = Done v /\ forall v', vequiv v v' -> uniq v' ->
    exists od' pd', de_flat own (sps ++ rest) v' = Done (DStruct (od' ++ pd')) /\ data_equiv (DStruct od) (DStruct od') /\ data_equiv (DStruct (spds ++ rpds)) (DStruct pd').
Proof. exact flat_returns. Qed.
Print Assumptions C106_survives.

(** Refuted: "the own fields come back": an entry of a flattened map replaces a
    field of the same name, and is not in the map that is read back. *)
Definition ft_own : list (str * ty) := [(lit "name", TString)].
Theorem C106_a_map_entry_replaces_a_field_refuted : exists v,
  ser_flat [(lit "name", DStr (lit "srv"))] [(lit "rest", DMap [(DStr (lit "name"), DStr (lit "x"))])] = Done v /\
  de_flat ft_own [(lit "rest", FpMap TString)] v = Done (DStruct [(lit "name", DStr (lit "x")); (lit "rest", DMap [])]).
Proof. exists (VMap [(lit "name", VStr (lit "x"))]). split; reflexivity. Qed.
Print Assumptions C106_a_map_entry_replaces_a_field_refuted.

(** Refuted: "the parts come back": a flattened map listed before a flattened
    struct takes that struct's fields too. *)
Theorem C106_a_map_takes_the_fields_of_later_parts_refuted : exists v,
  ser_flat [] [(lit "rest", DMap []); (lit "net", DStruct [(lit "on", DBool true)])] = Done v /\
  de_flat [] [(lit "rest", FpMap TBool); (lit "net", FpStruct [(lit "on", TBool)])] v =
    Done (DStruct [(lit "rest", DMap [(DStr (lit "on"), DBool true)]); (lit "net", DStruct [(lit "on", DBool true)])]).
Proof. exists (VMap [(lit "on", VBool true)]). split; reflexivity. Qed.
Print Assumptions C106_a_map_takes_the_fields_of_later_parts_refuted.

Definition ft_net : list (str * ty) := [(lit "port", TInt U16); (lit "host", TOption TString)].
Example C106_example : NoDup (map fst ft_own ++ flat_map part_names [(lit "net", FpStruct ft_net)])
  /\ (forall n t, In (n, t) ft_own -> round_trips t) /\ (forall p, In p [(lit "net", FpStruct ft_net)] -> is_struct_part p)
  /\ (forall n p, In (n, p) ([(lit "net", FpStruct ft_net)] ++ [(lit "rest", FpMap TBool)]) -> part_kept p)
  /\ has_type (TStruct ft_own) (DStruct [(lit "name", DStr (lit "srv"))])
  /\ has_part (FpStruct ft_net) (DStruct [(lit "port", DInt U16 80); (lit "host", DNone)]) /\ has_part (FpMap TBool) (DMap [(DStr (lit "tls"), DBool true)])
  /\ ~ In (lit "tls") (map fst ft_own ++ map fst ft_net)
  /\ ser_flat [(lit "name", DStr (lit "srv"))] [(lit "net", DStruct [(lit "port", DInt U16 80); (lit "host", DNone)]); (lit "rest", DMap [(DStr (lit "tls"), DBool true)])] =
     Done (VMap [(lit "name", VStr (lit "srv")); (lit "port", VUInt 80); (lit "host", VNone); (lit "tls", VBool true)])
  /\ de_flat ft_own [(lit "net", FpStruct ft_net); (lit "rest", FpMap TBool)] (VMap [(lit "tls", VBool true); (lit "host", VNone); (lit "name", VStr (lit "srv")); (lit "port", VUInt 80)]) =
     Done (DStruct [(lit "name", DStr (lit "srv")); (lit "net", DStruct [(lit "port", DInt U16 80); (lit "host", DNone)]); (lit "rest", DMap [(DStr (lit "tls"), DBool true)])]).
Proof.
  split; [repeat constructor; cbn; intuition discriminate|]. split; [intros n t [[= <- <-]|[]]; constructor|]. split; [intros p [<-|[]]; eexists; reflexivity|].
  split.
  { intros n p [[= <- <-]|[[= <- <-]|[]]]; cbn; [|now apply KeFlat]. apply KeStruct; [repeat constructor; cbn; intuition discriminate|].
    intros n t [[= <- <-]|[[= <- <-]|[]]]; [apply KeFlat; exact (fun x => x)|]. apply KeOption; [now apply KeFlat | constructor]. }
  split; [apply HtStruct; [reflexivity | repeat constructor]|]. split.
  { constructor. apply HtStruct; [reflexivity|]. constructor; [constructor; cbv; intuition discriminate|]. repeat constructor. }
  split.
  { constructor. apply HtMap; [constructor | repeat constructor; intros []|]. intros a b [[= <- <-]|[]]; split; constructor. }
  split; [cbn; intuition discriminate|]. split; reflexivity.
Qed.
