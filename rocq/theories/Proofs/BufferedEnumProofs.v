(** Enums out of the buffer (C112). *)
From Coq Require Import ZArith Bool String Lia.
From Coq Require Import List.
Import ListNotations.
From Verif.Model Require Import Text Num Flt Value Convert Serde Buffered BufferedSer BufferedEnum.
From Verif.Spec Require Import Spec Numerals Containers SerdeSpec ReadSpec BufferedSpec BufferedSerSpec BufferedEnumSpec.
From Verif.Proofs Require Import Basics Conversions SerProofs DeProofs RoundTrip Loaded VisitorProofs BufferedProofs BufferedMore BufferedTrips BufferedTripsMore Override.
Local Open Scope Z_scope.

Lemma c_variant_done vs n p : NoDup (map fst vs) -> (c_variant vs n = Done p <-> fst p = n /\ In p vs).
Proof.
  intros ND. rewrite <- (find_named vs n p ND). unfold c_variant. destruct (find (fun p0 => str_eqb n (fst p0)) vs) as [q|].
  - split; intros [= ->]; reflexivity.
  - split; intros H; discriminate H.
Qed.
Lemma usable_unit : usable TUnit.
Proof. apply kept_usable. now apply KeFlat. Qed.
Lemma beside_iff o n sh c d : shape_usable sh -> uniq (val c) -> (c_variant_content o (n, sh) c = Done d <-> beside_reads o n sh (val c) d).
Proof.
  intros S U. unfold c_variant_content; cbn [fst snd]. destruct sh as [|t|ts|fs]; cbn [shape_usable] in S.
  - split.
    + intros H. destruct (de_content o TUnit c) as [x|e|] eqn:E; try discriminate. injection H as <-. constructor.
      apply strict_usable in E; auto using usable_unit. assert (x = DUnit) by (inversion E; auto). subst x. exact E.
    + intros H. inversion H as [? X| | |]; subst. apply strict_usable in X; auto using usable_unit. rewrite X. reflexivity.
  - etransitivity; [apply obind_iff|]. split.
    + intros (x & E & ->). constructor. now apply strict_usable.
    + intros H. inversion H as [|? ? x Hx| |]; subst. exists x. split; auto. now apply strict_usable.
  - split.
    + intros H. destruct (de_content o (TTuple ts) c) as [x|e|] eqn:E; try discriminate. destruct x; try discriminate. injection H as <-.
      constructor. now apply strict_usable.
    + intros H. inversion H as [| |? ? ds Hx|]; subst. apply strict_usable in Hx; auto. rewrite Hx. reflexivity.
  - split.
    + intros H. destruct (de_content o (TStruct fs) c) as [x|e|] eqn:E; try discriminate. destruct x; try discriminate. injection H as <-.
      constructor. now apply strict_usable.
    + intros H. inversion H as [| | |? ? ds Hx]; subst. apply strict_usable in Hx; auto. rewrite Hx. reflexivity.
Qed.
Lemma enum_iff o vs c d : NoDup (map fst vs) -> (forall n sh, In (n, sh) vs -> shape_usable sh) -> uniq (val c) ->
  (de_content_enum o vs c = Done d <-> enum_reads o vs (val c) d).
Proof.
  intros ND S U. split.
  - intros H. destruct c as [| | | | |s| |[|[n x] [|? ?]]]; try discriminate H; cbn [de_content_enum] in H; apply obind_done in H as ([k sh] & E & H);
      apply c_variant_done in E as [E Hin]; auto; cbn [fst snd] in *; subst k.
    + destruct sh; try discriminate H. injection H as <-. now constructor.
    + cbn [val map fst snd]. econstructor; eauto. apply beside_iff; eauto. apply uniq_vals_map in U as [_ U]. apply (U n). left; reflexivity.
  - intros H. remember (val c) as v eqn:Ev. destruct H as [n Hin|n sh x d Hin B].
    + destruct c; try discriminate Ev. injection Ev as ->. cbn [de_content_enum].
      assert (E : c_variant vs s = Done (s, ShUnit)) by (apply c_variant_done; auto). rewrite E. reflexivity.
    + destruct c as [| | | | | | |[|[k y] [|? ?]]]; try discriminate Ev. injection Ev as -> ->. cbn [de_content_enum].
      assert (E : c_variant vs k = Done (k, sh)) by (apply c_variant_done; auto). rewrite E. cbn [obind].
      apply beside_iff; eauto. apply uniq_map in U as [_ U]. apply (U k). left; reflexivity.
Qed.
Lemma beside_no_panic o n sh c : shape_usable sh -> c_variant_content o (n, sh) c <> Panic.
Proof.
  intros S. unfold c_variant_content; cbn [fst snd]. destruct sh as [|t|ts|fs]; cbn [shape_usable] in S.
  - pose proof (content_no_panic o TUnit (proj2 usable_unit) c). destruct (de_content o TUnit c); cbn; congruence.
  - pose proof (content_no_panic o t (proj2 S) c). destruct (de_content o t c); cbn; congruence.
  - pose proof (content_no_panic o _ (proj2 S) c). destruct (de_content o (TTuple ts) c) as [[]| |]; (discriminate || congruence).
  - pose proof (content_no_panic o _ (proj2 S) c). destruct (de_content o (TStruct fs) c) as [[]| |]; (discriminate || congruence).
Qed.
Lemma enum_no_panic o vs c : (forall n sh, In (n, sh) vs -> shape_usable sh) -> de_content_enum o vs c <> Panic.
Proof.
  intros S. assert (V : forall n, c_variant vs n <> Panic) by (intros n; unfold c_variant; destruct (find _ vs); discriminate).
  destruct c as [| | | | |s| |[|[n x] [|? ?]]]; try discriminate; cbn [de_content_enum].
  - specialize (V s). destruct (c_variant vs s) as [[k sh]|e|]; cbn [obind snd]; try congruence. destruct sh; discriminate.
  - specialize (V n). destruct (c_variant vs n) as [[k sh]|e|] eqn:E; cbn [obind]; try congruence. apply beside_no_panic.
    unfold c_variant in E. destruct (find _ vs) as [p|] eqn:F; try discriminate. injection E as ->. apply find_some in F as [F _]. eauto.
Qed.

(** ** Written and read back *)
Lemma variant_map_inv n x v : variant_map n x = Done v -> v = VMap [(n, x)].
Proof. intros [= <-]. reflexivity. Qed.
Lemma strict_beside o n sh d v v' : shape_kept sh -> has_variant n sh d -> ser_untagged d = Done v -> vequiv v v' -> uniq v' ->
  exists d', beside_reads o n sh v' d' /\ same_variant d d'.
Proof.
  intros K H E Ev U. destruct H as [|t d H|ts l H|fs l H]; cbn [shape_kept] in K; cbn [ser_untagged] in E.
  - injection E as <-. rewrite (vequiv_scalar_l VNone _ I Ev). eexists. split; repeat constructor.
  - destruct (strict_returns o true t K d H v v' E Ev U) as (d' & D1 & D2). eexists. split; constructor; eauto.
  - destruct (strict_returns o true _ K _ H v v' E Ev U) as (d' & D1 & D2). inversion D2 as [|? ? X|? ? X|? r X| | | | |]; subst; [destruct (H0)|].
    eexists. split; [constructor; eauto | now constructor].
  - destruct (strict_returns o true _ K _ H v v' E Ev U) as (d' & D1 & D2). inversion D2; subst; [contradiction|].
    eexists. split; [constructor; eauto | now constructor].
Qed.
Lemma enum_written n sh d : shape_kept sh -> has_variant n sh d -> ~ data_wide d -> exists v, ser d = Done v /\ ~ has_wide v.
Proof.
  intros K H W. destruct (untagged_written n sh d K H W) as (v & E & _).
  assert (X : exists v, ser d = Done v) by (destruct H; cbn [ser_untagged] in E; cbn [ser]; try rewrite E; eexists; reflexivity).
  destruct X as (v0 & E0). exists v0. split; auto. now apply (ser_narrow d).
Qed.
Lemma vequiv_single n x v' : vequiv (VMap [(n, x)]) v' -> uniq v' -> exists x', v' = VMap [(n, x')] /\ vequiv x x' /\ uniq x'.
Proof.
  intros E U. apply vequiv_map_l in E as (m & -> & A & B). destruct (A n x (or_introl eq_refl)) as (x' & Hx & Ex).
  pose proof (proj1 (uniq_map _) U) as [ND Um].
  assert (forall k y, In (k, y) m -> (k, y) = (n, x')) as All.
  { intros k y Hy. destruct (B k y Hy) as (z & [Z|[]] & _). injection Z as Z1 Z2. subst k. f_equal. eapply nodup_fst; eauto. }
  destruct m as [|[k y] [|[k2 y2] m]]; [destruct Hx| |].
  - rewrite (All k y (or_introl eq_refl)). exists x'. split; auto. split; auto. eapply (Um n); eauto.
  - exfalso. pose proof (All k y (or_introl eq_refl)) as E1. pose proof (All k2 y2 (or_intror (or_introl eq_refl))) as E2.
    injection E1 as -> _. injection E2 as -> _. cbn in ND. inversion ND as [|? ? N1 N2]; subst. apply N1. left; reflexivity.
Qed.
Lemma enum_returns o vs n sh d v v' : In (n, sh) vs -> shape_kept sh -> has_variant n sh d -> ser d = Done v -> vequiv v v' -> uniq v' ->
  exists d', enum_reads o vs v' d' /\ same_variant d d'.
Proof.
  intros Hin K H E Ev U. destruct H as [|t d H|ts l H|fs l H].
  - injection E as <-. rewrite (vequiv_scalar_l (VStr n) _ I Ev). eexists. split; constructor; auto.
  - cbn [ser] in E. apply obind_done in E as (x & E & M). apply variant_map_inv in M. subst v.
    destruct (vequiv_single _ _ _ Ev U) as (x' & -> & Ex & Ux).
    destruct (strict_beside o n (ShNewtype t) (DNewtypeVariant n d) x x') as (d' & D1 & D2); auto; [now constructor|]. exists d'; split; auto. econstructor; eauto.
  - cbn [ser] in E. apply obind_done in E as (x & E & M). apply variant_map_inv in M. subst v.
    destruct (vequiv_single _ _ _ Ev U) as (x' & -> & Ex & Ux).
    destruct (strict_beside o n (ShTuple ts) (DTupleVariant n l) x x') as (d' & D1 & D2); auto; [now constructor|]. exists d'; split; auto. econstructor; eauto.
  - cbn [ser] in E. apply obind_done in E as (x & E & M). apply variant_map_inv in M. subst v.
    destruct (vequiv_single _ _ _ Ev U) as (x' & -> & Ex & Ux).
    destruct (strict_beside o n (ShStruct fs) (DStructVariant n l) x x') as (d' & D1 & D2); auto; [now constructor|]. exists d'; split; auto. econstructor; eauto.
Qed.

(** ** Enum fields of a flattened struct *)
Section Slots.
Context {A : Type} (g : A -> content -> mres data).
Definition e_slots (fs : list (str * A)) : list c_slot :=
  map (fun p => {| cs_name := fst p; cs_optional := false; cs_de := g (snd p) |}) fs.
Lemma e_find_in fs n t : NoDup (map fst fs) -> In (n, t) fs -> c_find (e_slots fs) n = Some {| cs_name := n; cs_optional := false; cs_de := g t |}.
Proof.
  induction fs as [|[n' t'] fs IH]; cbn; [tauto|]. intros ND [[= -> ->]|H].
  - now rewrite str_eqb_refl.
  - inversion ND as [|? ? N1 N2]; subst. destruct (str_eqb_spec n n') as [->|N]; auto.
    destruct N1. apply (in_map fst) in H. exact H.
Qed.
Lemma e_find_some fs k f : c_find (e_slots fs) k = Some f -> exists t, In (k, t) fs /\ f = {| cs_name := k; cs_optional := false; cs_de := g t |}.
Proof.
  induction fs as [|[n t] fs IH]; cbn; [discriminate|].
  destruct (str_eqb_spec k n) as [->|N]; [intros [= <-]; eauto|].
  intros H; destruct (IH H) as (t' & ? & ?); eauto.
Qed.
Definition e_field (m : list (str * content)) (f : str * A) (d : str * data) : Prop :=
  fst d = fst f /\ exists x, In (fst f, x) m /\ g (snd f) x = Done (snd d).
Lemma e_struct_done fs m l : NoDup (map fst fs) -> NoDup (map fst m) -> (c_struct (e_slots fs) m = Done l <-> Forall2 (e_field m) fs l).
Proof.
  intros NF NM. unfold c_struct. split.
  - intros H. apply obind_done in H as (slots & Hs & Hl). apply c_collect_done in Hl.
    pose proof (c_loop_inv _ _ _ _ NM Hs) as SL.
    assert (K : forall f d, In f fs -> (fst d = fst f /\ match mget (fst f) slots with
        | Some x => snd d = x | None => false = true /\ snd d = DNone end) -> e_field m f d).
    { intros [n t] [n' d] Hin [E1 E2]; cbn in *. subst n'. split; [reflexivity|]. cbn.
      pose proof (e_find_in fs n t NF Hin) as FF. destruct (SL n) as [S1 S2].
      destruct (mget n m) as [x|] eqn:Em.
      - destruct (S2 _ _ eq_refl FF) as [d' Hd']. rewrite FF, Hd' in S1. cbn in Hd'.
        exists x; split; [now apply mget_In|]. rewrite S1 in E2. congruence.
      - rewrite S1 in E2. cbn in E2. destruct E2 as [E2 _]. discriminate. }
    clear - Hl K. unfold e_slots in Hl. revert l Hl; induction fs as [|f fs IH]; intros l Hl; cbn in Hl.
    + inversion Hl; constructor.
    + inversion Hl as [|? d ? l' Hd Hl']; subst. constructor; [apply K; cbn; auto|].
      apply IH; auto. intros; apply K; cbn; auto.
  - intros F.
    assert (OK : forall k x f, In (k, x) m -> c_find (e_slots fs) k = Some f -> exists d, cs_de f x = Done d).
    { intros k x f Hx Hf. apply e_find_some in Hf as (t & Ht & ->). cbn.
      destruct (Forall2_in_l _ _ _ _ F Ht) as (d & _ & E & (y & Hy & Hd)); cbn in *.
      assert (y = x) as -> by (apply In_mget in Hx; auto; apply In_mget in Hy; auto; congruence). eauto. }
    destruct (c_loop_ok (e_slots fs) m [] NM (fun _ _ => eq_refl) OK) as [slots Hs].
    rewrite Hs; cbn [obind]. pose proof (c_loop_inv _ _ _ _ NM Hs) as SL.
    apply c_collect_done. unfold e_slots.
    assert (K : forall f d, In f fs -> e_field m f d -> fst d = fst f /\ match mget (fst f) slots with
        | Some x => snd d = x | None => false = true /\ snd d = DNone end).
    { intros [n t] [n' d] Hin [E1 (x & Hx & Hd)]; cbn in *. subst n'. split; [reflexivity|].
      pose proof (e_find_in fs n t NF Hin) as FF. destruct (SL n) as [S1 S2].
      apply In_mget in Hx; auto. rewrite Hx, FF in S1. cbn in S1. rewrite Hd in S1. now rewrite S1. }
    clear - F K. induction F as [|f d fs l Hd F IH]; cbn; constructor; [apply K; cbn; auto | apply IH; intros; apply K; cbn; auto].
Qed.
End Slots.

Lemma named_iff {A} (fs : list (str * A)) k : existsb (str_eqb k) (map fst fs) = true <-> In k (map fst fs).
Proof.
  rewrite existsb_exists. split.
  - intros (n & H & E). apply str_eqb_eq in E. now subst.
  - intros H. exists k. split; auto. apply str_eqb_refl.
Qed.
Lemma filter_nodup {B} (P : str * B -> bool) m : NoDup (map fst m) -> NoDup (map fst (filter P m)).
Proof.
  induction m as [|[k c] m IH]; cbn; intros N; [constructor|]. inversion N as [|? ? N1 N2]; subst. destruct (P (k, c)); auto. cbn. constructor; auto.
  intros H. apply N1. apply in_map_iff in H as ([k' y] & <- & H). apply filter_In in H as [H _]. now apply (in_map fst) in H.
Qed.
Lemma buffer_entries_of cs : buffer_entries buffer (vals cs) = Done cs.
Proof.
  pose proof (buffer_of_val (CtMap cs)) as H. cbn [val buffer] in H. fold (vals cs) in H. apply obind_iff in H as (x & E & [= ->]). exact E.
Qed.
Lemma flat_enums_iff n fs v d : NoDup (map fst fs) -> (forall f vs, In (f, vs) fs -> NoDup (map fst vs) /\ forall k sh, In (k, sh) vs -> shape_usable sh) -> uniq v ->
  (de_flat_enums n fs v = Done d <-> mapv v /\ ~ has_wide v /\ exists l, d = DStruct [(n, DStruct l)] /\
     Forall2 (fun f e => fst e = fst f /\ exists x, holds v (fst f) x /\ enum_reads true (snd f) x (snd e)) fs l).
Proof.
  intros NF S U.
  assert (K : forall cs, uniq (VMap (vals cs)) -> forall l,
     c_struct (e_slots (fun vs => de_content_enum true vs) fs) (filter (fun e => existsb (str_eqb (fst e)) (map fst fs)) cs) = Done l <->
     Forall2 (fun f e => fst e = fst f /\ exists x, holds (VMap (vals cs)) (fst f) x /\ enum_reads true (snd f) x (snd e)) fs l).
  { intros cs Uc l. pose proof (proj1 (uniq_map _) Uc) as [NM Um]. rewrite vals_keys in NM.
    etransitivity; [apply e_struct_done; auto; now apply filter_nodup|]. apply Forall2_iff_in. intros [f vs] [f' x] Hf. unfold e_field. cbn [fst snd].
    destruct (S f vs Hf) as [Nv Sv]. split; intros [E (c & Hc & X)]; (split; [exact E|]).
    - apply filter_In in Hc as [Hc _]. exists (val c). split; [apply holds_map, in_vals; eauto|]. apply enum_iff; auto. apply (Um f). apply in_vals; eauto.
    - apply holds_map, in_vals in Hc as (c0 & -> & Hc). exists c0. split.
      + apply filter_In. split; auto. cbn. apply named_iff. apply (in_map fst) in Hf. exact Hf.
      + apply enum_iff; auto. apply (Um f). apply in_vals; eauto. }
  split.
  - intros H. destruct v as [| | | | | | | | |m]; try discriminate H. cbn [de_flat_enums] in H. apply obind_done in H as (cs & B & H). apply obind_iff in H as (l & Hl & ->).
    assert (m = vals cs) as -> by (apply buffer_entries_val; auto; intros; now apply buffer_val).
    split; [eexists; reflexivity|]. split; [exact (val_narrow (CtMap cs))|]. exists l. split; auto. now apply K.
  - intros ((m & ->) & W & l & -> & F). apply vals_ex in W as (cs & ->). cbn [de_flat_enums]. rewrite buffer_entries_of. cbn [obind].
    apply K in F; auto. unfold e_slots in F. rewrite F. reflexivity.
Qed.
Lemma flat_enums_no_panic n fs v : (forall f vs k sh, In (f, vs) fs -> In (k, sh) vs -> shape_usable sh) -> de_flat_enums n fs v <> Panic.
Proof.
  intros S. destruct v as [| | | | | | | | |m]; try discriminate. cbn [de_flat_enums].
  assert (B : buffer_entries buffer m <> Panic).
  { pose proof (buffer_no_panic (VMap m)) as B. cbn [buffer] in B. destruct (buffer_entries buffer m); cbn in B; congruence. }
  destruct (buffer_entries buffer m) as [cs|e|]; cbn [obind]; try congruence.
  match goal with |- obind (c_struct ?a ?b) _ <> _ => assert (C : c_struct a b <> Panic) end.
  { apply c_struct_no_panic. intros f Hf c. apply in_map_iff in Hf as ([k vs] & <- & Hf). cbn. apply enum_no_panic. eauto. }
  match goal with |- obind ?x _ <> _ => destruct x; cbn [obind]; congruence end.
Qed.
Lemma flat_one_written n ds v : ser_flat [] [(n, DStruct ds)] = Done v <-> exists es, field_entries ds es /\ v = VMap (puts [] es).
Proof.
  etransitivity; [apply flat_written|]. split.
  - intros (es & ess & F & P & ->). inversion F; subst. inversion P as [|? es1 ? ? X R]; subst. inversion R; subst. cbn in X. inversion X; subst.
    exists es1. split; auto. cbn. now rewrite app_nil_r.
  - intros (es & F & ->). exists [], [es]. split; [constructor|]. split; [repeat constructor; auto|]. cbn. now rewrite app_nil_r.
Qed.
