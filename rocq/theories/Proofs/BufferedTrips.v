(** Untagged, tagged and flattened types through Values and back (C104-C106). *)
From Coq Require Import ZArith Bool String Lia.
From Coq Require Import List.
Import ListNotations.
From Verif.Model Require Import Text Num Flt Value Convert Serde Buffered BufferedSer.
From Verif.Spec Require Import Spec Numerals Containers SerdeSpec ReadSpec BufferedSpec BufferedSerSpec.
From Verif.Proofs Require Import Basics Conversions SerProofs DeProofs FloatBase RoundTrip Loaded Containers Shape VisitorProofs BufferedProofs BufferedMore.
Local Open Scope Z_scope.

(** ** Kept types are types of C57 and usable *)
Lemma text_like_key t : text_like t -> key_type t.
Proof. induction 1; constructor; auto. Qed.
Lemma kept_round t : kept t -> round_trips t.
Proof.
  induction 1 as [t H| | | | | | |]; try (constructor; auto using text_like_key; fail).
  destruct t; try contradiction; constructor; auto.
Qed.
Lemma kept_usable t : kept t -> usable t.
Proof.
  induction 1 as [t H|t K [P N] _|t K [P N]|ts K IH|tk tv T K [P N]|fs ND K IH|t K [P N]|n ts K IH].
  - destruct t; try contradiction; split; try (apply PrFlat; exact I); constructor.
  - split; [now apply PrOption | now constructor].
  - split; [now apply PrSeq | now constructor].
  - split; [apply PrTuple | constructor]; intros t Ht; now apply (IH t).
  - split; [apply PrMap; auto using text_like_key | constructor; auto]. clear - T. induction T; constructor; auto.
  - split; [apply PrStruct; auto | constructor]; intros n t Ht; now apply (IH n t).
  - split; [now apply PrNewtype | now constructor].
  - split; [apply PrTupleStruct | constructor]; intros t Ht; now apply (IH t).
Qed.

(** ** What is written contains no 128-bit number *)
Lemma from_int_narrow t z v : ser_int t z = Done v -> ~ has_wide v.
Proof. destruct t; cbn; intros [= <-] H; inversion H. Qed.
Lemma wide_arr l : (forall x, In x l -> ~ has_wide x) -> ~ has_wide (VArr l).
Proof. intros H W. inversion W; subst. eapply H; eauto. Qed.
Lemma wide_map m : (forall k x, In (k, x) m -> ~ has_wide x) -> ~ has_wide (VMap m).
Proof. intros H W. inversion W; subst. eapply H; eauto. Qed.

(** ** Strict reading of what was written *)
Definition returns (l p : bool) (t : ty) (d : data) : Prop :=
  forall v v', ser d = Done v -> vequiv v v' -> uniq v' -> exists d', strict l p t v' d' /\ data_equiv d d'.

Lemma scalar_returns l p t d v : scalar_datum d -> scalarv v -> ser d = Done v -> strict l p t v d -> returns l p t d.
Proof.
  intros S Sv E H v0 v' E' Ev _. rewrite E in E'. injection E' as <-. rewrite (vequiv_scalar_l _ _ Sv Ev).
  exists d. split; auto. now constructor.
Qed.
Lemma text_like_strict l p t d : text_like t -> has_type t d -> exists s, ser d = Done (VStr s) /\ key_text d s /\ strict l p t (VStr s) d.
Proof.
  intros T; revert d; induction T as [| |t T IH]; intros d H; inversion H; subst.
  - eexists; split; [reflexivity|]; split; constructor.
  - eexists; split; [reflexivity|]; split; constructor.
  - destruct (IH _ H1) as (s & E & K & S). exists s. split; [exact E|]. split; now constructor.
Qed.
Lemma each_returns l p ts : forall ds, Forall2 (returns l p) ts ds -> forall vs vs', Forall2 (fun x v => ser x = Done v) ds vs ->
  Forall2 vequiv vs vs' -> (forall v, In v vs' -> uniq v) -> exists ds', strict_each l p ts vs' ds' /\ Forall2 data_equiv ds ds'.
Proof.
  intros ds F. induction F as [|t d ts ds R F IH]; intros vs vs' S V U.
  - inversion S; subst. inversion V; subst. exists []. split; constructor.
  - inversion S as [|? v ? vs0 E S']; subst. inversion V as [|? v' ? vs0' Ev V']; subst.
    destruct (R v v' E Ev (U v' (or_introl eq_refl))) as (d' & D1 & D2).
    destruct (IH vs0 vs0' S' V') as (ds' & L1 & L2); [intros; apply U; right; auto|].
    exists (d' :: ds'). split; constructor; auto.
Qed.
Lemma Forall2_of_types (P : ty -> data -> Prop) ts ds : Forall2 has_type ts ds -> (forall t d, In t ts -> has_type t d -> P t d) -> Forall2 P ts ds.
Proof. induction 1 as [|t d ts ds H F IH]; intros Q; constructor; [apply Q; cbn; auto | apply IH; intros; apply Q; cbn; auto]. Qed.

(** Fields found in a map that holds what they were written as. *)
Lemma fields_return l p (fs : list (str * ty)) (ds : list (str * data)) (ps m : vmap) : map fst fs = map fst ds -> Forall2 (returns l p) (map snd fs) (map snd ds) ->
  Forall2 (fun f e => fst f = fst e /\ ser (snd f) = Done (snd e)) ds ps ->
  (forall k x, In (k, x) ps -> exists y, In (k, y) m /\ vequiv x y) -> (forall k x, In (k, x) m -> uniq x) ->
  exists ds', Forall2 (fun f d => fst d = fst f /\ exists x, In (fst f, x) m /\ strict l p (snd f) x (snd d)) fs ds'
    /\ map fst ds = map fst ds' /\ Forall2 data_equiv (map snd ds) (map snd ds').
Proof.
  intros E R W V U. revert ds ps E R W V. induction fs as [|[k t] fs IH]; intros [|[k' d] ds] ps E R W V; cbn [map fst snd] in *; try discriminate.
  - inversion W; subst. exists []. repeat split; constructor.
  - injection E as <- E. inversion R as [|? ? ? ? R1 R2]; subst. inversion W as [|? [k2 x] ? ps' [W1 W2] W']; subst. cbn [fst snd] in *. subst k2.
    destruct (V k x (or_introl eq_refl)) as (y & Hy & Ey). destruct (R1 x y W2 Ey (U _ _ Hy)) as (d' & D1 & D2).
    destruct (IH ds ps' E R2 W') as (ds' & L1 & L2 & L3); [intros; apply V; right; auto|].
    exists ((k, d') :: ds'). cbn [map fst snd]. split; [|split; [congruence | now constructor]].
    constructor; auto. split; auto. exists y. split; auto.
Qed.
(** Entries found in such a map (which holds nothing else). *)
Lemma entries_return l p tk tv (m0 : list (data * data)) (ps n : vmap) : text_like tk -> NoDup (map fst m0) -> (forall a b, In (a, b) m0 -> has_type tk a /\ returns l p tv b) ->
  Forall2 (fun e q => key_text (fst e) (fst q) /\ ser (snd e) = Done (snd q)) m0 ps ->
  (forall k x, In (k, x) ps -> exists y, In (k, y) n /\ vequiv x y) -> (forall k y, In (k, y) n -> exists x, In (k, x) ps /\ vequiv x y) ->
  (forall k x, In (k, x) n -> uniq x) ->
  exists r, Forall2 (fun e q => strict l p tk (VStr (fst e)) (fst q) /\ strict l p tv (snd e) (snd q)) n r /\ data_equiv (DMap m0) (DMap r).
Proof.
  intros K ND T F2 V1 V2 Un.
  assert (G : forall e, In e n -> exists q, (strict l p tk (VStr (fst e)) (fst q) /\ strict l p tv (snd e) (snd q))
     /\ has_type tk (fst q) /\ key_text (fst q) (fst e) /\ exists b, In (fst q, b) m0 /\ data_equiv b (snd q)).
  { intros [s y] He. destruct (V2 s y He) as (x & Hx & Exy).
    destruct (Forall2_in_r _ _ _ _ F2 Hx) as ([a b] & Hab & Ta & Eb). cbn in Ta, Eb. destruct (T a b Hab) as [Ha Rb].
    destruct (text_like_strict l p tk a K Ha) as (s' & _ & Ta' & Sa). rewrite <- (key_text_fun _ _ _ Ta Ta') in Sa.
    destruct (Rb x y Eb Exy (Un s y He)) as (b' & B1 & B2). exists (a, b'); cbn; repeat split; auto. eauto. }
  destruct (Forall2_exists _ _ G) as (es & Fe). exists es. split; [eapply Forall2_imp; [|exact Fe]; intros x y _ _ HH; apply HH|]. constructor.
  - intros a b Hab. destruct (Forall2_in_l _ _ _ _ F2 Hab) as ([s x] & Hs & Ta & Eb). cbn in Ta, Eb.
    destruct (V1 s x Hs) as (y & Hy & Exy).
    destruct (Forall2_in_l _ _ _ _ Fe Hy) as ([a' b'] & He & _ & Ha' & Ta' & b0 & Hb0 & Eq). cbn in *.
    assert (a' = a) by (eapply (key_text_inj tk); eauto using text_like_key; apply (T a b Hab)). subst a'.
    rewrite (nodup_fst_perm_equiv m0 m0 a b ND Hab b0 Hb0). eauto.
  - intros a b' Hab. destruct (Forall2_in_r _ _ _ _ Fe Hab) as (e & _ & _ & _ & _ & b0 & Hb0 & Eq). cbn in *. eauto.
Qed.

Lemma ser_fields_nodup fs v : NoDup (map fst fs) -> ser (DStruct fs) = Done v ->
  exists ps, v = VMap ps /\ map fst ps = map fst fs /\ Forall2 (fun f e => fst f = fst e /\ ser (snd f) = Done (snd e)) fs ps.
Proof.
  intros ND E. cbn [ser] in E. pose proof (ser_fields_inv _ _ _ _ E) as [(ps & F) _].
  assert (KP : map fst ps = map fst fs) by (clear - F; induction F as [|a b l r [E _] F IH]; cbn; congruence).
  exists ps. split; [|split; auto]. change new_map with (VMap []) in E. rewrite (ser_fields_done ser fs [] ps F) in E by (cbn [app]; rewrite KP; exact ND). cbn [app] in E. injection E as <-. reflexivity.
Qed.

Lemma strict_returns l p t : kept t -> forall d, has_type t d -> returns l p t d.
Proof.
  induction t as [ |t| | | | | | |t IH|t IH|ts IH|k v IHk IHv|fs IH|t IH|n ts IH| | | ] using ty_ind';
    intros R d H; inversion R as [? Fl| | | | | | |]; subst; try contradiction; inversion H; subst.
  - eapply scalar_returns; try reflexivity; try exact I. constructor.
  - apply scalar_returns with (v := from_int t z); try exact I.
    + destruct t; exact I.
    + destruct t; cbn in *; tauto || reflexivity.
    + constructor; auto. destruct t; cbn in *; try tauto; first [left; reflexivity | right; reflexivity].
  - apply scalar_returns with (v := from_f32 f); try reflexivity; try exact I.
    unfold from_f32. assert (E : f64_to_f32 (f32_to_f64 f) = f) by now apply f32_round_trip. rewrite <- E at 2. constructor.
  - eapply scalar_returns; try reflexivity; try exact I. constructor.
  - eapply scalar_returns; try reflexivity; try exact I. constructor.
  - eapply scalar_returns; try reflexivity; try exact I. constructor.
  - eapply scalar_returns; try reflexivity; try exact I. constructor.
  - eapply scalar_returns; try reflexivity; try exact I. constructor.
  - rename d0 into d. intros v v' E Ev Uv. cbn [ser] in E. match goal with A : kept t, B : never_none t, C : has_type t d |- _ =>
      destruct (IH A d C v v' E Ev Uv) as (d' & D1 & D2); pose proof (never_none_ser t d v B C E) as N end.
    exists (DSome d'). split; [|now constructor]. constructor; auto. intros ->. apply N. exact (vequiv_scalar_r v VNone I Ev).
  - intros v v' E Ev Uv. cbn [ser] in E. change new_array with (VArr []) in E. apply ser_seq_inv in E as (vs & F & ->). cbn [app] in *.
    apply vequiv_arr_l in Ev as (vs' & -> & Fv). pose proof (proj1 (uniq_arr _) Uv) as Uv0; clear Uv; rename Uv0 into Uv.
    match goal with A : kept t, C : forall d, In d _ -> has_type t d |- _ => rename A into Kt; rename C into Tl end.
    assert (Q : exists r, Forall2 (strict l p t) vs' r /\ Forall2 data_equiv l0 r).
    { clear R H. revert vs' Fv Uv. induction F as [|d v l0 vs E F IHF]; intros vs' Fv Uv; inversion Fv as [|? v' ? vs0 Ev Fv']; subst; [exists []; split; constructor|].
      destruct (IH Kt d (Tl d (or_introl eq_refl)) v v' E Ev (Uv v' (or_introl eq_refl))) as (d' & D1 & D2).
      destruct (IHF (fun x Hx => Tl x (or_intror Hx)) vs0 Fv') as (r & R1 & R2); [intros; apply Uv; right; auto|].
      exists (d' :: r). split; constructor; auto. }
    destruct Q as (r & R1 & R2). exists (DSeq r). split; now constructor.
  - intros v v' E Ev Uv. cbn [ser] in E. change new_array with (VArr []) in E. apply ser_seq_inv in E as (vs & F & ->). cbn [app] in *.
    apply vequiv_arr_l in Ev as (vs' & -> & Fv). pose proof (proj1 (uniq_arr _) Uv) as Uv0; clear Uv; rename Uv0 into Uv.
    match goal with A : forall t, In t ts -> kept t, C : Forall2 has_type ts _ |- _ => rename A into Kt; rename C into Tl end.
    destruct (each_returns l p ts l0 (Forall2_of_types _ _ _ Tl (fun t d Ht => IH t Ht (Kt t Ht) d)) vs vs' F Fv Uv) as (r & R1 & R2).
    exists (DTuple r). split; now constructor.
  - intros v0 v' E Ev Uv. 
    match goal with A : text_like k, B : kept v, C : NoDup (map fst m), D : forall a b, In (a, b) m -> _ |- _ =>
      rename A into K; rename B into Kv; rename C into ND; rename D into T end.
    pose proof E as E'. cbn [ser] in E'. apply ser_map_entries_inv in E' as [(vs & F) _].
    destruct (ser_map_texts k m (text_like_key k K) (fun a b Hab => proj1 (T a b Hab)) ND (map snd vs)) as (ps & E1 & NP & F2).
    { clear - F. induction F as [|e v m vs [_ E] F IH]; cbn; constructor; auto. }
    rewrite E1 in E; injection E as <-. apply vequiv_map_l in Ev as (n & -> & V1 & V2). apply uniq_map in Uv as [NN Un].
    destruct (entries_return l p k v m ps n K ND) as (r & R1 & R2); auto.
    { intros a b Hab. destruct (T a b Hab). split; auto. }
    exists (DMap r). split; auto. now constructor.
  - intros v v' E Ev Uv.
    match goal with A : NoDup (map fst fs), B : forall n t, In (n, t) fs -> kept t, C : map fst fs = map fst ds,
      D : Forall2 has_type _ _ |- _ => rename A into NF; rename B into Kf; rename C into En; rename D into T end.
    apply ser_fields_nodup in E as (ps & -> & KP & F); [|now rewrite <- En].
    apply vequiv_map_l in Ev as (n & -> & V1 & V2). apply uniq_map in Uv as [NN Un].
    destruct (fields_return l p fs ds ps n En) as (ds' & L1 & L2 & L3); auto.
    { apply Forall2_of_types; auto. intros t d Ht. apply in_map_iff in Ht as ([k t'] & <- & Ht). apply (IH k t' Ht). eauto. }
    exists (DStruct ds'). split; [|now constructor]. apply StStruct; [eexists; reflexivity|].
    eapply Forall2_imp; [|exact L1]. intros f d _ _ (E1 & x & Hx & S). split; auto. left. exists x. split; auto. now apply holds_map.
  - rename d0 into d. intros v v' E Ev Uv. cbn [ser] in E. match goal with A : kept t, C : has_type t d |- _ =>
      destruct (IH A d C v v' E Ev Uv) as (d' & D1 & D2) end.
    exists (DNewtype d'). split; now constructor.
  - intros v v' E Ev Uv. cbn [ser] in E. change new_array with (VArr []) in E. apply ser_seq_inv in E as (vs & F & ->). cbn [app] in *.
    apply vequiv_arr_l in Ev as (vs' & -> & Fv). pose proof (proj1 (uniq_arr _) Uv) as Uv0; clear Uv; rename Uv0 into Uv.
    match goal with A : forall t, In t ts -> kept t, C : Forall2 has_type ts _ |- _ => rename A into Kt; rename C into Tl end.
    destruct (each_returns l p ts l0 (Forall2_of_types _ _ _ Tl (fun t d Ht => IH t Ht (Kt t Ht) d)) vs vs' F Fv Uv) as (r & R1 & R2).
    exists (DTupleStruct r). split; now constructor.
  - eapply scalar_returns; try reflexivity; try exact I. constructor.
  - rename v into v0. intros v v' E Ev Uv. cbn [ser] in E. apply ser_value_textless in E; auto. subst v. exists (DValue v'). split; now constructor.
Qed.

(** ** Entries put into a map *)
Definition puts (acc es : vmap) : vmap := fold_left (fun a e => minsert (fst e) (snd e) a) es acc.
Lemma puts_app acc a b : puts acc (a ++ b) = puts (puts acc a) b.
Proof. apply fold_left_app. Qed.
Lemma puts_calls h : forall acc, fst (set_calls (VMap acc) h) = VMap (puts acc h).
Proof.
  induction h as [|[k x] h IH]; intros acc; [reflexivity|]. cbn. specialize (IH (minsert k x acc)).
  destruct (set_calls (VMap (minsert k x acc)) h). exact IH.
Qed.
Lemma puts_made_of es : made_of es (VMap (puts [] es)).
Proof.
  destruct (set_calls_bindings es) as (m & E & ND & B). pose proof (puts_calls es []) as P. rewrite E in P. injection P as <-.
  exists m. split; [reflexivity|]. split; auto.
Qed.
Lemma made_nodup es v : NoDup (map fst es) -> made_of es v -> exists m, v = VMap m /\ NoDup (map fst m) /\ forall k x, In (k, x) m <-> In (k, x) es.
Proof.
  intros N (m & -> & ND & B). exists m. split; auto. split; auto. intros k x. rewrite B. now apply last_binding_nodup.
Qed.
Lemma made_narrow es v : made_of es v -> (forall k x, In (k, x) es -> ~ has_wide x) -> ~ has_wide v.
Proof.
  intros (m & -> & _ & B) N. apply wide_map. intros k x H. apply B in H as (b & a & -> & _). apply (N k). apply in_or_app; right; left; reflexivity.
Qed.

Definition open_map (acc : vmap) : ser_map := {| sm_map := VMap acc; sm_key := None |}.
Lemma sm_entries_cons {A} (serk serv : A -> mres value) acc e l :
  sm_entries serk serv (open_map acc) (e :: l) =
  obind (serk e) (fun kv => obind (of_result (into_string kv)) (fun k =>
  obind (serv e) (fun x => sm_entries serk serv (open_map (minsert k x acc)) l))).
Proof.
  cbn. unfold sm_serialize_key. destruct (serk e) as [kv| |]; cbn; auto.
  destruct (into_string kv) as [k|]; cbn; auto. unfold sm_serialize_value; cbn. destruct (serv e); cbn; auto.
Qed.
Lemma of_result_done {A E} (r : result A E) a : of_result r = Done a <-> r = Ok a.
Proof. destruct r; cbn; split; congruence. Qed.
Lemma sm_entries_iff {A} (serk serv : A -> mres value) l : forall acc r,
  sm_entries serk serv (open_map acc) l = Done r <-> exists es,
    Forall2 (fun e v => (exists kv, serk e = Done kv /\ into_string kv = Ok (fst v)) /\ serv e = Done (snd v)) l es /\ r = open_map (puts acc es).
Proof.
  induction l as [|e l IH]; intros acc r.
  - cbn. split; [intros [= <-]; exists []; split; [constructor | reflexivity] | intros (es & F & ->); inversion F; reflexivity].
  - rewrite sm_entries_cons. split.
    + intros H. apply obind_done in H as (kv & Hk & H). apply obind_done in H as (k & Hk' & H). apply obind_done in H as (x & Hx & H).
      apply of_result_done in Hk'. apply IH in H as (es & F & ->). exists ((k, x) :: es). split; [|reflexivity]. constructor; auto. cbn. eauto.
    + intros (es & F & ->). inversion F as [|? [k x] ? es' [(kv & Hk & Hk') Hx] F']; subst. cbn [fst snd] in *.
      apply obind_done. exists kv. split; auto. apply obind_done. exists k. split; [now apply of_result_done|]. apply obind_done. exists x. split; auto.
      apply IH. exists es'. auto.
Qed.
Lemma str_entries {A} (name : A -> str) (serv : A -> mres value) l (es : vmap) :
  Forall2 (fun e v => (exists kv, ser_str (name e) = Done kv /\ into_string kv = Ok (fst v)) /\ serv e = Done (snd v)) l es <->
  Forall2 (fun e v => fst v = name e /\ serv e = Done (snd v)) l es.
Proof.
  apply Forall2_iff_in. intros e v _. split.
  - intros [(kv & E1 & E2) Hx]. injection E1 as <-. injection E2 as E2. auto.
  - intros [-> H]. split; auto. eexists; split; reflexivity.
Qed.
Lemma ser_fields_iff {A} (ser1 : A -> mres value) l : forall acc r, ser_fields ser1 (VMap acc) l = Done r <->
  exists es, Forall2 (fun f e => fst e = fst f /\ ser1 (snd f) = Done (snd e)) l es /\ r = VMap (puts acc es).
Proof.
  induction l as [|[k x] l IH]; intros acc r.
  - cbn. split; [intros [= <-]; exists []; split; [constructor | reflexivity] | intros (es & F & ->); inversion F; reflexivity].
  - change (ser_fields ser1 (VMap acc) ((k, x) :: l)) with (obind (ser1 x) (fun e => ser_fields ser1 (VMap (minsert k e acc)) l)). split.
    + intros H. apply obind_done in H as (y & Hy & H). apply IH in H as (es & F & ->). exists ((k, y) :: es). split; [|reflexivity]. constructor; auto.
    + intros (es & F & ->). inversion F as [|? [k' y] ? es' [Hk Hy] F']; subst. cbn [fst snd] in *. subst k'.
      apply obind_done. exists y. split; auto. apply IH. exists es'. auto.
Qed.
Lemma tagged_map_is tag n : tagged_map tag n = Done (open_map [(tag, VStr n)]).
Proof. reflexivity. Qed.
Lemma tagged_struct_is tag n : tagged_struct tag n = Done (VMap [(tag, VStr n)]).
Proof. reflexivity. Qed.
Lemma sm_end_done sm v : sm_end sm = Done v <-> exists s, sm = Done s /\ sm_map s = v.
Proof.
  unfold sm_end. split.
  - intros H. apply obind_done in H as (s & H & E). exists s. split; [exact H | now injection E].
  - intros (s & -> & <-). reflexivity.
Qed.

Lemma variant_entry_iff tag n k x v : tagged_variant_entry tag n k x = Done v <-> exists y, x = Done y /\ v = VMap (puts [(tag, VStr n)] [(k, y)]).
Proof.
  unfold tagged_variant_entry. rewrite tagged_map_is. cbn [obind]. etransitivity; [apply sm_end_done|]. split.
  - intros (s & H & <-). apply sm_entries_iff in H as (es & F & ->). inversion F as [|? [k' y] ? es' [(kv & E1 & E2) Hx] F']; subst. inversion F'; subst. injection E1 as <-. injection E2 as E2. cbn [fst snd] in *. subst k'.
    exists y. auto.
  - intros (y & -> & ->). eexists. split; [apply sm_entries_iff; exists [(k, y)]; split; [|reflexivity]|reflexivity].
    constructor; [|constructor]. split; [eexists; split; reflexivity | reflexivity].
Qed.

Lemma tagged_content_iff tag n d : forall v, ser_tagged_content tag n d = Done v <-> exists es, entries_of d es /\ v = VMap (puts [(tag, VStr n)] es).
Proof.
  assert (Bad : forall d' v', ser_tagged_content tag n d' = no_tag -> (forall es, ~ entries_of d' es) ->
    ser_tagged_content tag n d' = Done v' <-> exists es, entries_of d' es /\ v' = VMap (puts [(tag, VStr n)] es)).
  { intros d' v' E H. rewrite E. split; [discriminate | intros (es & X & _); destruct (H es X)]. }
  assert (Nov : forall d' es, (forall k, ~ is_variant k d') -> entries_of d' es -> forall k x, ~ (d' = DUnitVariant k /\ x = VNone
    \/ (exists y, d' = DNewtypeVariant k y /\ ser y = Done x) \/ (exists ys, d' = DTupleVariant k ys /\ ser (DTuple ys) = Done x)
    \/ (exists ys, d' = DStructVariant k ys /\ ser (DStruct ys) = Done x))).
  { intros d' es N _ k x [[-> _]|[(y & -> & _)|[(y & -> & _)|(y & -> & _)]]]; exact (N k eq_refl). }
  induction d as [d S|u|d IH|l IH|l IH|m IH|fs IH|d IH|l IH|k d IH|k l IH|k fs IH] using data_ind'; intros v.
  - destruct d; try destruct S; try (apply Bad; [reflexivity | intros es H; inversion H; subst;
      match goal with X : _ \/ _ |- _ => destruct X as [[Y _]|[(y & Y & _)|[(y & Y & _)|(y & Y & _)]]]; discriminate Y end]).
    + cbn [ser_tagged_content]. rewrite tagged_map_is. etransitivity; [apply sm_end_done|]. split.
      * intros (s & [= <-] & <-). exists []. split; [constructor | reflexivity].
      * intros (es & H & ->). eexists; split; [reflexivity|]. inversion H; subst; [reflexivity|]. match goal with X : _ \/ _ |- _ => destruct X as [[Y _]|[(y & Y & _)|[(y & Y & _)|(y & Y & _)]]]; discriminate Y end.
    + cbn [ser_tagged_content]. rewrite tagged_map_is. etransitivity; [apply sm_end_done|]. split.
      * intros (s & [= <-] & <-). exists []. split; [constructor | reflexivity].
      * intros (es & H & ->). eexists; split; [reflexivity|]. inversion H; subst; [reflexivity|]. match goal with X : _ \/ _ |- _ => destruct X as [[Y _]|[(y & Y & _)|[(y & Y & _)|(y & Y & _)]]]; discriminate Y end.
    + cbn [ser_tagged_content]. etransitivity; [apply variant_entry_iff|]. split.
      * intros (y & [= <-] & ->). eexists. split; [eapply EoVariant; [left; split; reflexivity | reflexivity] | reflexivity].
      * intros (es & H & ->). exists VNone. split; [reflexivity|]. inversion H; subst.
        match goal with X : _ \/ _ |- _ => destruct X as [[Y Z]|[(y & Y & _)|[(y & Y & _)|(y & Y & _)]]]; try discriminate Y; injection Y as <-; subst; reflexivity end.
  - destruct u; try (apply Bad; [reflexivity | intros es H; inversion H; subst;
      match goal with X : _ \/ _ |- _ => destruct X as [[Y _]|[(y & Y & _)|[(y & Y & _)|(y & Y & _)]]]; discriminate Y end]).
    cbn [ser_tagged_content]. rewrite tagged_map_is. cbn [obind]. etransitivity; [apply sm_end_done|]. split.
    + intros (s & H & <-). apply sm_entries_iff in H as (es & F & ->). exists es. split; [|reflexivity]. constructor. apply str_entries in F. exact F.
    + intros (es & H & ->). inversion H; subst; [|match goal with X : _ \/ _ |- _ => destruct X as [[Y _]|[(y & Y & _)|[(y & Y & _)|(y & Y & _)]]]; discriminate Y end].
      eexists. split; [apply sm_entries_iff; exists es; split; [|reflexivity]|reflexivity]. now apply str_entries.
  - apply Bad; [reflexivity | intros es H; inversion H; subst;
      match goal with X : _ \/ _ |- _ => destruct X as [[Y _]|[(y & Y & _)|[(y & Y & _)|(y & Y & _)]]]; discriminate Y end].
  - apply Bad; [reflexivity | intros es H; inversion H; subst;
      match goal with X : _ \/ _ |- _ => destruct X as [[Y _]|[(y & Y & _)|[(y & Y & _)|(y & Y & _)]]]; discriminate Y end].
  - apply Bad; [reflexivity | intros es H; inversion H; subst;
      match goal with X : _ \/ _ |- _ => destruct X as [[Y _]|[(y & Y & _)|[(y & Y & _)|(y & Y & _)]]]; discriminate Y end].
  - cbn [ser_tagged_content]. rewrite tagged_map_is. cbn [obind]. etransitivity; [apply sm_end_done|]. split.
    + intros (s & H & <-). apply sm_entries_iff in H as (es & F & ->). exists es. split; [|reflexivity]. constructor. exact F.
    + intros (es & H & ->). inversion H; subst; [|match goal with X : _ \/ _ |- _ => destruct X as [[Y _]|[(y & Y & _)|[(y & Y & _)|(y & Y & _)]]]; discriminate Y end].
      eexists. split; [apply sm_entries_iff; exists es; split; [|reflexivity]|reflexivity]. assumption.
  - cbn [ser_tagged_content]. rewrite tagged_struct_is. cbn [obind]. etransitivity; [apply ser_fields_iff|]. split.
    + intros (es & F & ->). exists es. split; [now constructor | reflexivity].
    + intros (es & H & ->). inversion H; subst; [|match goal with X : _ \/ _ |- _ => destruct X as [[Y _]|[(y & Y & _)|[(y & Y & _)|(y & Y & _)]]]; discriminate Y end].
      exists es. auto.
  - cbn [ser_tagged_content]. etransitivity; [apply IH|]. split; intros (es & H & ->); exists es; (split; [|reflexivity]).
    + now constructor.
    + inversion H; subst; [assumption|]. match goal with X : _ \/ _ |- _ => destruct X as [[Y _]|[(y & Y & _)|[(y & Y & _)|(y & Y & _)]]]; discriminate Y end.
  - apply Bad; [reflexivity | intros es H; inversion H; subst;
      match goal with X : _ \/ _ |- _ => destruct X as [[Y _]|[(y & Y & _)|[(y & Y & _)|(y & Y & _)]]]; discriminate Y end].
  - cbn [ser_tagged_content]. etransitivity; [apply variant_entry_iff|]. split.
    + intros (y & E & ->). eexists. split; [eapply EoVariant; [right; left; exists d; split; [reflexivity | exact E] | reflexivity] | reflexivity].
    + intros (es & H & ->). inversion H; subst.
      match goal with X : _ \/ _ |- _ => destruct X as [[Y _]|[(y & Y & Z)|[(y & Y & _)|(y & Y & _)]]]; try discriminate Y; injection Y as <- <- end. eexists. split; [exact Z | reflexivity].
  - cbn [ser_tagged_content]. etransitivity; [apply variant_entry_iff|]. split.
    + intros (y & E & ->). eexists. split; [eapply EoVariant; [right; right; left; exists l; split; [reflexivity | exact E] | reflexivity] | reflexivity].
    + intros (es & H & ->). inversion H; subst.
      match goal with X : _ \/ _ |- _ => destruct X as [[Y _]|[(y & Y & _)|[(y & Y & Z)|(y & Y & _)]]]; try discriminate Y; injection Y as <- <- end. eexists. split; [exact Z | reflexivity].
  - cbn [ser_tagged_content]. etransitivity; [apply variant_entry_iff|]. split.
    + intros (y & E & ->). eexists. split; [eapply EoVariant; [right; right; right; exists fs; split; [reflexivity | exact E] | reflexivity] | reflexivity].
    + intros (es & H & ->). inversion H; subst.
      match goal with X : _ \/ _ |- _ => destruct X as [[Y _]|[(y & Y & _)|[(y & Y & _)|(y & Y & Z)]]]; try discriminate Y; injection Y as <- <- end. eexists. split; [exact Z | reflexivity].
Qed.

Lemma tagged_iff_entries tag d v : ser_tagged tag d = Done v <-> exists n es, is_variant n d /\ variant_entries d es /\ v = VMap (puts [(tag, VStr n)] es).
Proof.
  destruct d; try (split; [discriminate | intros (n0 & es & H & H' & _); inversion H'; fail]).
  - cbn [ser_tagged]. rewrite tagged_struct_is. split.
    + intros [= <-]. eexists _, []. split; [reflexivity|]. split; [constructor | reflexivity].
    + intros (n0 & es & <- & H & ->). inversion H; subst. reflexivity.
  - cbn [ser_tagged]. etransitivity; [apply tagged_content_iff|]. split.
    + intros (es & H & ->). eexists _, es. split; [reflexivity|]. split; [now constructor | reflexivity].
    + intros (n0 & es & <- & H & ->). inversion H; subst. eauto.
  - cbn [ser_tagged]. rewrite tagged_struct_is. cbn [obind]. etransitivity; [apply ser_fields_iff|]. split.
    + intros (es & H & ->). eexists _, es. split; [reflexivity|]. split; [now constructor | reflexivity].
    + intros (n0 & es & <- & H & ->). inversion H; subst. exists es. auto.
Qed.
