(** C104-C106, continued: what is written comes back. *)
From Coq Require Import ZArith Bool String Lia.
From Coq Require Import List.
Import ListNotations.
From Verif.Model Require Import Text Num Flt Value Convert Serde Buffered BufferedSer.
From Verif.Spec Require Import Spec Numerals Containers SerdeSpec ReadSpec BufferedSpec BufferedSerSpec.
From Verif.Proofs Require Import Basics Conversions SerProofs DeProofs RoundTrip Loaded VisitorProofs BufferedProofs BufferedMore BufferedTrips.
Local Open Scope Z_scope.

(** ** Everything written is narrow *)
Lemma ser_map_entries_iff {A} (serk serv : A -> mres value) l v : ser_map_entries serk serv l = Done v <-> exists es,
  Forall2 (fun e x => (exists kv, serk e = Done kv /\ into_string kv = Ok (fst x)) /\ serv e = Done (snd x)) l es /\ v = VMap (puts [] es).
Proof.
  change (ser_map_entries serk serv l) with (entries_loop serk serv (open_map []) l). generalize (@nil (str * value)) as acc.
  induction l as [|e l IH]; intros acc.
  - cbn. split; [intros [= <-]; exists []; split; [constructor | reflexivity] | intros (es & F & ->); inversion F; reflexivity].
  - unfold open_map; rewrite entries_step. split.
    + intros H. apply obind_done in H as (kv & Hk & H). apply obind_done in H as (k & Hk' & H). apply obind_done in H as (x & Hx & H).
      apply of_result_done in Hk'. apply IH in H as (es & F & ->). exists ((k, x) :: es). split; [|reflexivity]. constructor; auto. cbn. eauto.
    + intros (es & F & ->). inversion F as [|? [k x] ? es' [(kv & Hk & Hk') Hx] F']; subst. cbn [fst snd] in *.
      apply obind_done. exists kv. split; auto. apply obind_done. exists k. split; [now apply of_result_done|]. apply obind_done. exists x. split; auto.
      apply IH. exists es'. auto.
Qed.
Lemma puts_narrow es : (forall k x, In (k, x) es -> ~ has_wide x) -> ~ has_wide (VMap (puts [] es)).
Proof. apply made_narrow, puts_made_of. Qed.
Lemma ser_value_narrow u : forall v, ser_value u = Done v -> ~ has_wide v.
Proof.
  induction u as [u S|l IH|m IH] using value_ind'; intros v E.
  - destruct u; try destruct S; cbn in E; try discriminate; injection E as <-; intros H; inversion H.
  - cbn [ser_value] in E. change new_array with (VArr []) in E. apply ser_seq_inv in E as (vs & F & ->). apply wide_arr. intros y Hy.
    destruct (Forall2_in_r _ _ _ _ F Hy) as (x & Hx & E). eauto.
  - cbn [ser_value] in E. apply ser_map_entries_iff in E as (es & F & ->). apply puts_narrow. intros k y Hy.
    destruct (Forall2_in_r _ _ _ _ F Hy) as ([k' x] & Hx & _ & E). cbn [fst snd] in *. eauto.
Qed.
Lemma seq_narrow l v : (forall d, In d l -> forall v, ser d = Done v -> ~ has_wide v) -> ser_seq ser new_array l = Done v -> ~ has_wide v.
Proof.
  intros H E. change new_array with (VArr []) in E. apply ser_seq_inv in E as (vs & F & ->). apply wide_arr. intros y Hy.
  destruct (Forall2_in_r _ _ _ _ F Hy) as (x & Hx & E). eauto.
Qed.
Lemma fields_narrow fs v : (forall k d, In (k, d) fs -> forall v, ser d = Done v -> ~ has_wide v) -> ser_fields ser new_map fs = Done v -> ~ has_wide v.
Proof.
  intros H E. change new_map with (VMap []) in E. apply ser_fields_iff in E as (es & F & ->). apply puts_narrow. intros k y Hy.
  destruct (Forall2_in_r _ _ _ _ F Hy) as ([k' x] & Hx & _ & E). cbn [fst snd] in *. eauto.
Qed.
Lemma variant_narrow k x v : obind x (variant_map k) = Done v -> (forall y, x = Done y -> ~ has_wide y) -> ~ has_wide v.
Proof.
  intros E H. apply obind_done in E as (y & Hy & E). injection E as <-. apply wide_map. intros k' z [[= <- <-]|[]]. auto.
Qed.
Lemma ser_narrow d : forall v, ser d = Done v -> ~ has_wide v.
Proof.
  induction d as [d S|u|d IH|l IH|l IH|m IH|fs IH|d IH|l IH|k d IH|k l IH|k fs IH] using data_ind'; intros v E; cbn [ser] in E.
  - destruct d; try destruct S; cbn in E; try discriminate; try (injection E as <-; intros H; inversion H; fail).
    + eapply from_int_narrow; eauto.
    + assert (G : forall l acc v, ser_bytes_loop (VArr acc) l = Done v -> ~ has_wide (VArr acc) -> ~ has_wide v).
      { clear. induction l as [|b l IH]; intros acc v E N; cbn in E; [injection E as <-; exact N|]. apply (IH _ _ E).
        apply wide_arr. intros x Hx. apply in_app_or in Hx as [Hx|[<-|[]]]; [|intros W; inversion W]. intros W. apply N. econstructor; eauto. }
      apply (G _ _ _ E). apply wide_arr. intros x [].
  - now apply (ser_value_narrow u).
  - eauto.
  - eapply seq_narrow; eauto.
  - eapply seq_narrow; eauto.
  - apply ser_map_entries_iff in E as (es & F & ->). apply puts_narrow. intros k y Hy.
    destruct (Forall2_in_r _ _ _ _ F Hy) as ([k' x] & Hx & _ & E). cbn [fst snd] in *. apply (proj2 (IH _ _ Hx)); auto.
  - eapply fields_narrow; eauto.
  - eauto.
  - eapply seq_narrow; eauto.
  - eapply variant_narrow; eauto.
  - eapply variant_narrow; eauto. intros y Hy. eapply seq_narrow; eauto.
  - eapply variant_narrow; eauto. intros y Hy. eapply fields_narrow; eauto.
Qed.
Lemma narrow_equiv v v' : ~ has_wide v -> vequiv v v' -> ~ has_wide v'.
Proof. intros N E W. apply N. eapply wide_equiv; [apply vequiv_sym, E | exact W]. Qed.

(** ** Untagged *)
Lemma untagged_written n sh d : shape_kept sh -> has_variant n sh d -> ~ data_wide d -> exists v, ser_untagged d = Done v /\ ~ has_wide v.
Proof.
  intros K H W. assert (G : exists v, ser_untagged d = Done v).
  { destruct H as [|t d H|ts l H|fs l H]; cbn [shape_kept] in K.
    - eexists; reflexivity.
    - destruct (round_trip t (kept_round t K) d H) as (v & E & _); [intros X; apply W; now constructor | eauto].
    - destruct (round_trip _ (kept_round _ K) _ H) as (v & E & _); [|eauto]. intros X; apply W; inversion X; subst; econstructor; eauto.
    - destruct (round_trip _ (kept_round _ K) _ H) as (v & E & _); [|eauto]. intros X; apply W; inversion X; subst; econstructor; eauto. }
  destruct G as (v & E). exists v. split; auto. destruct H as [|t d H|ts l H|fs l H]; cbn [ser_untagged] in E.
  - injection E as <-. intros X; inversion X.
  - now apply (ser_narrow d).
  - now apply (ser_narrow (DTuple l)).
  - now apply (ser_narrow (DStruct l)).
Qed.
Lemma untagged_returns n sh d v v' : shape_kept sh -> has_variant n sh d -> ser_untagged d = Done v -> vequiv v v' -> uniq v' ->
  exists d', variant_reads n sh v' d' /\ same_variant d d'.
Proof.
  intros K H E Ev U. destruct H as [|t d H|ts l H|fs l H]; cbn [shape_kept] in K; cbn [ser_untagged] in E.
  - injection E as <-. rewrite (vequiv_scalar_l VNone _ I Ev). eexists. split; constructor.
  - destruct (strict_returns false true t K d H v v' E Ev U) as (d' & D1 & D2). eexists. split; constructor; eauto.
  - destruct (strict_returns false true _ K _ H v v' E Ev U) as (d' & D1 & D2). inversion D2 as [|? ? X|? ? X|? r X| | | | |]; subst; [destruct (H0)|].
    eexists. split; [constructor; eauto | now constructor].
  - destruct (strict_returns false true _ K _ H v v' E Ev U) as (d' & D1 & D2). inversion D2; subst; [contradiction|].
    eexists. split; [constructor; eauto | now constructor].
    change new_map with (VMap []) in E. apply ser_fields_iff in E as (es & _ & ->). apply vequiv_map_l in Ev as (m & -> & _). eexists; reflexivity.
Qed.
Lemma variant_reads_name n sh v d : variant_reads n sh v d -> is_variant n d.
Proof. destruct 1; reflexivity. Qed.
Lemma same_variant_name d d' n : same_variant d d' -> is_variant n d -> is_variant n d'.
Proof. destruct 1; auto. Qed.
Lemma has_variant_name n sh d : has_variant n sh d -> is_variant n d.
Proof. destruct 1; reflexivity. Qed.
Lemma is_variant_fun n m d : is_variant n d -> is_variant m d -> n = m.
Proof. destruct d; cbn; try tauto; congruence. Qed.

(** ** Tagged *)
Lemma entries_exist d v : taggable d -> ser d = Done v -> exists es, entries_of d es.
Proof.
  intros T; revert v; induction T as [| |d T IH|fs|m|m|d T]; intros v E; cbn [ser] in E.
  - exists []. constructor.
  - exists []. constructor.
  - destruct (IH v E) as (es & H). exists es. now constructor.
  - change new_map with (VMap []) in E. apply ser_fields_iff in E as (es & F & _). exists es. now constructor.
  - apply ser_map_entries_iff in E as (es & F & _). exists es. now constructor.
  - cbn [ser_value] in E. apply ser_map_entries_iff in E as (es & F & _). exists es. constructor. apply str_entries in F. exact F.
  - destruct T; cbn [ser] in E.
    + eexists. eapply EoVariant; [left; split; reflexivity | reflexivity].
    + apply obind_done in E as (x & E & _). eexists. eapply EoVariant; [right; left; eexists; split; [reflexivity | exact E] | reflexivity].
    + apply obind_done in E as (x & E & _). eexists. eapply EoVariant; [right; right; left; eexists; split; [reflexivity | exact E] | reflexivity].
    + apply obind_done in E as (x & E & _). eexists. eapply EoVariant; [right; right; right; eexists; split; [reflexivity | exact E] | reflexivity].
Qed.
Lemma entries_taggable d es : entries_of d es -> taggable d /\ exists v, ser d = Done v.
Proof.
  induction 1 as [| |d l H [IH (v & IH')]|fs l F|m l F|m l F|d l n x H ->].
  - split; [constructor | eexists; reflexivity].
  - split; [constructor | eexists; reflexivity].
  - split; [now constructor | exists v; exact IH'].
  - split; [constructor|]. eexists. cbn [ser]. change new_map with (VMap []). apply ser_fields_iff. exists l. split; [exact F | reflexivity].
  - split; [constructor|]. eexists. cbn [ser]. apply ser_map_entries_iff. exists l. split; [exact F | reflexivity].
  - split; [constructor|]. eexists. cbn [ser ser_value]. apply ser_map_entries_iff. exists l. split; [apply str_entries; exact F | reflexivity].
  - destruct H as [[-> _]|[(y & -> & E)|[(y & -> & E)|(y & -> & E)]]]; (split; [apply TaVariant; constructor|]); cbn [ser] in *; try (eexists; reflexivity);
      rewrite E; eexists; reflexivity.
Qed.

(** Entries of typed data are distinct, and stand under the names the data write. *)
Lemma key_entry tk a kv s : key_type tk -> has_type tk a -> ser a = Done kv -> into_string kv = Ok s -> key_text a s.
Proof. intros K H E I. destruct (key_round tk a K H) as (kv' & s' & E1 & E2 & E3 & _). congruence. Qed.
Lemma map_entries_texts tk m es : key_type tk -> (forall a b, In (a, b) m -> has_type tk a) -> map_entries m es ->
  Forall2 (fun e q => key_text (fst e) (fst q) /\ ser (snd e) = Done (snd q)) m es.
Proof.
  intros K T F. eapply Forall2_imp; [|exact F]. intros [a b] [s x] Ha _ [(kv & E1 & E2) E3]. cbn [fst snd] in *. split; auto. eapply key_entry; eauto.
Qed.
Lemma texts_nodup tk (m : list (data * data)) (ps : vmap) : key_type tk -> (forall a b, In (a, b) m -> has_type tk a) -> NoDup (map fst m) ->
  Forall2 (fun e q => key_text (fst e) (fst q) /\ ser (snd e) = Done (snd q)) m ps -> NoDup (map fst ps).
Proof.
  intros K T ND F2. induction F2 as [|[a b] [s x] m ps [E1 E2] F2 IH]; cbn in *; constructor.
  - inversion ND as [|? ? N1 N2]; subst. intros Hin. apply N1. apply in_map_iff in Hin as ([s' x'] & E & Hin). cbn in E; subst s'.
    destruct (Forall2_in_r _ _ _ _ F2 Hin) as ([a' b'] & Hin' & Ht & _). cbn in Ht.
    assert (a = a') as <- by (apply (key_text_inj tk a a' s K); eauto). apply (in_map fst) in Hin'. exact Hin'.
  - inversion ND; subst. apply IH; eauto.
Qed.
Lemma field_entries_keys fs es : field_entries fs es -> map fst es = map fst fs.
Proof. induction 1 as [|a b l r [E _] F IH]; cbn; congruence. Qed.
Lemma entries_typed t d es : kept t -> has_type t d -> entries_of d es -> NoDup (map fst es) /\ forall k, In k (map fst es) -> writes_under d k.
Proof.
  intros K H E. revert t K H. induction E as [| |d l E IH|fs l F|m l F|m l F|d l n x X ->]; intros t K H; assert (Ne : t <> TEnum) by (intros ->; inversion K; subst; contradiction).
  - split; [constructor | intros k []].
  - split; [constructor | intros k []].
  - inversion H as [| | | | | | | | | | | | | |? ? H1| | | |]; subst; try congruence. inversion K as [? X| | | | | |? K1|]; subst; [contradiction|]. destruct (IH _ K1 H1) as [A B]. split; auto. intros k Hk. constructor; auto.
  - inversion H as [| | | | | | | | | | | | |? ? En T| | | | |]; subst; try congruence. inversion K as [? X| | | | |? ND _| |]; subst; [contradiction|].
    pose proof (field_entries_keys _ _ F) as E. rewrite E, <- En. split; auto. intros k Hk. constructor. now rewrite <- En.
  - inversion H as [| | | | | | | | | | | |? ? ? Kt ND T| | | | | |]; subst; try congruence.
    assert (T' : forall a b, In (a, b) m -> has_type tk a) by (intros a b Hab; apply (T a b Hab)).
    pose proof (map_entries_texts tk m l Kt T' F) as G. split; [eapply texts_nodup; eauto|].
    intros k Hk. apply in_map_iff in Hk as ([s x] & <- & Hs). destruct (Forall2_in_r _ _ _ _ G Hs) as ([a b] & Hab & Ta & _). econstructor; eauto.
  - inversion H as [| | | | | | | | | | | | | | | | | |? U]; subst; try congruence. apply uniq_map in U as [ND _].
    assert (E : map fst l = map fst m) by (clear - F; induction F as [|a b l r [E _] F IH]; cbn; congruence). rewrite E. split; auto. intros k Hk. now constructor.
  - exfalso. destruct X as [[-> _]|[(y & -> & _)|[(y & -> & _)|(y & -> & _)]]]; inversion H; subst; congruence.
Qed.

(** What was written next to the tag is read from what is left when the tag is
    taken away. *)
Definition same_entries (es r : vmap) : Prop :=
  (forall k x, In (k, x) es -> exists y, In (k, y) r /\ vequiv x y) /\ (forall k y, In (k, y) r -> exists x, In (k, x) es /\ vequiv x y).
Lemma same_entries_nil r : same_entries [] r -> r = [].
Proof. intros [_ H]. destruct r as [|[k x] r]; auto. destruct (H k x (or_introl eq_refl)) as (y & [] & _). Qed.
Lemma struct_returns l p fs ds es r : kept (TStruct fs) -> has_type (TStruct fs) (DStruct ds) -> field_entries ds es -> same_entries es r ->
  (forall k x, In (k, x) r -> uniq x) -> exists ds', strict l p (TStruct fs) (VMap r) (DStruct ds') /\ data_equiv (DStruct ds) (DStruct ds').
Proof.
  intros K H F [V1 _] U. inversion H as [| | | | | | | | | | | | |? ? En T| | | | |]; subst; try congruence. inversion K as [? X| | | | |? ND Kf| |]; subst; [contradiction|].
  destruct (fields_return l p fs ds es r En) as (ds' & L1 & L2 & L3); auto.
  - apply Forall2_of_types; auto. intros t d Ht. apply in_map_iff in Ht as ([k t'] & <- & Ht). apply strict_returns. eauto.
  - eapply Forall2_imp; [|exact F]. intros f e _ _ [E1 E2]. auto.
  - exists ds'. split; [|now constructor]. apply StStruct; [eexists; reflexivity|]. eapply Forall2_imp; [|exact L1].
    intros f d _ _ (E1 & x & Hx & S). split; auto. left. exists x. split; auto. now apply holds_map.
Qed.
Lemma content_returns t d es r : kept t -> has_type t d -> entries_of d es -> same_entries es r -> uniq (VMap r) ->
  exists d', strict true true t (VMap r) d' /\ data_equiv d d'.
Proof.
  intros K H E. revert t K H. induction E as [| |d l E IH|fs l F|m l F|m l F|d l n x X ->]; intros t K H V U; assert (Ne : t <> TEnum) by (intros ->; inversion K; subst; contradiction).
  - apply same_entries_nil in V. subst. inversion H; subst; try congruence. exists DUnit. split; [now constructor | now constructor].
  - apply same_entries_nil in V. subst. inversion H; subst; try congruence. exists DUnitStruct. split; [now constructor | now constructor].
  - inversion H as [| | | | | | | | | | | | | |? ? H1| | | |]; subst; try congruence. inversion K as [? X| | | | | |? K1|]; subst; [contradiction|]. destruct (IH _ K1 H1 V U) as (d' & A & B). exists (DNewtype d'). split; now constructor.
  - assert (exists fs', t = TStruct fs') as (fs' & ->) by (inversion H; subst; eauto; congruence). apply uniq_map in U as [_ U].
    destruct (struct_returns true true fs' fs l r K H F V U) as (ds' & A & B). eauto.
  - inversion H as [| | | | | | | | | | | |? ? ? Kt ND T| | | | | |]; subst; try congruence. inversion K as [? X| | | |? ? Tk Kv| | |]; subst; [contradiction|]. apply uniq_map in U as [_ U].
    assert (T' : forall a b, In (a, b) m -> has_type tk a) by (intros a b Hab; apply (T a b Hab)).
    pose proof (map_entries_texts tk m l Kt T' F) as G. destruct V as [V1 V2].
    destruct (entries_return true true tk tv m l r Tk ND) as (q & Q1 & Q2); auto.
    { intros a b Hab. destruct (T a b Hab). split; auto. now apply strict_returns. }
    exists (DMap q). split; auto. now constructor.
  - inversion H as [| | | | | | | | | | | | | | | | | |? Um]; subst; try congruence. exists (DValue (VMap r)). split; [constructor|]. apply DeValue.
    apply uniq_map in Um as [_ Um]. assert (l = m) as <-.
    { clear - F Um. induction F as [|[k x] [k' y] m l [E1 E2] F IH]; auto. cbn [fst snd] in *. subst k'. cbn [ser] in E2.
      apply ser_value_textless in E2; [|eapply Um; left; reflexivity]. subst. f_equal. apply IH. intros; eapply Um; right; eauto. }
    destruct V. now constructor.
  - exfalso. destruct X as [[-> _]|[(y & -> & _)|[(y & -> & _)|(y & -> & _)]]]; inversion H; subst; congruence.
Qed.

Lemma tag_taken_away tag n es m : NoDup (map fst ((tag, VStr n) :: es)) -> NoDup (map fst m) ->
  vequiv (VMap (puts [(tag, VStr n)] es)) (VMap m) ->
  exists m1 m2, m = m1 ++ (tag, VStr n) :: m2 /\ ~ In tag (map fst (m1 ++ m2)) /\ same_entries es (m1 ++ m2).
Proof.
  intros ND NM Ev. change (puts [(tag, VStr n)] es) with (puts [] ((tag, VStr n) :: es)) in Ev.
  destruct (made_nodup _ _ ND (puts_made_of _)) as (m0 & E0 & _ & B). rewrite E0 in Ev. clear E0.
  apply vequiv_map_l in Ev as (m' & [= <-] & V1 & V2).
  destruct (V1 tag (VStr n)) as (y & Hy & Ey); [apply B; now left|]. apply vequiv_scalar_l in Ey; [|exact I]. subst y.
  apply in_split in Hy as (m1 & m2 & ->). exists m1, m2. split; auto.
  assert (Nt : ~ In tag (map fst (m1 ++ m2))) by (rewrite map_app in *; cbn in NM; now apply NoDup_remove_2 in NM). split; auto.
  cbn in ND. inversion ND as [|? ? N1 N2]; subst. split.
  - intros k x Hx. destruct (V1 k x) as (y & Hy & Ey); [apply B; now right|]. exists y. split; auto.
    apply in_or_app. apply in_app_or in Hy as [Hy|[[= <- <-]|Hy]]; auto. destruct N1. now apply (in_map fst) in Hx.
  - intros k y Hy. destruct (V2 k y) as (x & Hx & Ex); [apply in_or_app; apply in_app_or in Hy as [Hy|Hy]; [left | right; right]; auto|].
    apply B in Hx as [[= <- <-]|Hx]; [|eauto]. destruct Nt. now apply (in_map fst) in Hy.
Qed.

Lemma tvariant_entries n sh d : tshape_kept sh -> has_tvariant n sh d -> ~ data_wide d -> (forall k x, d = DNewtypeVariant k x -> taggable x) ->
  exists es, variant_entries d es.
Proof.
  intros K H W T. destruct H as [|t d H|fs l H]; cbn [tshape_kept] in K.
  - exists []. constructor.
  - destruct (round_trip t (kept_round t K) d H) as (v & E & _); [intros X; apply W; now constructor|].
    destruct (entries_exist d v (T _ _ eq_refl) E) as (es & He). exists es. now constructor.
  - destruct (round_trip _ (kept_round _ K) _ H) as (v & E & _); [intros X; apply W; inversion X; subst; econstructor; eauto|].
    destruct (entries_exist _ v (TaStruct l) E) as (es & He). inversion He as [| | |? ? F| | |? ? ? ? X]; subst; [|destruct X as [[Y _]|[(y & Y & _)|[(y & Y & _)|(y & Y & _)]]]; discriminate Y].
    exists es. now constructor.
Qed.
Lemma entries_narrow d es : entries_of d es -> forall k x, In (k, x) es -> ~ has_wide x.
Proof.
  induction 1 as [| |d l H IH|fs l F|m l F|m l F|d l n y H ->]; intros k x Hx; try destruct Hx; try (eapply IH; eauto; fail).
  - destruct (Forall2_in_r _ _ _ _ F Hx) as (f & _ & _ & E). now apply (ser_narrow (snd f)).
  - destruct (Forall2_in_r _ _ _ _ F Hx) as (f & _ & _ & E). now apply (ser_narrow (snd f)).
  - destruct (Forall2_in_r _ _ _ _ F Hx) as (f & _ & _ & E). now apply (ser_narrow (DValue (snd f))).
  - injection H0 as <- <-. destruct H as [[_ ->]|[(z & _ & E)|[(z & _ & E)|(z & _ & E)]]]; [intros W; inversion W | | |]; eapply ser_narrow; eauto.
  - contradiction.
Qed.
Lemma variant_entries_narrow d es : variant_entries d es -> forall k x, In (k, x) es -> ~ has_wide x.
Proof.
  destruct 1 as [n|n d l H|n fs l F]; intros k x Hx; [destruct Hx | eapply entries_narrow; eauto|].
  destruct (Forall2_in_r _ _ _ _ F Hx) as (f & _ & _ & E). now apply (ser_narrow (snd f)).
Qed.
Lemma tvariant_typed n sh d es : tshape_kept sh -> has_tvariant n sh d -> variant_entries d es ->
  NoDup (map fst es) /\ forall k, In k (map fst es) -> variant_writes d k.
Proof.
  intros K H E. destruct H as [|t d H|fs l H]; cbn [tshape_kept] in K; inversion E; subst.
  - split; [constructor | intros k []].
  - destruct (entries_typed t d es K H) as [A B]; auto. split; auto. intros k Hk. constructor. auto.
  - destruct (entries_typed (TStruct fs) (DStruct l) es K H) as [A B]; [now constructor|]. split; auto. intros k Hk. specialize (B k Hk). inversion B; subst. now constructor.
Qed.
Lemma tvariant_returns n sh d es r : tshape_kept sh -> has_tvariant n sh d -> variant_entries d es -> same_entries es r -> uniq (VMap r) ->
  exists d', content_reads n sh (VMap r) d' /\ same_variant d d'.
Proof.
  intros K H E V U. destruct H as [|t d H|fs l H]; cbn [tshape_kept] in K; inversion E; subst.
  - eexists. split; constructor. left. eexists; reflexivity.
  - destruct (content_returns t d es r K H) as (d' & A & B); auto. eexists. split; constructor; eauto.
  - pose proof (proj1 (uniq_map r) U) as [_ Ur]. destruct (struct_returns true true fs l es r K H) as (ds' & A & B); auto. eexists. split; constructor; eauto.
Qed.
Lemma tagged_returns tag vs n sh d : NoDup (map fst vs) -> (forall n sh, In (n, sh) vs -> tshape_usable sh) -> In (n, sh) vs ->
  tshape_kept sh -> has_tvariant n sh d -> ~ data_wide d -> (forall k x, d = DNewtypeVariant k x -> taggable x) -> ~ variant_writes d tag ->
  exists v, ser_tagged tag d = Done v /\ forall v', vequiv v v' -> uniq v' -> exists d', de_tagged tag vs v' = Done d' /\ same_variant d d'.
Proof.
  intros NV Us Hin K H W T Nt. destruct (tvariant_entries n sh d K H W T) as (es & E). destruct (tvariant_typed n sh d es K H E) as [ND Un].
  exists (VMap (puts [(tag, VStr n)] es)). split.
  { apply tagged_iff_entries. exists n, es. split; auto. destruct H; reflexivity. }
  intros v' Ev Uv. pose proof Ev as Ev'. apply vequiv_map_l in Ev' as (m & -> & _). pose proof (proj1 (uniq_map m) Uv) as [NM Um].
  assert (NT : ~ In tag (map fst es)) by auto.
  destruct (tag_taken_away tag n es m) as (m1 & m2 & -> & N1 & V); auto; [cbn; now constructor|].
  assert (Ur : uniq (VMap (m1 ++ m2))).
  { apply uniq_map. split; [rewrite map_app in *; cbn in NM; now apply NoDup_remove_1 in NM|]. intros k x Hx. apply (Um k), in_or_app. apply in_app_or in Hx as [Hx|Hx]; [left | right; right]; auto. }
  destruct (tvariant_returns n sh d es (m1 ++ m2) K H E V Ur) as (d' & C & S). exists d'. split; auto. apply tagged_iff; auto.
  eapply TgMap; eauto; [reflexivity|]. apply wide_map. intros k y Hy. destruct V as [_ V2]. destruct (V2 k y Hy) as (x & Hx & Exy).
  eapply narrow_equiv; [|exact Exy]. eapply variant_entries_narrow; eauto.
Qed.

(** ** Flattened *)
Lemma parts_written pds : forall acc r, ser_flat_parts (open_map acc) pds = Done r <->
  exists ess, Forall2 (fun p l => part_entries (snd p) l) pds ess /\ r = open_map (puts acc (concat ess)).
Proof.
  induction pds as [|[n d] pds IH]; intros acc r.
  - cbn. split; [intros [= <-]; exists []; split; [constructor | reflexivity] | intros (ess & F & ->); inversion F; reflexivity].
  - assert (Step : forall (run : mres ser_map) (Q : vmap -> Prop), (forall s, run = Done s <-> exists es, Q es /\ s = open_map (puts acc es)) ->
      (forall es, part_entries d es <-> Q es) -> obind run (fun sm => ser_flat_parts sm pds) = Done r <->
      exists ess, Forall2 (fun p l => part_entries (snd p) l) ((n, d) :: pds) ess /\ r = open_map (puts acc (concat ess))).
    { intros run Q R P. etransitivity; [apply obind_done|]. split.
      - intros (s & Hs & H). apply R in Hs as (es & Hq & ->). apply IH in H as (ess & F & ->). exists (es :: ess). split; [constructor; auto; now apply P|].
        cbn [concat]. now rewrite puts_app.
      - intros (ess & F & ->). inversion F as [|? es ? ess' Pe F']; subst. exists (open_map (puts acc es)). split.
        + apply R. exists es. split; auto. now apply P.
        + apply IH. exists ess'. split; auto. cbn [concat]. now rewrite puts_app. }
    destruct d; try (split; [discriminate | intros (ess & F & _); inversion F as [|? ? ? ? P]; inversion P]); cbn [ser_flat_parts].
    + apply Step with (Q := map_entries m); [intros s; apply sm_entries_iff|]. intros es. split; [intros P; inversion P; auto | now constructor].
    + apply Step with (Q := field_entries fields).
      * intros s. etransitivity; [apply sm_entries_iff|]. split; intros (es & F & ->); exists es; (split; [|reflexivity]).
        -- apply str_entries in F. exact F.
        -- apply str_entries. exact F.
      * intros es. split; [intros P; inversion P; auto | now constructor].
Qed.
Lemma flat_written own pds v : ser_flat own pds = Done v <-> exists es ess, field_entries own es /\
  Forall2 (fun p l => part_entries (snd p) l) pds ess /\ v = VMap (puts [] (es ++ concat ess)).
Proof.
  unfold ser_flat. etransitivity; [apply sm_end_done|]. split.
  - intros (s & H & <-). apply obind_done in H as (s1 & H1 & H2). change ser_map_new with (open_map []) in H1.
    apply sm_entries_iff in H1 as (es & F & ->). apply parts_written in H2 as (ess & F2 & ->). exists es, ess.
    split; [apply str_entries in F; exact F|]. split; auto. cbn [open_map sm_map]. now rewrite puts_app.
  - intros (es & ess & F & F2 & ->). eexists. split.
    + apply obind_done. exists (open_map (puts [] es)). split.
      * change ser_map_new with (open_map []). apply sm_entries_iff. exists es. split; auto. apply str_entries. exact F.
      * apply parts_written. exists ess. split; eauto.
    + cbn [open_map sm_map]. now rewrite puts_app.
Qed.

Lemma own_returns (fs : list (str * ty)) (ds : list (str * data)) (es m : vmap) : (forall n t, In (n, t) fs -> round_trips t) ->
  map fst fs = map fst ds -> Forall2 has_type (map snd fs) (map snd ds) -> (forall n d, In (n, d) ds -> ~ data_wide d) -> field_entries ds es ->
  (forall k x, In (k, x) es -> exists y, In (k, y) m /\ vequiv x y) -> (forall k x, In (k, x) m -> uniq x) ->
  exists ds', Forall2 (fun f d => fst d = fst f /\ exists x, In (fst f, x) m /\ de (snd f) x = Done (snd d)) fs ds'
    /\ Forall2 (fun a b => fst a = fst b /\ data_equiv (snd a) (snd b)) ds ds'.
Proof.
  intros R E T W F V U. revert ds es R E T W F V. induction fs as [|[k t] fs IH]; intros [|[k' d] ds] es R E T W F V; cbn [map fst snd] in *; try discriminate.
  - exists []. split; constructor.
  - injection E as <- E. inversion T as [|? ? ? ? T1 T2]; subst. inversion F as [|? [k2 x] ? es' [W1 W2] W']; subst. cbn [fst snd] in *. subst k2.
    destruct (V k x (or_introl eq_refl)) as (y & Hy & Ey).
    destruct (round_trip t (R k t (or_introl eq_refl)) d T1 (W k d (or_introl eq_refl))) as (x0 & X1 & _ & X2). rewrite X1 in W2. injection W2 as ->.
    destruct (X2 y Ey (U _ _ Hy)) as (d' & D1 & _ & D2).
    destruct (IH ds es') as (ds' & L1 & L2); auto; [intros; eapply R; right; eauto | intros; eapply W; right; eauto | intros; apply V; right; auto|].
    exists ((k, d') :: ds'). split; constructor; auto. split; auto. exists y. split; auto.
Qed.

Lemma concat_in_tail {A} (x : A) l ls : In x (concat ls) -> In x (concat (l :: ls)).
Proof. intros H. cbn. apply in_or_app. now right. Qed.
Lemma parts_return m rest rpds ress : uniq (VMap m) -> (rest = [] \/ exists n t, rest = [(n, FpMap t)]) ->
  (forall n p, In (n, p) rest -> part_kept p) -> Forall2 (fun p d => fst d = fst p /\ has_part (snd p) (snd d)) rest rpds ->
  Forall2 (fun p l => part_entries (snd p) l) rpds ress ->
  forall sps spds sess taken, (forall p, In p sps -> is_struct_part p) -> (forall n p, In (n, p) sps -> part_kept p) ->
  Forall2 (fun p d => fst d = fst p /\ has_part (snd p) (snd d)) sps spds -> Forall2 (fun p l => part_entries (snd p) l) spds sess ->
  (forall k x, In (k, x) (concat sess ++ concat ress) -> exists y, In (k, y) m /\ vequiv x y) ->
  (forall k, In k taken -> ~ In k (flat_map part_names sps)) -> NoDup (flat_map part_names sps) ->
  (forall k x, In (k, x) (concat ress) -> ~ In k taken /\ ~ In k (flat_map part_names sps)) ->
  (forall k y, In (k, y) m -> In k taken \/ In k (flat_map part_names sps) \/ exists x, In (k, x) (concat ress) /\ vequiv x y) ->
  exists r, parts_read m taken (sps ++ rest) r /\ Forall2 (fun a b => fst a = fst b /\ data_equiv (snd a) (snd b)) (spds ++ rpds) r.
Proof.
  intros U Rest Kr Tr Er. pose proof (proj1 (uniq_map m) U) as [NM Um].
  induction sps as [|[n p] sps IH]; intros spds sess taken Str Ks Ts Es V Dis ND Out Cover.
  - inversion Ts; subst. inversion Es; subst. cbn [app flat_map concat] in *. destruct Rest as [->|(n & t & ->)].
    + inversion Tr; subst. exists []. split; constructor.
    + inversion Tr as [|? [n' d] ? ? [En Hp] Tr']; subst. inversion Tr'; subst. cbn [fst snd] in *. subst n'. inversion Hp as [|? m0 Hm]; subst.
      inversion Er as [|? es ? ? Pe Er']; subst. inversion Er'; subst. cbn [snd concat] in *. rewrite app_nil_r in *. inversion Pe as [|? ? F]; subst.
      inversion Hm as [| | | | | | | | | | | |? ? ? Kt NDm T| | | | | |]; subst.
      assert (T' : forall a b, In (a, b) m0 -> has_type TString a) by (intros a b Hab; apply (T a b Hab)).
      pose proof (map_entries_texts TString m0 es Kt T' F) as G.
      destruct (entries_return false true TString t m0 es (outside taken m) TlkString NDm) as (q & Q1 & Q2); auto.
      { intros a b Hab. destruct (T a b Hab). split; auto. apply strict_returns; auto. exact (Kr n (FpMap t) (or_introl eq_refl)). }
      { intros k x Hx. destruct (V k x Hx) as (y & Hy & Ey). exists y. split; auto. apply outside_in. split; auto. apply (Out k x Hx). }
      { intros k y Hy. apply outside_in in Hy as [Hy Nk]. destruct (Cover k y Hy) as [X|[X|X]]; [contradiction | destruct X | exact X]. }
      { intros k x Hx. apply outside_in in Hx as [Hx _]. eauto. }
      exists [(n, DMap q)]. split; [|constructor; [split; auto | constructor]]. apply PaMap; [|constructor].
      eapply Forall2_imp; [|exact Q1]. intros e d _ _ [S1 S2]. split; auto. inversion S1; subst; auto.
  - destruct (Str (n, p) (or_introl eq_refl)) as (fs & Ep). cbn in Ep. subst p.
    inversion Ts as [|? [n' d] ? spds' [En Hp] Ts']; subst. cbn [fst snd] in *. subst n'. inversion Hp as [? ds Hd|]; subst.
    inversion Es as [|? es ? sess' Pe Es']; subst. cbn [snd] in *. inversion Pe as [? ? F|]; subst.
    cbn [flat_map] in *. change (part_names (n, FpStruct fs)) with (map fst fs) in *.
    assert (K : kept (TStruct fs)) by exact (Ks n (FpStruct fs) (or_introl eq_refl)).
    assert (D1 : (forall k, In k (map fst fs) -> ~ In k (flat_map part_names sps)) /\ NoDup (flat_map part_names sps)).
    { clear - ND. induction (map fst fs) as [|k l IH]; cbn in *; [auto|]. inversion ND as [|? ? N1 N2]; subst. destruct (IH N2) as [A B]. split; auto.
      intros k' [<-|H]; auto. intros X. apply N1, in_or_app. now right. }
    destruct D1 as [D1 D2].
    inversion Hd as [| | | | | | | | | | | | |? ? Ef T| | | | |]; subst. inversion K as [? X| | | | |? NDf Kf| |]; subst; [contradiction|].
    destruct (fields_return true true fs ds es m Ef) as (ds' & L1 & L2 & L3).
    { apply Forall2_of_types; auto. intros t d Ht. apply in_map_iff in Ht as ([k t'] & <- & Ht). apply strict_returns. eauto. }
    { eapply Forall2_imp; [|exact F]. intros f e _ _ [E1 E2]. auto. }
    { intros k x Hx. apply V. cbn [concat]. rewrite <- app_assoc. apply in_or_app. now left. }
    { exact Um. }
    destruct (IH spds' sess' (taken ++ map fst fs)) as (r & R1 & R2); auto.
    + intros q Hq. apply Str. now right.
    + intros n' q Hq. apply (Ks n'). now right.
    + intros k x Hx. apply V. cbn [concat]. rewrite <- app_assoc. apply in_or_app. now right.
    + intros k Hk Hk'. apply in_app_or in Hk as [Hk|Hk]; [apply (Dis k Hk), in_or_app; now right | exact (D1 k Hk Hk')].
    + intros k x Hx. destruct (Out k x Hx) as [O1 O2]. rewrite in_app_iff in O2. rewrite in_app_iff. tauto.
    + intros k y Hy. rewrite in_app_iff. destruct (Cover k y Hy) as [X|[X|X]]; auto. apply in_app_or in X. tauto.
    + exists ((n, DStruct ds') :: r). split; [|constructor; auto; split; auto; now constructor].
      cbn [app]. apply PaStruct; auto. eapply Forall2_imp; [|exact L1]. intros f d Hf _ (E1 & x & Hx & S). split; auto. left. split.
      * intros Ht. apply (Dis _ Ht), in_or_app. left. now apply (in_map fst) in Hf.
      * exists x. split; auto. now apply holds_map.
Qed.

Lemma struct_keys sps : forall spds sess, (forall p, In p sps -> is_struct_part p) ->
  Forall2 (fun p d => fst d = fst p /\ has_part (snd p) (snd d)) sps spds -> Forall2 (fun p l => part_entries (snd p) l) spds sess ->
  map fst (concat sess) = flat_map part_names sps.
Proof.
  induction sps as [|[n p] sps IH]; intros spds sess S T E; inversion T as [|? [n' d] ? spds' [En Hp] T']; subst; inversion E as [|? es ? sess' Pe E']; subst; [reflexivity|].
  destruct (S (n, p) (or_introl eq_refl)) as (fs & Ep). cbn in Ep. subst p. cbn [snd fst] in *. inversion Hp as [? ds Hd|]; subst. inversion Pe as [? ? F|]; subst.
  cbn [concat flat_map]. rewrite map_app. f_equal; [|eapply IH; eauto; intros; apply S; now right].
  rewrite (field_entries_keys _ _ F). inversion Hd; subst. symmetry. assumption.
Qed.
Lemma part_written p d : part_kept p -> has_part p d -> ~ data_wide d -> exists es, part_entries d es.
Proof.
  intros K H W. destruct H as [fs l H|t m H].
  - destruct (round_trip _ (kept_round _ K) _ H W) as (v & E & _). destruct (entries_exist _ v (TaStruct l) E) as (es & He).
    inversion He as [| | |? ? F| | |? ? ? ? X]; subst; [|destruct X as [[Y _]|[(y & Y & _)|[(y & Y & _)|(y & Y & _)]]]; discriminate Y]. exists es. now constructor.
  - assert (K' : kept (TMap TString t)) by (apply KeMap; [constructor | exact K]).
    destruct (round_trip _ (kept_round _ K') _ H W) as (v & E & _). destruct (entries_exist _ v (TaMap m) E) as (es & He).
    inversion He as [| | | |? ? F| |? ? ? ? X]; subst; [|destruct X as [[Y _]|[(y & Y & _)|[(y & Y & _)|(y & Y & _)]]]; discriminate Y]. exists es. now constructor.
Qed.
Lemma nodup_app_parts {A} (a b : list A) : NoDup (a ++ b) <-> NoDup a /\ NoDup b /\ forall x, In x a -> ~ In x b.
Proof.
  induction a as [|x a IH]; cbn.
  - split; [intros H; split; [constructor | split; [auto | intros ? []]] | tauto].
  - split.
    + intros H. inversion H as [|? ? N1 N2]; subst. apply IH in N2 as (A1 & B1 & C1). rewrite in_app_iff in N1. split; [constructor; tauto|]. split; auto. intros y [<-|Hy]; [tauto | auto].
    + intros (H & B1 & C1). inversion H as [|? ? N1 N2]; subst. constructor; [rewrite in_app_iff; intros [X|X]; [tauto | exact (C1 x (or_introl eq_refl) X)]|].
      apply IH. split; auto.
Qed.
Lemma pairs_equiv (a b : list (str * data)) : Forall2 (fun a b => fst a = fst b /\ data_equiv (snd a) (snd b)) a b -> data_equiv (DStruct a) (DStruct b).
Proof.
  intros F. constructor.
  - induction F as [|x y a b [E _] F IH]; cbn; congruence.
  - induction F as [|x y a b [_ E] F IH]; cbn; constructor; auto.
Qed.
Lemma flat_returns own sps rest od spds rpds :
  NoDup (map fst own ++ flat_map part_names sps) -> (forall n t, In (n, t) own -> round_trips t) ->
  (forall p, In p sps -> is_struct_part p) -> (rest = [] \/ exists n t, rest = [(n, FpMap t)]) ->
  (forall n p, In (n, p) (sps ++ rest) -> part_kept p) ->
  has_type (TStruct own) (DStruct od) -> Forall2 (fun p d => fst d = fst p /\ has_part (snd p) (snd d)) sps spds ->
  Forall2 (fun p d => fst d = fst p /\ has_part (snd p) (snd d)) rest rpds ->
  ~ data_wide (DStruct (od ++ spds ++ rpds)) ->
  (forall n d k, In (n, d) rpds -> writes_under d k -> ~ In k (map fst own ++ flat_map part_names sps)) ->
  exists v, ser_flat od (spds ++ rpds) = Done v /\ forall v', vequiv v v' -> uniq v' ->
    exists od' pd', de_flat own (sps ++ rest) v' = Done (DStruct (od' ++ pd')) /\ data_equiv (DStruct od) (DStruct od') /\ data_equiv (DStruct (spds ++ rpds)) (DStruct pd').
Proof.
  intros ND Ro Str Rest Kp To Ts Tr W Out.
  assert (Wo : forall n d, In (n, d) od -> ~ data_wide d) by (intros n d H X; apply W; econstructor; [|exact X]; apply in_or_app; left; eauto).
  assert (Wp : forall n d, In (n, d) (spds ++ rpds) -> ~ data_wide d) by (intros n d H X; apply W; econstructor; [|exact X]; apply in_or_app; right; eauto).
  inversion To as [| | | | | | | | | | | | |? ? Ef T| | | | |]; subst.
  assert (exists es, field_entries od es) as (es & Fo).
  { apply Forall2_exists. intros [k d] Hd. assert (exists t, round_trips t /\ has_type t d) as (t & Rt & Ht).
    { clear - Ef T Hd Ro. revert od Ef T Hd. induction own as [|[k' t] own IH]; intros [|[k2 d2] od] Ef T Hd; try discriminate; [destruct Hd|]. cbn in *.
      inversion T; subst. destruct Hd as [[= -> ->]|Hd]; [exists t; split; eauto|]. eapply IH; eauto. congruence. }
    destruct (round_trip t Rt d Ht (Wo k d Hd)) as (v & E & _). exists (k, v). auto. }
  assert (Ex : forall (ps : list (str * flat_part)) (pds : list (str * data)), (forall n p, In (n, p) ps -> part_kept p) -> (forall n d, In (n, d) pds -> ~ data_wide d) ->
    Forall2 (fun p d => fst d = fst p /\ has_part (snd p) (snd d)) ps pds -> exists ess, Forall2 (fun p l => part_entries (snd p) l) pds ess).
  { clear. intros ps pds K Wd F. induction F as [|[n p] [n' d] ps pds [E H] F IH]; [exists []; constructor|]. cbn [fst snd] in *. subst n'.
    destruct IH as (ess & G); [intros; eapply K; right; eauto | intros; eapply Wd; right; eauto|].
    destruct (part_written p d (K n p (or_introl eq_refl)) H (Wd n d (or_introl eq_refl))) as (es & He). exists (es :: ess). constructor; auto. }
  destruct (Ex sps spds) as (sess & Es); auto; [intros; eapply Kp; apply in_or_app; eauto | intros; eapply Wp; apply in_or_app; eauto|].
  destruct (Ex rest rpds) as (ress & Er); auto; [intros; eapply Kp; apply in_or_app; eauto | intros; eapply Wp; apply in_or_app; eauto|].
  pose proof (Forall2_app Es Er) as Ea. pose proof (field_entries_keys _ _ Fo) as Ko. pose proof (struct_keys _ _ _ Str Ts Es) as Kss.
  assert (Kr : NoDup (map fst (concat ress)) /\ forall k, In k (map fst (concat ress)) -> ~ In k (map fst own ++ flat_map part_names sps)).
  { destruct Rest as [->|(n & t & ->)]; [inversion Tr; subst; inversion Er; subst; split; [constructor | intros k []]|].
    inversion Tr as [|? [n' d] ? ? [En Hp] Tr']; subst. inversion Tr'; subst. cbn [fst snd] in *. subst n'. inversion Hp as [|? m0 Hm]; subst.
    inversion Er as [|? re ? ? Pe Er']; subst. inversion Er'; subst. cbn [snd concat] in *. rewrite app_nil_r. inversion Pe as [|? ? F]; subst.
    assert (K0 : part_kept (FpMap t)) by (apply (Kp n), in_or_app; right; left; reflexivity).
    assert (K' : kept (TMap TString t)) by (apply KeMap; [constructor | exact K0]).
    destruct (entries_typed _ _ re K' Hm) as [A B]; [now constructor|]. split; auto. intros k Hk. eapply Out; [left; reflexivity | auto]. }
  destruct Kr as [NR Kr].
  assert (NA : NoDup (map fst (es ++ concat (sess ++ ress)))).
  { rewrite concat_app, !map_app, Ko, <- Ef, Kss, app_assoc. apply nodup_app_parts. split; auto. split; auto. intros x Hx Hr. exact (Kr x Hr Hx). }
  exists (VMap (puts [] (es ++ concat (sess ++ ress)))). split; [apply flat_written; eauto|].
  intros v' Ev Uv. destruct (made_nodup _ _ NA (puts_made_of _)) as (m0 & E0 & _ & B). rewrite E0 in Ev.
  assert (Nv : ~ has_wide v').
  { eapply narrow_equiv; [|exact Ev]. apply wide_map. intros k x Hx. apply B in Hx. apply in_app_or in Hx as [Hx|Hx].
    - destruct (Forall2_in_r _ _ _ _ Fo Hx) as (f & _ & _ & E). eapply ser_narrow; eauto.
    - apply in_concat in Hx as (l & Hl & Hx). destruct (Forall2_in_r _ _ _ _ Ea Hl) as ([n d] & _ & Pe). cbn [snd] in Pe. destruct Pe as [fs l F|m l F];
        destruct (Forall2_in_r _ _ _ _ F Hx) as (f & _ & _ & E); eapply ser_narrow; eauto. }
  apply vequiv_map_l in Ev as (m & -> & V1 & V2). pose proof (proj1 (uniq_map m) Uv) as [NM Um].
  apply nodup_app_parts in ND as (NO & NS & Dis).
  destruct (own_returns own od es m Ro Ef T Wo Fo) as (od' & O1 & O2); auto.
  { intros k x Hx. apply V1, B, in_or_app. now left. }
  destruct (parts_return m rest rpds ress Uv Rest) with (sps := sps) (spds := spds) (sess := sess) (taken := map fst own) as (r & R1 & R2); auto.
  { intros n p Hp. apply (Kp n), in_or_app. now right. }
  { intros n p Hp. apply (Kp n), in_or_app. now left. }
  { intros k x Hx. apply V1, B, in_or_app. right. now rewrite concat_app. }
  { intros k x Hx. apply (in_map fst) in Hx. specialize (Kr _ Hx). cbn in Kr. rewrite in_app_iff in Kr. tauto. }
  { intros k y Hy. destruct (V2 k y Hy) as (x & Hx & Ex'). apply B in Hx. rewrite concat_app in Hx. apply in_app_or in Hx as [Hx|Hx].
    - left. rewrite Ef, <- Ko. now apply (in_map fst) in Hx.
    - apply in_app_or in Hx as [Hx|Hx]; [right; left | right; right; eauto]. rewrite <- Kss. now apply (in_map fst) in Hx. }
  exists od', r. split; [|split; apply pairs_equiv; auto].
  apply flat_iff; auto.
  { intros n p Hp. specialize (Kp n p Hp). destruct p; cbn in *; now apply kept_usable. }
  apply FlReads; auto.
  - eapply Forall2_imp; [|exact O1]. intros f d _ _ (E1 & x & Hx & D). split; auto. left. exists x. split; auto. now apply holds_map.
  - intros k x Hx _ X. apply Nv. econstructor; eauto.
Qed.
