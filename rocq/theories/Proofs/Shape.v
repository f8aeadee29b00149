(** C69: what Values the serialiser produces; C09: f32 widening. *)
From Coq Require Import ZArith Reals Bool String Lia Lra.
From Coq Require Import Floats.SpecFloat.
From Flocq Require Import Core BinarySingleNaN.
From Coq Require Import List.
Import ListNotations.
From Verif.Model Require Import Text Num Flt Value Convert Serde.
From Verif.Spec Require Import Spec Containers Numerals SerdeSpec FloatSpec ShapeSpec.
From Verif.Proofs Require Import Basics Conversions SerProofs FloatBase FloatConv.
From Verif.Proofs Require Containers.
Local Open Scope Z_scope.

(** ** f32 to f64 *)
Lemma f32_widens f : f32_valid f = true -> widens f (f32_to_f64 f).
Proof.
  intros V. destruct f as [s|s| |s m e]; try (split; reflexivity || exact I).
  destruct (f32_widen _ V eq_refl) as (V' & F' & S' & E').
  unfold widens. split; [exact V'|].
  destruct (f32_to_f64 (S754_finite s m e)) as [s'|s'| |s' m' e'] eqn:Eg; try discriminate.
  - exfalso. cbn in E'. symmetry in E'. apply (eq_0_F2R) in E'. cbn in E'. destruct s; discriminate.
  - split; [symmetry; exact S'|]. now rewrite !real_SF2R.
Qed.
Lemma widens_unique f g g' : widens f g -> widens f g' -> g = g'.
Proof.
  intros [V H] [V' H'].
  destruct f as [s|s| |s m e], g as [t|t| |t n a], g' as [u|u| |u o b]; try contradiction; try congruence.
  destruct H as [-> H], H' as [-> H'].
  apply (same_float 53 1024); auto.
  rewrite <- !real_SF2R; congruence.
Qed.

(** ** Compound serialisers produce the last bindings *)
Lemma set_calls_bindings h : exists m, fst (set_calls (VMap []) h) = VMap m /\ bindings h m.
Proof.
  destruct (Containers.set_calls_map [] h) as (m & E & A & B & ND & K). rewrite E.
  exists m. split; [reflexivity|]. assert (ND' : NoDup (map fst m)) by (apply ND; constructor).
  split; [exact ND'|]. intros k x; split.
  - intros H. assert (G : mget k m = Some x) by (apply In_mget; auto).
    destruct (in_dec str_eq_dec k (map fst h)) as [Hin|Hn].
    + destruct (Containers.last_binding_exists _ _ Hin) as (y & Hy). rewrite (A _ _ Hy) in G; injection G as ->; auto.
    + rewrite (B k Hn) in G; discriminate.
  - intros H. apply A in H. now apply mget_In.
Qed.

Lemma ser_fields_history {A} (ser1 : A -> mres value) l acc r :
  ser_fields ser1 (VMap acc) l = Done r ->
  exists h, Forall2 (fun x v => fst x = fst v /\ ser1 (snd x) = Done (snd v)) l h /\
    r = fst (set_calls (VMap acc) h).
Proof.
  revert acc; induction l as [|[n x] l IH]; intros acc; cbn.
  - intros [= <-]; exists []; auto.
  - intros H. apply obind_done in H as (v & Hv & H). cbn in H.
    fold (ser_fields ser1 (VMap (minsert n v acc)) l) in H. apply IH in H as (h & F & ->).
    exists ((n, v) :: h); split; [constructor; auto|]. cbn. now destruct (set_calls _ h).
Qed.
Lemma entries_history {A} (serk serv : A -> mres value) l acc r :
  entries_loop serk serv {| sm_map := VMap acc; sm_key := None |} l = Done r ->
  exists h, Forall2 (fun e v => (exists kv, serk e = Done kv /\ into_string kv = Ok (fst v)) /\ serv e = Done (snd v)) l h
  /\ r = fst (set_calls (VMap acc) h).
Proof.
  revert acc; induction l as [|e l IH]; intros acc.
  - cbn. intros [= <-]; exists []; auto.
  - rewrite entries_step. intros H. apply obind_done in H as (kv & Hk & H). apply obind_done in H as (k & Hk' & H).
    apply obind_done in H as (x & Hx & H). apply IH in H as (h & F & ->).
    exists ((k, x) :: h). split.
    + constructor; auto. split; auto. exists kv; split; auto.
      destruct (into_string kv); cbn in Hk'; [injection Hk' as <-; reflexivity | discriminate].
    + cbn. now destruct (set_calls _ h).
Qed.

Lemma ser_bytes_shape l acc : ser_bytes_loop (VArr acc) l = Done (VArr (acc ++ map VUInt l)).
Proof.
  revert acc; induction l as [|b l IH]; intros acc; cbn; [now rewrite app_nil_r|].
  now rewrite IH, <- app_assoc.
Qed.

(** ** The theorem *)
Definition shaped d := forall v, data_uniq d -> real_f32s d -> ser d = Done v -> represents d v.

Lemma shaped_list l vs : (forall d, In d l -> shaped d) -> (forall d, In d l -> data_uniq d) ->
  (forall d, In d l -> real_f32s d) ->
  Forall2 (fun x v => ser x = Done v) l vs -> Forall2 represents l vs.
Proof.
  intros IH U R F. induction F as [|x v l vs E F IHF]; constructor.
  - apply IH; cbn; auto. apply U; cbn; auto. apply R; cbn; auto.
  - apply IHF; intros; [apply IH | apply U | apply R]; cbn; auto.
Qed.
Lemma shaped_fields fs h : (forall n d, In (n, d) fs -> shaped d) -> (forall n d, In (n, d) fs -> data_uniq d) ->
  (forall n d, In (n, d) fs -> real_f32s d) ->
  Forall2 (fun x v => fst x = fst v /\ ser (snd x) = Done (snd v)) fs h -> represents_fields fs h.
Proof.
  intros IH U R F. induction F as [|[n x] [n' v] l vs [E E'] F IHF]; [constructor|].
  cbn in E, E'; subst n'. constructor.
  - eapply IH; cbn; eauto. eapply U; cbn; eauto. eapply R; cbn; eauto.
  - apply IHF; intros; [eapply IH | eapply U | eapply R]; cbn; eauto.
Qed.
Lemma ser_map_history fs r : ser_fields ser new_map fs = Done r ->
  exists h m, Forall2 (fun x v => fst x = fst v /\ ser (snd x) = Done (snd v)) fs h /\ r = VMap m /\ bindings h m.
Proof.
  intros H. apply ser_fields_history in H as (h & F & ->).
  destruct (set_calls_bindings h) as (m & -> & B). eauto.
Qed.

Lemma ser_shape d : shaped d.
Proof.
  unfold shaped.
  induction d as [d S|w|d IH|l IH|l IH|m IH|fs IH|d IH|l IH|n d IH|n l IH|n fs IH] using data_ind'; intros v U R E.
  - destruct d; cbn in S; try tauto; cbn in E;
      try (injection E as <-; now constructor).
    + destruct t; cbn in E; try discriminate; injection E as <-; constructor; cbn; auto 6.
    + injection E as <-. constructor. apply f32_widens, R. constructor.
    + unfold ser_bytes in E. unfold new_array in E. rewrite ser_bytes_shape in E. injection E as <-. constructor.
  - inversion U as [? S|? U'| | | | | | | | | | ]; subst; [destruct S|].
    cbn [ser] in E. rewrite (ser_value_textless _ _ U' E). constructor.
  - inversion U as [? S|?|? U'| | | | | | | | | ]; subst; [destruct S|].
    constructor. apply IH; auto. intros f Hf; apply R; now constructor.
  - inversion U as [? S|?|?|? U'| | | | | | | | ]; subst; [destruct S|].
    cbn [ser] in E. apply ser_seq_inv in E as (vs & F & ->). constructor. apply (shaped_list l vs); auto.
    intros d Hd f Hf; apply R; econstructor; eauto.
  - inversion U as [? S|?|?|?|? U'| | | | | | | ]; subst; [destruct S|].
    cbn [ser] in E. apply ser_seq_inv in E as (vs & F & ->). constructor. apply (shaped_list l vs); auto.
    intros d Hd f Hf; apply R; econstructor; eauto.
  - inversion U as [? S|?|?|?|?|? U'| | | | | | ]; subst; [destruct S|].
    cbn [ser] in E. apply (entries_history _ _ m []) in E as (h & F & ->).
    destruct (set_calls_bindings h) as (m' & -> & B). apply RpMap with h; [clear B|exact B].
    assert (R' : forall a b, In (a, b) m -> real_f32s a /\ real_f32s b).
    { intros a b Hab; split; intros f Hf; apply R; [eapply InKey | eapply InVal]; eauto. }
    clear R U. induction F as [|[a b] [k x] l vs [(kv & E1 & E2) E3] F IHF]; [constructor|].
    cbn [fst snd] in *.
    destruct (IH a b (or_introl eq_refl)), (U' a b (or_introl eq_refl)), (R' a b (or_introl eq_refl)).
    apply ReCons with kv; auto.
    apply IHF; intros; [apply IH | apply U' | apply R']; cbn; auto.
  - inversion U as [? S|?|?|?|?|?|? U'| | | | | ]; subst; [destruct S|].
    cbn [ser] in E. apply ser_map_history in E as (h & m & F & -> & B). apply RpStruct with h; auto.
    apply shaped_fields; auto. intros n d Hd f Hf; apply R; econstructor; eauto.
  - inversion U as [? S|?|?|?|?|?|?|? U'| | | | ]; subst; [destruct S|].
    constructor. apply IH; auto. intros f Hf; apply R; now constructor.
  - inversion U as [? S|?|?|?|?|?|?|?|? U'| | | ]; subst; [destruct S|].
    cbn [ser] in E. apply ser_seq_inv in E as (vs & F & ->). constructor. apply (shaped_list l vs); auto.
    intros d Hd f Hf; apply R; econstructor; eauto.
  - inversion U as [? S|?|?|?|?|?|?|?|?|? ? U'| | ]; subst; [destruct S|].
    cbn [ser] in E. apply obind_done in E as (x & E & E'). cbn in E'. injection E' as <-.
    constructor. apply IH; auto. intros f Hf; apply R; now constructor.
  - inversion U as [? S|?|?|?|?|?|?|?|?|?|? ? U'| ]; subst; [destruct S|].
    cbn [ser] in E. apply obind_done in E as (x & E & E'). cbn in E'. injection E' as <-.
    apply ser_seq_inv in E as (vs & F & ->). constructor. apply (shaped_list l vs); auto.
    intros d Hd f Hf; apply R; econstructor; eauto.
  - inversion U as [? S|?|?|?|?|?|?|?|?|?|?|? ? U']; subst; [destruct S|].
    cbn [ser] in E. apply obind_done in E as (x & E & E'). cbn in E'. injection E' as <-.
    apply ser_map_history in E as (h & m & F & -> & B). apply RpStructVariant with h; auto.
    apply shaped_fields; auto. intros f d Hd g Hg; apply R; econstructor; eauto.
Qed.

(** ** The shape determines the Value, up to the order in which maps list
    their entries *)
Lemma last_binding_transfer {A B} (R : A -> B -> Prop) h h' k x :
  Forall2 (fun a b => fst a = fst b /\ R (snd a) (snd b)) h h' -> last_binding h k x ->
  exists y, last_binding h' k y /\ R x y.
Proof.
  intros F (b & a & -> & N). apply Forall2_app_inv_l in F as (b' & r & F1 & F2 & ->).
  inversion F2 as [|? [k' y] ? a' [E Rxy] F3]; subst. cbn [fst snd] in *; subst k'.
  exists y; split; auto. exists b', a'; split; auto.
  assert (Ek : map fst a' = map fst a).
  { clear - F3. induction F3 as [|? ? ? ? [E _] ? IH]; cbn; [auto | now rewrite E, IH]. }
  now rewrite Ek.
Qed.
Lemma Forall2_flip' {A B} (R : A -> B -> Prop) l r : Forall2 R l r -> Forall2 (fun b a => R a b) r l.
Proof. induction 1; constructor; auto. Qed.
Lemma bindings_vequiv h h' m m' :
  Forall2 (fun a b => fst a = fst b /\ vequiv (snd a) (snd b)) h h' ->
  bindings h m -> bindings h' m' -> vequiv (VMap m) (VMap m').
Proof.
  intros F [_ B] [_ B']. constructor.
  - intros k x H. apply B in H. destruct (last_binding_transfer vequiv _ _ _ _ F H) as (y & Hy & E).
    exists y; split; auto. now apply B'.
  - intros k y H. apply B' in H.
    destruct (last_binding_transfer (fun b a => vequiv a b) h' h k y) as (x & Hx & E); auto.
    + apply Forall2_flip' in F. clear - F. induction F as [|? ? ? ? [E1 E2]]; constructor; auto.
    + exists x; split; auto. now apply B.
Qed.

Lemma into_string_vequiv v w k k' : vequiv v w -> into_string v = Ok k -> into_string w = Ok k' -> k = k'.
Proof. intros E H H'. inversion E; subst; cbn in *; congruence. Qed.

Definition determined d := forall v v', represents d v -> represents d v' -> vequiv v v'.
Lemma determined_list l vs vs' : (forall d, In d l -> determined d) ->
  Forall2 represents l vs -> Forall2 represents l vs' -> Forall2 vequiv vs vs'.
Proof.
  intros IH F; revert vs'; induction F as [|x v l vs E F IHF]; intros vs' F'; inversion F'; subst; constructor.
  - eapply IH; cbn; eauto.
  - apply IHF; auto. intros; apply IH; cbn; auto.
Qed.
Lemma determined_fields fs h h' : (forall n d, In (n, d) fs -> determined d) ->
  represents_fields fs h -> represents_fields fs h' ->
  Forall2 (fun a b => fst a = fst b /\ vequiv (snd a) (snd b)) h h'.
Proof.
  revert h h'; induction fs as [|[n d] fs IHf]; intros h h' IH F F'; inversion F; inversion F'; subst; constructor.
  - split; auto. cbn. eapply IH; cbn; eauto.
  - apply IHf; auto. intros; eapply IH; cbn; eauto.
Qed.

Lemma shape_determines d : determined d.
Proof.
  unfold determined.
  induction d as [d S|w|d IH|l IH|l IH|m IH|fs IH|d IH|l IH|n d IH|n l IH|n fs IH] using data_ind'; intros v v' H H'.
  - destruct d; cbn in S; try tauto;
      inversion H; subst; inversion H'; subst; try (apply vequiv_refl); try (constructor; exact I).
    + repeat match goal with HI : In _ _ |- _ => cbn in HI end; intuition (subst; discriminate).
    + repeat match goal with HI : In _ _ |- _ => cbn in HI end; intuition (subst; discriminate).
    + match goal with A : widens _ ?g, B : widens _ ?g' |- vequiv (VFloat ?g) (VFloat ?g') => rewrite (widens_unique _ _ _ A B) end. apply vequiv_refl.
  - inversion H; subst; inversion H'; subst; apply vequiv_refl.
  - inversion H; subst; inversion H'; subst; auto.
  - inversion H; subst; inversion H'; subst; constructor; eapply determined_list; eauto.
  - inversion H; subst; inversion H'; subst; constructor; eapply determined_list; eauto.
  - inversion H as [| | | | | | | | | | | | | | | | |? h1 m1 F1 B1| | | | |]; subst;
    inversion H' as [| | | | | | | | | | | | | | | | |? h2 m2 F2 B2| | | | |]; subst.
    apply (bindings_vequiv h1 h2); auto. clear - F1 F2 IH.
    revert h1 h2 F1 F2; induction m as [|[a d] m IHm]; intros h1 h2 F1 F2; inversion F1; inversion F2; subst; constructor.
    + destruct (IH a d (or_introl eq_refl)) as [Ia Id]. cbn [fst snd].
      split; [eapply into_string_vequiv; [|eassumption|eassumption]; apply Ia; assumption | apply Id; assumption].
    + apply IHm; auto. intros; apply IH; cbn; auto.
  - inversion H as [| | | | | | | | | | | | | | | |? h1 m1 F1 B1| | | | | |]; subst;
    inversion H' as [| | | | | | | | | | | | | | | |? h2 m2 F2 B2| | | | | |]; subst.
    apply (bindings_vequiv h1 h2); auto. eapply determined_fields; eauto.
  - inversion H; subst; inversion H'; subst; auto.
  - inversion H; subst; inversion H'; subst; constructor; eapply determined_list; eauto.
  - inversion H; subst; inversion H'; subst.
    constructor; intros k x [[= <- <-]|[]]; eexists; cbn; eauto.
  - inversion H; subst; inversion H'; subst.
    constructor; intros k x [[= <- <-]|[]]; eexists; (split; [left; reflexivity|]);
      constructor; eapply determined_list; eauto.
  - inversion H as [| | | | | | | | | | | | | | | | | | | | |? ? h1 m1 F1 B1|]; subst;
    inversion H' as [| | | | | | | | | | | | | | | | | | | | |? ? h2 m2 F2 B2|]; subst.
    constructor; intros k x [[= <- <-]|[]]; eexists; (split; [left; reflexivity|]);
      apply (bindings_vequiv h1 h2); auto; eapply determined_fields; eauto.
Qed.
