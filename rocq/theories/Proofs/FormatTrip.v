(** Typed data through a Value, an arbitrary format, a Value and back (C73). *)
From Coq Require Import ZArith Bool String Lia Permutation.
From Coq Require Import List.
Import ListNotations.
From Verif.Model Require Import Text Num Flt Value Convert Serde Visitor.
From Verif.Spec Require Import Spec Containers Numerals EnvSpec SerdeSpec FloatSpec ShapeSpec VisitorSpec.
From Verif.Proofs Require Import Basics Conversions SerProofs DeProofs FloatBase RoundTrip SerdeMore VisitorProofs.
Local Open Scope Z_scope.

Definition outlasts (drop : bool) (t : ty) (d : data) : Prop :=
  exists v, ser d = Done v /\ ranged v /\
    forall v', same_numbers drop v v' -> ranged v' -> exists d', de t v' = Done d' /\ has_type t d' /\ data_equiv d d'.

Lemma of_result_same {A} (a b : result A model_error) x : same_answer a b -> of_result a = Done x -> of_result b = Done x.
Proof.
  intros S H. destruct a as [y|e]; [|discriminate]. injection H as ->. destruct (S x) as [S1 _]. now rewrite S1.
Qed.
Lemma alike_flat t v v' d : flat_type t -> alike v v' -> de t v = Done d -> de t v' = Done d.
Proof.
  intros F (A1 & A2 & A3 & A4 & A5 & A6 & _) H. destruct t; cbn in F; try tauto; cbn [de] in *.
  - apply obind_done in H as (x & H & E). rewrite (of_result_same _ _ _ A2 H). exact E.
  - unfold de_int in *. destruct t; try discriminate; apply obind_done in H as (x & H & E);
      rewrite (of_result_same _ _ _ (A1 _) H); exact E.
  - apply obind_done in H as (x & H & E). rewrite (of_result_same _ _ _ A3 H). exact E.
  - apply obind_done in H as (x & H & E). rewrite (of_result_same _ _ _ A3 H). exact E.
  - apply obind_done in H as (x & H & E). rewrite (of_result_same _ _ _ A4 H). exact E.
  - apply obind_done in H as (x & H & E). rewrite (of_result_same _ _ _ A5 H). exact E.
  - destruct v; try discriminate. destruct v'; try discriminate. exact H.
  - destruct v; try discriminate. destruct v'; try discriminate. exact H.
Qed.

Lemma flat_outlasts drop t d v : flat_type t -> has_type t d -> scalar_datum d -> ranged v -> ser d = Done v ->
  de t v = Done d -> outlasts drop t d.
Proof.
  intros Ft T S R E1 E2. exists v; split; auto. split; auto.
  intros v' Ev R'. exists d. split; [|split; [auto | now constructor]].
  eapply alike_flat; eauto. eapply sn_alike; eauto.
Qed.

Lemma seq_outlast drop (ts : list ty) l :
  Forall2 (outlasts drop) ts l ->
  exists vs, Forall2 (fun x v => ser x = Done v) l vs /\ (forall v, In v vs -> ranged v) /\
    forall vs', Forall2 (same_numbers drop) vs vs' -> (forall v, In v vs' -> ranged v) ->
      exists l', Forall2 (fun (p : ty * value) d => de (fst p) (snd p) = Done d) (combine ts vs') l' /\
        List.length l' = List.length ts /\ Forall2 has_type ts l' /\ Forall2 data_equiv l l'.
Proof.
  intros F. induction F as [|t d ts l (v & E & U & S) F IH].
  - exists []. split; auto. split; [intros ? []|]. intros vs' Fv _. inversion Fv; subst. exists []. cbn. auto.
  - destruct IH as (vs & F1 & U1 & S1). exists (v :: vs). split; [constructor; auto|]. split.
    + intros x [<-|Hx]; auto.
    + intros vs0 Fv Uv. inversion Fv as [|? v' ? vs' Ev Fv']; subst.
      destruct (S v' Ev (Uv v' (or_introl eq_refl))) as (d' & D1 & D2 & D3).
      destruct (S1 vs' Fv') as (l' & L1 & L2 & L3 & L4); [intros; apply Uv; cbn; auto|].
      exists (d' :: l'); cbn; repeat split; auto.
Qed.

Lemma sn_arr_l drop l w : same_numbers drop (VArr l) w -> exists r, w = VArr r /\ Forall2 (same_numbers drop) l r.
Proof. intros H; inversion H as [| |? ? ? ? ? I| | |? r F|]; subst; [inversion I | eauto]. Qed.
Lemma sn_map_l drop m w : same_numbers drop (VMap m) w -> exists n, w = VMap n /\
    (forall k x, In (k, x) m ->
       (exists y, In (k, y) n /\ same_numbers drop x y) \/ (drop = true /\ x = VNone /\ ~ In k (map fst n))) /\
    (forall k y, In (k, y) n -> exists x, In (k, x) m /\ same_numbers drop x y).
Proof. intros H; inversion H as [| |? ? ? ? ? I| | | |? n F]; subst; [inversion I | eauto]. Qed.

Lemma tuple_outlasts drop (mk : list data -> data) (T : ty) ts expecting l :
  (forall l, ser (mk l) = ser_seq ser new_array l) ->
  (forall vs, de T (VArr vs) = obind (de_tuple expecting 0 (map (fun t => de t) ts) vs) (fun ds => Done (mk ds))) ->
  (forall l, Forall2 has_type ts l -> has_type T (mk l)) ->
  (forall l r, Forall2 data_equiv l r -> data_equiv (mk l) (mk r)) ->
  Forall2 has_type ts l -> Forall2 (outlasts drop) ts l -> outlasts drop T (mk l).
Proof.
  intros Es Ed Ht He Tl Sl. destruct (seq_outlast drop ts l Sl) as (vs & F & U & S).
  exists (VArr vs). split; [rewrite Es; exact (ser_seq_done ser l [] vs F)|]. split; [now apply ranged_arr|].
  intros v' Ev Uv. apply sn_arr_l in Ev as (vs' & -> & Fv).
  destruct (S vs' Fv) as (l' & L1 & L2 & L3 & L4); [now apply ranged_arr|].
  exists (mk l'). split; [|split; auto]. rewrite Ed. erewrite combine_Forall2_de; eauto; [reflexivity|].
  apply Forall2_length' in Fv, F, Tl. congruence.
Qed.

Lemma never_none_sn drop t d v v' : never_none t -> has_type t d -> ser d = Done v -> same_numbers drop v v' -> v' <> VNone.
Proof.
  intros N T E S ->. apply (never_none_ser t d v N T E). destruct (sn_kinds _ _ _ S) as (K & _ & _). now destruct v.
Qed.

Theorem format_trip drop t : round_trips t -> format_safe drop t -> forall d, has_type t d -> ~ data_wide d -> outlasts drop t d.
Proof.
  induction t as [ |t| | | | | | |t IH|t IH|ts IH|k v IHk IHv|fs IH|t IH|n ts IH| | | ] using ty_ind';
    intros R Sf d H W; inversion R; subst; inversion H; subst.
  - eapply flat_outlasts; eauto; try reflexivity; try exact I. flat.
  - apply flat_outlasts with (v := from_int t z); auto; try exact I.
    + apply wf_ranged, from_int_wf; auto.
    + destruct t; cbn in *; tauto || reflexivity.
    + cbn [de]. unfold de_int. rewrite from_into_int by auto. destruct t; cbn in *; tauto || reflexivity.
  - apply flat_outlasts with (v := from_f32 f); auto; try exact I; [flat|].
    cbn. now rewrite f32_round_trip.
  - eapply flat_outlasts; eauto; try reflexivity; try exact I. flat.
  - eapply flat_outlasts; eauto; try reflexivity; try exact I. flat.
  - eapply flat_outlasts; eauto; try reflexivity; try exact I. flat.
  - eapply flat_outlasts; eauto; try reflexivity; try exact I. flat.
  - exists VNone. split; [reflexivity|]. split; [flat|]. intros v' Ev _. destruct (sn_kinds _ _ _ Ev) as (K & _).
    destruct v'; try discriminate. exists DNone. split; [reflexivity|]. split; [assumption | now constructor].
  - rename d0 into d.
    match goal with A : round_trips t, B : never_none t, C : has_type t d |- _ => rename A into Rt; rename B into Nt; rename C into Td end.
    assert (St : format_safe drop t) by (inversion Sf as [? X| | | | | | |]; subst; [destruct X | auto]).
    destruct (IH Rt St d Td) as (v & E & U & S); [intros X; apply W; now constructor|].
    exists v; split; auto. split; auto. intros v' Ev Uv. destruct (S v' Ev Uv) as (d' & D1 & D2 & D3).
    exists (DSome d'). split; [|split; now constructor]. cbn [de].
    assert (N : v' <> VNone) by exact (never_none_sn drop t d v v' Nt Td E Ev).
    destruct v'; try congruence; rewrite D1; reflexivity.
  - match goal with A : round_trips t, C : forall d, In d l -> has_type t d |- _ => rename A into Rt; rename C into Tl end.
    assert (St : format_safe drop t) by (inversion Sf as [? X| | | | | | |]; subst; [destruct X | auto]).
    assert (Sl : forall d, In d l -> outlasts drop t d).
    { intros d Hd. apply IH; auto. intros X; apply W; econstructor; eauto. }
    assert (Sl' : exists vs, Forall2 (fun x v => ser x = Done v) l vs /\ (forall v, In v vs -> ranged v) /\
       forall vs', Forall2 (same_numbers drop) vs vs' -> (forall v, In v vs' -> ranged v) ->
        exists l', Forall2 (fun x d => de t x = Done d) vs' l' /\ (forall d, In d l' -> has_type t d) /\ Forall2 data_equiv l l').
    { clear - Sl. induction l as [|d l IH].
      - exists []; split; auto. split; [intros ? []|]. intros vs' F _; inversion F; subst. exists []; split; auto. split; auto. intros ? [].
      - destruct IH as (vs & F1 & U1 & S1); [intros; apply Sl; cbn; auto|].
        destruct (Sl d (or_introl eq_refl)) as (v & E & U & S). exists (v :: vs). split; [constructor; auto|]. split.
        + intros x [<-|Hx]; auto.
        + intros vs0 F Uv. inversion F as [|? v' ? vs' Ev Fv]; subst.
          destruct (S v' Ev (Uv v' (or_introl eq_refl))) as (d' & D1 & D2 & D3).
          destruct (S1 vs' Fv) as (l' & L1 & L2 & L3); [intros; apply Uv; cbn; auto|].
          exists (d' :: l'); repeat split; auto. intros x [<-|Hx]; auto. }
    destruct Sl' as (vs & F & U & S). exists (VArr vs).
    split; [exact (ser_seq_done ser l [] vs F)|]. split; [now apply ranged_arr|].
    intros v' Ev Uv. apply sn_arr_l in Ev as (vs' & -> & Fv).
    destruct (S vs' Fv) as (l' & L1 & L2 & L3); [now apply ranged_arr|].
    exists (DSeq l'). split; [|split; now constructor]. cbn [de]. apply de_seq_done in L1. rewrite L1. reflexivity.
  - assert (St : forall t, In t ts -> format_safe drop t) by (inversion Sf as [? X| | | | | | |]; subst; [destruct X | auto]).
    eapply tuple_outlasts; eauto using HtTuple, DeTuple; try reflexivity.
    assert (X : forall d, In d l -> ~ data_wide d) by (intros d Hd X; apply W; econstructor; eauto).
    match goal with A : forall t, In t ts -> round_trips t, F : Forall2 has_type ts l |- _ =>
      rename A into RA; rename F into FT end.
    clear W H R Sf; revert IH RA St X; induction FT as [|t d ts l Td F IHF]; intros IH RA St X; constructor.
    + apply IH; [cbn; auto | apply RA; cbn; auto | apply St; cbn; auto | auto | apply X; cbn; auto].
    + apply IHF; intros; [apply IH | apply RA | apply St | apply X]; cbn; auto.
  - rename m into m0.
    assert (St : format_safe drop v /\ (drop = true -> never_none v)) by (inversion Sf as [? X| | | | | | |]; subst; [destruct X | auto]).
    destruct St as [St Nv].
    match goal with A : key_type k, B : round_trips v, C : NoDup (map fst m0), D : forall a b, In (a, b) m0 -> _ |- _ =>
      rename A into K; rename B into Rv; rename C into ND; rename D into T end.
    assert (Sb : forall a b, In (a, b) m0 -> outlasts drop v b).
    { intros a b Hab. apply IHv; auto; [apply (T a b Hab)|]. intros X; apply W; eapply DwVal; eauto. }
    assert (exists xs, Forall2 (fun e x => ser (snd e) = Done x) m0 xs) as [xs Fx].
    { apply Forall2_exists. intros [a b] Hab. destruct (Sb a b Hab) as (x & E & _). exists x; exact E. }
    destruct (ser_map_texts k m0 K (fun a b Hab => proj1 (T a b Hab)) ND xs Fx) as (ps & E1 & NP & F2).
    exists (VMap ps). split; auto. split.
    { apply ranged_map; split; auto. intros s x Hs. destruct (Forall2_in_r _ _ _ _ F2 Hs) as ([a b] & Hab & _ & E).
      destruct (Sb a b Hab) as (x' & E' & U & _). cbn in E. congruence. }
    intros v' Ev Uv. apply sn_map_l in Ev as (n & -> & V1 & V2). apply ranged_map in Uv as [NN Un].
    (* no entry is left out *)
    assert (V1' : forall s x, In (s, x) ps -> exists y, In (s, y) n /\ same_numbers drop x y).
    { intros s x Hs. destruct (V1 s x Hs) as [?|(Ed & -> & _)]; auto. exfalso.
      destruct (Forall2_in_r _ _ _ _ F2 Hs) as ([a b] & Hab & _ & E). cbn in E.
      exact (never_none_ser v b VNone (Nv Ed) (proj2 (T a b Hab)) E eq_refl). }
    clear V1. rename V1' into V1.
    assert (G : forall e, In e n -> exists p, (de k (VStr (fst e)) = Done (fst p) /\ de v (snd e) = Done (snd p))
       /\ has_type k (fst p) /\ has_type v (snd p) /\ key_text (fst p) (fst e) /\ exists b, In (fst p, b) m0 /\ data_equiv b (snd p)).
    { intros [s y] He. destruct (V2 s y He) as (x & Hx & Exy).
      destruct (Forall2_in_r _ _ _ _ F2 Hx) as ([a b] & Hab & Ta & Eb). cbn in Ta, Eb.
      destruct (key_round k a K (proj1 (T a b Hab))) as (kv & s' & _ & _ & Ta' & Ra).
      rewrite <- (key_text_fun _ _ _ Ta Ta') in Ra.
      destruct (Sb a b Hab) as (x' & E' & _ & S). assert (x' = x) by congruence; subst x'.
      destruct (S y Exy (Un s y He)) as (b' & B1 & B2 & B3).
      exists (a, b'); cbn; repeat split; auto; [apply (T a b Hab) | eauto]. }
    destruct (Forall2_exists _ _ G) as (es & Fe).
    assert (NE : NoDup (map fst es)).
    { clear - Fe NN K. induction Fe as [|[s y] [a b'] n es (_ & Ha & _ & Ta & _) Fe IH]; cbn in *; constructor.
      - inversion NN as [|? ? N1 N2]; subst. intros Hin. apply N1. apply in_map_iff in Hin as ([a' b2] & E & Hin). cbn in E; subst a'.
        destruct (Forall2_in_r _ _ _ _ Fe Hin) as ([s' y'] & Hn & _ & _ & _ & Ta' & _). cbn in Ta'.
        rewrite (key_text_fun _ _ _ Ta Ta'). apply (in_map fst) in Hn. exact Hn.
      - inversion NN; auto. }
    assert (TE : forall a b, In (a, b) es -> has_type k a /\ has_type v b).
    { intros a b Hab. destruct (Forall2_in_r _ _ _ _ Fe Hab) as (e & _ & _ & ? & ? & _); auto. }
    assert (D : de (TMap k v) (VMap n) = Done (DMap es)).
    { cbn [de]. assert (M : de_map (de k) (de v) dinsert n = Done es).
      { change (de_map_loop (de k) (de v) dinsert n [] = Done es). apply de_map_fold.
        exists es. split; [eapply Forall2_imp; [|exact Fe]; intros x y _ _ HH; apply HH|].
        symmetry. rewrite (fold_dinsert_new es []); [reflexivity|]. cbn [app].
        intros i j a a' b b' L Hi Hj. destruct (key_eqb a' a) eqn:Ek; auto. exfalso.
        pose proof (nth_error_In _ _ Hi) as Ii. pose proof (nth_error_In _ _ Hj) as Ij.
        apply (key_eqb_eq k) in Ek; auto; [|apply (TE _ _ Ij) | apply (TE _ _ Ii)]. subst a'.
        assert (i = j); [|lia]. eapply (proj1 (NoDup_nth_error (map fst es)) NE).
        - rewrite map_length. apply nth_error_Some. congruence.
        - rewrite (map_nth_error fst i es Hi), (map_nth_error fst j es Hj). reflexivity. }
      rewrite M. reflexivity. }
    exists (DMap es). split; auto. split; [constructor; auto|]. constructor.
    + intros a b Hab. destruct (Forall2_in_l _ _ _ _ F2 Hab) as ([s x] & Hs & Ta & Eb). cbn in Ta, Eb.
      destruct (V1 s x Hs) as (y & Hy & Exy).
      destruct (Forall2_in_l _ _ _ _ Fe Hy) as ([a' b'] & He & _ & Ha' & _ & Ta' & b0 & Hb0 & Eq). cbn in *.
      assert (a' = a) by (eapply (key_text_inj k); eauto; apply (T a b Hab)). subst a'.
      rewrite (nodup_fst_perm_equiv m0 m0 a b ND Hab b0 Hb0). eauto.
    + intros a b' Hab. destruct (Forall2_in_r _ _ _ _ Fe Hab) as (e & _ & _ & _ & _ & _ & b0 & Hb0 & Eq). cbn in *. eauto.
  - rename ds into ds0.
    assert (St : forall n t, In (n, t) fs -> format_safe drop t /\ (drop = true -> never_none t \/ exists u, t = TOption u))
      by (inversion Sf as [? X| | | | | | |]; subst; [destruct X | auto]).
    match goal with A : NoDup (map fst fs), B : forall n t, In (n, t) fs -> round_trips t, C : map fst fs = map fst ds0,
      D : Forall2 has_type _ _ |- _ => rename A into NF; rename B into Rf; rename C into En; rename D into T end.
    assert (X : forall n d, In (n, d) ds0 -> ~ data_wide d) by (intros n d Hd X; apply W; econstructor; eauto).
    assert (G : Forall2 (fun (f : str * ty) (d : str * data) => fst f = fst d /\ has_type (snd f) (snd d) /\ outlasts drop (snd f) (snd d)
        /\ (drop = true -> never_none (snd f) \/ exists u, snd f = TOption u)) fs ds0).
    { clear NF H R W Sf. revert ds0 En T X. induction fs as [|[n t] fs IHf]; intros [|[n' d] ds0] En T X; cbn in *; try discriminate; constructor.
      - cbn in *. injection En as -> _. inversion T; subst. split; [reflexivity|]. split; auto. split; [|apply (St n'); auto].
        eapply IH; eauto. apply (St n'); auto.
      - apply IHf; [intros; eapply IH; eauto | intros; eapply Rf; eauto | intros; eapply St; eauto | congruence | inversion T; auto | intros; eapply X; eauto]. }
    assert (exists ps, Forall2 (fun (d : str * data) p => fst d = fst p /\ ser (snd d) = Done (snd p)) ds0 ps) as [ps Fp].
    { apply Forall2_exists. intros [n d] Hd. destruct (Forall2_in_r _ _ _ _ G Hd) as (f & _ & _ & _ & (x & E & _) & _).
      exists (n, x); split; auto. }
    assert (KP : map fst ps = map fst fs).
    { rewrite En. clear - Fp. induction Fp as [|a b l r [E _] F IH]; cbn; congruence. }
    exists (VMap ps). split; [|split].
    { cbn [ser]. apply (ser_fields_done ser ds0 [] ps Fp). cbn. rewrite KP; auto. }
    { apply ranged_map; split; [rewrite KP; auto|]. intros s x Hs. destruct (Forall2_in_r _ _ _ _ Fp Hs) as ([n d] & Hd & E1 & E2).
      destruct (Forall2_in_r _ _ _ _ G Hd) as (f & _ & _ & _ & (x' & E & U & _) & _). cbn in *. congruence. }
    intros v' Ev Uv. apply sn_map_l in Ev as (m & -> & V1 & V2). apply ranged_map in Uv as [NM Um].
    assert (Q : exists ds', Forall2 (fun (f : str * ty) (d' : str * data) => has_type (snd f) (snd d') /\ field_result m f d') fs ds'
       /\ Forall2 (fun (d d' : str * data) => fst d = fst d' /\ data_equiv (snd d) (snd d')) ds0 ds').
    { clear - G Fp V1 Um.
      revert ps Fp V1. induction G as [|[n t] [n' d] fs ds (E1 & E2 & (x & E3 & _ & S) & Nn) G IH]; intros ps Fp V.
      - inversion Fp; subst. exists []; auto.
      - inversion Fp as [|? [n2 x2] ? ps' [F1 F2] Fp']; subst; cbn in *. subst n' n2. assert (x2 = x) by congruence; subst x2.
        destruct (IH ps' Fp') as (ds' & Q1 & Q2); [intros; apply V; cbn; auto|].
        destruct (V n x (or_introl eq_refl)) as [(y & Hy & Exy)|(Ed & -> & Nk)].
        + destruct (S y Exy (Um n y Hy)) as (d' & D1 & D2 & D3).
          exists ((n, d') :: ds'); split; constructor; cbn; eauto. split; auto. split; cbn; eauto.
        + destruct (Nn Ed) as [NN|(u & ->)]; [destruct (never_none_ser t d VNone NN E2 E3 eq_refl)|].
          destruct (S VNone) as (d' & D1 & D2 & D3); [constructor | flat |]. cbn in D1. injection D1 as <-.
          exists ((n, DNone) :: ds'); split; constructor; cbn; eauto. split; auto. split; cbn; auto. right.
          split; [|split; eauto].
          intros y Hy. apply Nk. exact (in_map fst _ _ Hy). }
    destruct Q as (ds' & Q1 & Q2). exists (DStruct ds'). split; [|split].
    + apply de_struct_done; auto. exists ds'; split; auto. eapply Forall2_imp; [|exact Q1].
      intros f d' _ _ (_ & E). exact E.
    + constructor.
      * clear - Q1. induction Q1 as [|a b l r (_ & E & _) F IH]; cbn; congruence.
      * clear - Q1. induction Q1 as [|a b l r (E & _) F IH]; cbn; constructor; auto.
    + constructor.
      * clear - Q2. induction Q2 as [|a b l r (E & _) F IH]; cbn; congruence.
      * clear - Q2. induction Q2 as [|a b l r (_ & E) F IH]; cbn; constructor; auto.
  - rename d0 into d.
    assert (St : format_safe drop t) by (inversion Sf as [? X| | | | | | |]; subst; [destruct X | auto]).
    match goal with A : round_trips t, C : has_type t d |- _ => destruct (IH A St d C) as (v & E & U & S) end; [intros X; apply W; now constructor|].
    exists v; split; auto. split; auto. intros v' Ev Uv. destruct (S v' Ev Uv) as (d' & D1 & D2 & D3).
    exists (DNewtype d'). split; [cbn [de]; rewrite D1; reflexivity | split; now constructor].
  - assert (St : forall t, In t ts -> format_safe drop t) by (inversion Sf as [? X| | | | | | |]; subst; [destruct X | auto]).
    eapply tuple_outlasts; eauto using HtTupleStruct, DeTupleStruct; try reflexivity.
    assert (X : forall d, In d l -> ~ data_wide d) by (intros d Hd X; apply W; econstructor; eauto).
    match goal with A : forall t, In t ts -> round_trips t, F : Forall2 has_type ts l |- _ =>
      rename A into RA; rename F into FT end.
    clear W H R Sf; revert IH RA St X; induction FT as [|t d ts l Td F IHF]; intros IH RA St X; constructor.
    + apply IH; [cbn; auto | apply RA; cbn; auto | apply St; cbn; auto | auto | apply X; cbn; auto].
    + apply IHF; intros; [apply IH | apply RA | apply St | apply X]; cbn; auto.
  - eapply flat_outlasts; eauto; try reflexivity; try exact I. flat.
  - inversion Sf as [? X| | | | | | |]; destruct X.
Qed.
