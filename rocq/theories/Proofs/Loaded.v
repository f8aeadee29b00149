(** What a load hands over is a datum of the type asked for, so it can be saved
    and loaded again (C90). *)
From Coq Require Import ZArith Bool String Lia List Floats.SpecFloat.
Import ListNotations.
From Verif.Model Require Import Text Num Flt Value Convert Serde.
From Verif.Spec Require Import Spec Numerals FloatSpec SerdeSpec.
From Verif.Proofs Require Import Basics Conversions SerProofs DeProofs SerdeMore FloatBase FloatConv FloatText RoundTrip.
Open Scope Z_scope.

(** ** Numbers come out in range *)
Lemma f64_as_fits t f : fits t (f64_as t f).
Proof.
  apply fits_bounds. unfold f64_as, clamp.
  destruct f as [s|[]| |s m e]; destruct t; cbn [imin imax]; lia.
Qed.
Lemma into_int_fits t v z : wf v -> into_int t v = Ok z -> fits t z.
Proof.
  intros W. assert (T : forall z0 from, to_number z0 from t = Ok z -> fits t z).
  { intros z0 from. unfold to_number, try_from. destruct (in_range t z0) eqn:E; [|discriminate].
    intros [= <-]. now apply in_range_fits. }
  destruct v as [|b|n|n|n|n|f|s|l|m]; cbn [into_int]; try discriminate.
  - intros [= <-]. apply fits_bounds. destruct b, t; cbn [imin imax]; lia.
  - cbn in W. apply in_range_fits, fits_bounds in W. destruct t; try apply T; intros [= <-]; apply fits_bounds; cbn [imin imax] in *; lia.
  - cbn in W. apply in_range_fits, fits_bounds in W. destruct t; try apply T; intros [= <-]; apply fits_bounds; cbn [imin imax] in *; lia.
  - cbn in W. apply in_range_fits, fits_bounds in W. destruct t; try apply T; intros [= <-]; apply fits_bounds; cbn [imin imax] in *; lia.
  - cbn in W. apply in_range_fits, fits_bounds in W. destruct t; try apply T; intros [= <-]; apply fits_bounds; cbn [imin imax] in *; lia.
  - unfold float_into_int. destruct t; try apply T; intros [= <-]; apply f64_as_fits.
  - destruct (parse_int t s) as [z'|] eqn:E; [|discriminate]. intros [= <-]. now apply parse_int_spec in E.
Qed.
Lemma f64_of_Z_valid z : f64_valid (f64_of_Z z) = true.
Proof.
  unfold f64_of_Z. destruct (Z.eq_dec z 0) as [->|N]; [reflexivity|].
  exact (proj1 (normalize_rounds 53 1024 _ _ z 0 false N)).
Qed.
Lemma dec_valid s d e : 0 <= d -> f64_valid (dec_to_f64 s d e) = true.
Proof.
  intros H. destruct (Z.eq_dec d 0) as [->|N]; [reflexivity|].
  exact (proj1 (dec_rounds s d e ltac:(lia))).
Qed.
Lemma parse_f64_valid s f : parse_f64 s = Some f -> f64_valid f = true.
Proof.
  intros H. destruct (parse_f64_accepts s f H) as [[_ ->]|[(neg & _ & ->)|(neg & d & e & D)]]; try reflexivity.
  pose proof (parse_decimal s neg d e D) as E. rewrite E in H. injection H as <-. apply dec_valid.
  destruct D as (u & _ & D). now apply decimal_nonneg in D.
Qed.
Lemma into_f64_valid v f : wf v -> into_f64 v = Ok f -> f64_valid f = true.
Proof.
  intros W. destruct v as [|b|n|n|n|n|g|s|l|m]; cbn [into_f64]; try discriminate;
    try (intros [= <-]; apply f64_of_Z_valid).
  - intros [= <-]. exact W.
  - destruct (parse_f64 s) eqn:E; [|discriminate]. intros [= <-]. now apply parse_f64_valid in E.
Qed.
Lemma narrow_valid f : f32_valid (f64_to_f32 f) = true.
Proof.
  destruct f as [s|s| |s m e]; try reflexivity. exact (proj1 (binary_round_rounds 24 128 _ _ s m e)).
Qed.

(** ** Keys and maps *)
Lemma of_result_ok {A E} (r : result A E) a : of_result r = Done a -> r = Ok a.
Proof. destruct r; cbn; congruence. Qed.
Lemma key_typed tk k d : key_type tk -> is_text k = true -> de tk (VStr k) = Done d -> has_type tk d.
Proof.
  intros K; revert d; induction K as [|t N| | |t K IH]; intros d T H; cbn [de] in H.
  - apply obind_done in H as (b & _ & [= <-]). constructor.
  - unfold de_int in H. assert (Z : exists z, into_int t (VStr k) = Ok z /\ d = DInt t z).
    { destruct t; try discriminate; apply obind_done in H as (z & H & [= <-]); apply of_result_ok in H; eauto. }
    destruct Z as (z & Z & ->). constructor. eapply into_int_fits; [|exact Z]. exact T.
  - apply obind_done in H as (c & _ & [= <-]). constructor.
  - apply obind_done in H as (c & _ & [= <-]). constructor.
  - apply obind_done in H as (c & H & [= <-]). constructor. auto.
Qed.

Lemma dinsert_typed tk (P : data -> Prop) k x m : key_type tk -> has_type tk k -> P x ->
  (forall a b, In (a, b) m -> has_type tk a /\ P b) -> NoDup (map fst m) ->
  (forall a b, In (a, b) (dinsert k x m) -> has_type tk a /\ P b) /\ NoDup (map fst (dinsert k x m))
  /\ (forall a, In a (map fst (dinsert k x m)) -> a = k \/ In a (map fst m)).
Proof.
  intros K Tk Px. induction m as [|[k' x'] m IH]; intros T ND; cbn [dinsert].
  - cbn. split; [intros a b [[= <- <-]|[]]; auto|]. split; [constructor; [tauto | constructor]|]. intros a [<-|[]]; auto.
  - inversion ND as [|? ? N1 N2]; subst. destruct (T k' x' (or_introl eq_refl)) as [Tk' Px'].
    destruct (key_eqb k k') eqn:E.
    + split; [|split; [exact ND | cbn; auto]].
      intros a b [[= <- <-]|H]; [auto|]. apply T; cbn; auto.
    + destruct IH as (I1 & I2 & I3); [intros; apply T; cbn; auto | auto |]. split; [|split].
      * intros a b [[= <- <-]|H]; auto.
      * cbn. constructor; auto. intros H. destruct (I3 _ H) as [->|H']; [|contradiction].
        rewrite (key_eqb_refl tk) in E; auto. discriminate.
      * cbn. intros a [<-|H]; auto. destruct (I3 _ H); auto.
Qed.
Lemma fold_dinsert_typed tk (P : data -> Prop) ps : key_type tk -> (forall p, In p ps -> has_type tk (fst p) /\ P (snd p)) ->
  forall acc, (forall a b, In (a, b) acc -> has_type tk a /\ P b) -> NoDup (map fst acc) ->
  let r := fold_left (fun acc p => dinsert (fst p) (snd p) acc) ps acc in
  (forall a b, In (a, b) r -> has_type tk a /\ P b) /\ NoDup (map fst r).
Proof.
  intros K. induction ps as [|[k x] ps IH]; intros T acc A N; cbn; auto.
  destruct (T (k, x) (or_introl eq_refl)) as [Tk Px]. cbn in *.
  destruct (dinsert_typed tk P k x acc K Tk Px A N) as (A' & N' & _). apply IH; auto.
Qed.

(** ** C90: what a load hands over has the type asked for *)
Lemma tuple_typed expecting ts l ds : (forall t, In t ts -> forall v d, wf v -> de t v = Done d -> has_type t d) ->
  (forall x, In x l -> wf x) -> de_tuple expecting 0 (map (fun t => de t) ts) l = Done ds -> Forall2 has_type ts ds.
Proof.
  intros IH W H. apply de_tuple_types in H as (l1 & l2 & -> & L1 & L2 & H).
  assert (W1 : forall x, In x l1 -> wf x) by (intros; apply W, in_or_app; auto). clear W l2.
  revert l1 ds L1 L2 H W1. induction ts as [|t ts IHt]; intros l1 ds L1 L2 H W1.
  - destruct ds; [constructor | discriminate].
  - destruct l1 as [|x l1]; [discriminate|]. destruct ds as [|d ds]; [discriminate|]. constructor.
    + destruct (H 0%nat t x eq_refl eq_refl) as (d' & [= <-] & E). eapply IH; [left; reflexivity | | exact E]. apply W1; cbn; auto.
    + apply (IHt (fun t Ht => IH t (or_intror Ht)) l1); [cbn in *; lia | cbn in *; lia | | intros; apply W1; cbn; auto].
      intros j t' x' Ht Hx. exact (H (S j) t' x' Ht Hx).
Qed.

Theorem loaded_typed t : round_trips t -> forall v d, wf v -> de t v = Done d -> has_type t d.
Proof.
  induction t as [ |t| | | | | | |t IH|t IH|ts IH|k tv IHk IHv|fs IH|t IH|n ts IH| | | ] using ty_ind';
    intros R v d W H; inversion R; subst.
  - cbn [de] in H. apply obind_done in H as (b & _ & [= <-]). constructor.
  - cbn [de] in H. unfold de_int in H. assert (Z : exists z, into_int t v = Ok z /\ d = DInt t z).
    { destruct t; try discriminate; apply obind_done in H as (z & H & [= <-]); apply of_result_ok in H; eauto. }
    destruct Z as (z & Z & ->). constructor. eapply into_int_fits; eauto.
  - cbn [de] in H. apply obind_done in H as (f & _ & [= <-]). constructor. apply narrow_valid.
  - cbn [de] in H. apply obind_done in H as (f & E & [= <-]). apply of_result_ok in E. constructor. eapply into_f64_valid; eauto.
  - cbn [de] in H. apply obind_done in H as (c & _ & [= <-]). constructor.
  - cbn [de] in H. apply obind_done in H as (c & _ & [= <-]). constructor.
  - cbn [de] in H. destruct v; try discriminate. injection H as <-. constructor.
  - cbn [de] in H. destruct v; try (injection H as <-; constructor); apply obind_done in H as (x & E & [= <-]); constructor; eauto.
  - apply seq_iff in H as (l & r & -> & -> & F). constructor. intros d Hd.
    destruct (Forall2_in_r _ _ _ _ F Hd) as (x & Hx & E). apply (IH ltac:(auto) x d); auto. exact (proj1 (wf_arr l) W x Hx).
  - cbn [de] in H. destruct v; try discriminate. apply obind_done in H as (r & H & [= <-]). constructor.
    eapply tuple_typed; eauto. exact (proj1 (wf_arr _) W).
  - cbn [de] in H. destruct v; try discriminate. apply obind_done in H as (r & H & [= <-]).
    change (@de_map data data (de k) (de tv) dinsert m) with (de_map_loop (de k) (de tv) dinsert m []) in H.
    apply de_map_fold in H as (ps & F & ->). apply wf_map in W as [ND W].
    destruct (fold_dinsert_typed k (has_type tv) ps) with (acc := @nil (data * data)) as [A B]; auto.
    + intros p Hp. destruct (Forall2_in_r _ _ _ _ F Hp) as ([s x] & Hs & E1 & E2). cbn in *.
      destruct (W s x Hs) as [Ws Wx]. split; [eapply key_typed; eauto | eauto].
    + intros a b [].
    + constructor.
    + constructor; auto.
  - pose proof (wf_uniq _ W) as U. destruct (mapv_dec v) as [M|M].
    2:{ destruct v; cbn in H; try discriminate. destruct M; eexists; reflexivity. }
    apply struct_iff in H as (l & -> & F); auto.
    match goal with X : forall n t, In (n, t) fs -> round_trips t |- _ => rename X into Rf end.
    assert (G : Forall2 (fun f d => fst d = fst f /\ has_type (snd f) (snd d)) fs l).
    { eapply Forall2_imp; [|exact F]. intros [n t] [n' d] Hf _ [E [(x & Hx & Hd)|(_ & (u & Eu) & Ed)]]; cbn in *; (split; [exact E|]).
      - destruct Hx as (m & -> & Hx). apply wf_map in W as [_ W]. eapply IH; eauto. eapply (W n x); eauto.
      - subst. constructor. }
    constructor.
    + clear - G. induction G as [|[n t] [n' d] fs l [E _] G IH]; cbn in *; congruence.
    + clear - G. induction G as [|[n t] [n' d] fs l [E H] G IH]; cbn in *; constructor; auto.
  - cbn [de] in H. apply obind_done in H as (x & E & [= <-]). constructor; eauto.
  - cbn [de] in H. destruct v; try discriminate. apply obind_done in H as (r & H & [= <-]). constructor.
    eapply tuple_typed; eauto. exact (proj1 (wf_arr _) W).
  - cbn [de] in H. destruct v; try discriminate. injection H as <-. constructor.
  - cbn [de] in H. rewrite de_value_identity in H by now apply wf_uniq. injection H as <-. constructor. now apply wf_uniq.
Qed.

(** ** Equivalent data are saved alike *)
Lemma wide_equiv v : forall w, vequiv v w -> has_wide v -> has_wide w.
Proof.
  induction v as [v S|l IH|m IH] using value_ind'; intros w E H.
  - rewrite (vequiv_scalar_l _ _ S E). exact H.
  - apply vequiv_arr_l in E as (r & -> & F). inversion H as [| |? x Hx Wx|]; subst.
    destruct (Forall2_in_l _ _ _ _ F Hx) as (y & Hy & Exy). apply (HwArr r y Hy). eapply IH; eauto.
  - apply vequiv_map_l in E as (n & -> & E1 & _). inversion H as [| | |? k x Hx Wx]; subst.
    destruct (E1 k x Hx) as (y & Hy & Exy). apply (HwMap n k y Hy). eapply IH; eauto.
Qed.

Definition saved_alike (t : ty) : Prop :=
  forall d e, has_type t d -> has_type t e -> data_equiv d e ->
  forall v, ser d = Done v -> exists w, ser e = Done w /\ vequiv v w.

Lemma list_alike ts : (forall t, In t ts -> saved_alike t) -> forall l r, Forall2 has_type ts l -> Forall2 has_type ts r ->
  Forall2 data_equiv l r -> forall vs, Forall2 (fun x v => ser x = Done v) l vs ->
  exists ws, Forall2 (fun x v => ser x = Done v) r ws /\ Forall2 vequiv vs ws.
Proof.
  intros IH l r Tl. revert r; induction Tl as [|t d ts l Td Tl IHl]; intros r Tr E vs S.
  - inversion Tr; subst. inversion S; subst. exists []; auto.
  - inversion Tr as [|? e ? r' Te Tr']; subst. inversion E as [|? ? ? ? Ed El]; subst. inversion S as [|? v ? vs' Sd Sl]; subst.
    destruct (IH t (or_introl eq_refl) d e Td Te Ed v Sd) as (w & Sw & Ew).
    destruct (IHl (fun t Ht => IH t (or_intror Ht)) r' Tr' El vs' Sl) as (ws & Sws & Ews). exists (w :: ws); auto.
Qed.

Lemma scalar_alike t d e : has_type t d -> data_equiv d e -> scalar_datum d -> e = d.
Proof. intros _ E S. inversion E; subst; cbn in S; tauto || reflexivity. Qed.

Lemma tuple_alike (mk : list data -> data) ts l r v : (forall t, In t ts -> saved_alike t) ->
  (forall l, ser (mk l) = ser_seq ser new_array l) -> Forall2 has_type ts l -> Forall2 has_type ts r ->
  Forall2 data_equiv l r -> ser (mk l) = Done v -> exists w, ser (mk r) = Done w /\ vequiv v w.
Proof.
  intros IH Es Tl Tr E S. rewrite Es in S. apply ser_seq_inv in S as (vs & S & ->).
  destruct (list_alike ts IH l r Tl Tr E vs S) as (ws & Sw & Ew). exists (VArr ws). rewrite Es.
  split; [exact (ser_seq_done ser r [] ws Sw) | now constructor].
Qed.

Lemma Forall2_repeat_l {A B} (R : A -> B -> Prop) a l : (forall x, In x l -> R a x) -> Forall2 R (repeat a (List.length l)) l.
Proof. induction l as [|x l IH]; intros H; cbn; constructor; [apply H; cbn; auto | apply IH; intros; apply H; cbn; auto]. Qed.

Theorem ser_respects t : round_trips t -> saved_alike t.
Proof.
  induction t as [ |t| | | | | | |t IH|t IH|ts IH|tk tv IHk IHv|fs IH|t IH|n ts IH| | | ] using ty_ind';
    intros R d e Td Te E v S; inversion R; subst;
    try (assert (SD : scalar_datum d) by (inversion Td; subst; exact I); rewrite (scalar_alike _ _ _ Td E SD);
         exists v; split; [exact S | apply vequiv_refl]).
  - inversion Td; subst; inversion E; subst.
    + exists v; split; [exact S | apply vequiv_refl].
    + match goal with X : scalar_datum _ |- _ => destruct X end.
    + inversion Te; subst. cbn [ser] in *. match goal with X : data_equiv ?a ?b |- exists w, ser ?b = _ /\ _ => apply (IH ltac:(auto) a b); auto end.
  - inversion Td; subst; inversion E; subst; [match goal with X : scalar_datum _ |- _ => destruct X end|].
    inversion Te; subst.
    match goal with X : Forall2 data_equiv ?a ?b |- _ => pose proof (Forall2_length' _ _ _ X) as L;
      apply (tuple_alike DSeq (repeat t (List.length a)) a b) end; auto.
    + intros u Hu. apply repeat_spec in Hu as ->. apply IH; auto.
    + now apply Forall2_repeat_l.
    + rewrite L. now apply Forall2_repeat_l.
  - inversion Td; subst; inversion E; subst; [match goal with X : scalar_datum _ |- _ => destruct X end|].
    inversion Te; subst. match goal with X : forall t, In t ts -> round_trips t, Y : Forall2 data_equiv ?a ?b |- _ =>
      apply (tuple_alike DTuple ts a b v (fun t Ht => IH t Ht (X t Ht))); auto end.
  - inversion Td as [| | | | | | | | | | | |? ? m K ND T| | | | | |]; subst. inversion E as [? X| | | |? n E1 E2| | | |]; subst; [destruct X|].
    inversion Te as [| | | | | | | | | | | |? ? ? K' ND' T'| | | | | |]; subst.
    pose proof S as S'. cbn [ser] in S'. apply ser_map_entries_inv in S' as [(vs & F) _].
    destruct (ser_map_texts tk m K (fun a b Hab => proj1 (T a b Hab)) ND (map snd vs)) as (ps & Sp & NP & Fp).
    { clear - F. induction F as [|x v m vs [_ X] F IH]; cbn; constructor; auto. }
    rewrite Sp in S; injection S as <-.
    assert (Y : forall p, In p n -> exists y, ser (snd p) = Done y).
    { intros [a b'] Hab. destruct (E2 a b' Hab) as (b & Hb & Eb). destruct (Forall2_in_l _ _ _ _ Fp Hb) as ([s x] & Hs & _ & Sx).
      destruct (IHv ltac:(auto) b b' (proj2 (T a b Hb)) (proj2 (T' a b' Hab)) Eb x Sx) as (y & Sy & _). eauto. }
    destruct (Forall2_exists _ _ Y) as (ys & Fy).
    destruct (ser_map_texts tk n K (fun a b Hab => proj1 (T' a b Hab)) ND' ys Fy) as (qs & Sq & NQ & Fq).
    exists (VMap qs). split; [exact Sq|]. constructor.
    + intros s x Hs. destruct (Forall2_in_r _ _ _ _ Fp Hs) as ([a b] & Hb & Ka & Sx). cbn in *.
      destruct (E1 a b Hb) as (b' & Hb' & Eb). destruct (Forall2_in_l _ _ _ _ Fq Hb') as ([s' y] & Hy & Ka' & Sy). cbn in *.
      rewrite (key_text_fun _ _ _ Ka Ka'). exists y; split; auto.
      destruct (IHv ltac:(auto) b b' (proj2 (T a b Hb)) (proj2 (T' a b' Hb')) Eb x Sx) as (y' & Sy' & Ey'). congruence.
    + intros s y Hs. destruct (Forall2_in_r _ _ _ _ Fq Hs) as ([a b'] & Hb' & Ka & Sy). cbn in *.
      destruct (E2 a b' Hb') as (b & Hb & Eb). destruct (Forall2_in_l _ _ _ _ Fp Hb) as ([s' x] & Hx & Ka' & Sx). cbn in *.
      rewrite (key_text_fun _ _ _ Ka Ka'). exists x; split; auto.
      destruct (IHv ltac:(auto) b b' (proj2 (T a b Hb)) (proj2 (T' a b' Hb')) Eb x Sx) as (y' & Sy' & Ey'). congruence.
  - inversion Td as [| | | | | | | | | | | | |? ds N1 F1| | | | |]; subst. inversion E as [? X| | | | |? es N3 F3| | |]; subst; [destruct X|].
    inversion Te as [| | | | | | | | | | | | |? ? N2 F2| | | | |]; subst.
    match goal with X : NoDup (map fst fs), Y : forall n t, In (n, t) fs -> round_trips t |- _ => rename X into ND; rename Y into Rf end.
    pose proof S as S'. cbn [ser] in S'. apply ser_fields_inv in S' as ((vs & F) & _).
    destruct (list_alike (map snd fs)) with (l := map snd ds) (r := map snd es) (vs := map snd vs) as (ws & Sw & Ew); auto.
    { intros t Ht. apply in_map_iff in Ht as ([n t'] & <- & Ht). apply (IH n t' Ht (Rf n t' Ht)). }
    { clear - F. induction F as [|x v l vs [_ X] F IH]; cbn; constructor; auto. }
    assert (Nv : map fst vs = map fst ds).
    { clear - F. induction F as [|x v l vs [X _] F IH]; cbn; congruence. }
    assert (Sd : ser (DStruct ds) = Done (VMap vs)).
    { cbn [ser]. apply (ser_fields_done ser ds [] vs F). cbn. rewrite Nv, <- N1. exact ND. }
    rewrite Sd in S; injection S as <-. exists (VMap (combine (map fst es) ws)).
    assert (Lw : List.length (map fst es) = List.length ws).
    { apply Forall2_length' in Sw. rewrite map_length in Sw |- *. exact Sw. }
    assert (Cf : map fst (combine (map fst es) ws) = map fst es).
    { clear - Lw. revert ws Lw; induction (map fst es) as [|a l IH]; intros [|w ws] L; cbn in *; try discriminate; [reflexivity|]. f_equal; auto. }
    assert (Cs : map snd (combine (map fst es) ws) = ws).
    { clear - Lw. revert ws Lw; induction (map fst es) as [|a l IH]; intros [|w ws] L; cbn in *; try discriminate; [reflexivity|]. f_equal; auto. }
    split.
    + cbn [ser]. apply (ser_fields_done ser es [] (combine (map fst es) ws)).
      * clear - Sw. revert ws Sw; induction es as [|[n d] es IH]; intros ws Sw; cbn in *; inversion Sw; subst; cbn; constructor; auto.
      * cbn. rewrite Cf, <- N2. exact ND.
    + assert (G : Forall2 (fun a b => fst a = fst b /\ vequiv (snd a) (snd b)) vs (combine (map fst es) ws)).
      { set (qs := combine (map fst es) ws) in *. assert (Q : map fst vs = map fst qs) by congruence.
        rewrite <- Cs in Ew. clearbody qs. clear - Q Ew. revert qs Q Ew; induction vs as [|[a x] vs IH]; intros [|[b y] qs] Q Ew; cbn in *; try discriminate; constructor.
        - injection Q as <- Q. inversion Ew; subst. auto.
        - injection Q as <- Q. inversion Ew; subst. auto. }
      constructor.
      * intros k x Hx. destruct (Forall2_in_l _ _ _ _ G Hx) as ([k' y] & Hy & E1 & E2). cbn in *. subst k'. eauto.
      * intros k y Hy. destruct (Forall2_in_r _ _ _ _ G Hy) as ([k' x] & Hx & E1 & E2). cbn in *. subst k'. eauto.
  - inversion Td; subst; inversion E; subst; [match goal with X : scalar_datum _ |- _ => destruct X end|].
    inversion Te; subst. cbn [ser] in *. match goal with X : data_equiv ?a ?b |- exists w, ser ?b = _ /\ _ => apply (IH ltac:(auto) a b); auto end.
  - inversion Td; subst; inversion E; subst; [match goal with X : scalar_datum _ |- _ => destruct X end|].
    inversion Te; subst. match goal with X : forall t, In t ts -> round_trips t, Y : Forall2 data_equiv ?a ?b |- _ =>
      apply (tuple_alike DTupleStruct ts a b v (fun t Ht => IH t Ht (X t Ht))); auto end.
  - inversion Td as [| | | | | | | | | | | | | | | | | |? Ux]; subst. inversion E as [? X| | | | | | | |? y Ey]; subst; [destruct X|].
    inversion Te as [| | | | | | | | | | | | | | | | | |? Uy]; subst.
    cbn [ser] in S. pose proof (ser_value_cases _ Ux) as C. rewrite S in C. destruct C as [-> Nw].
    exists y. split; [cbn [ser]|exact Ey]. apply ser_value_identity; auto. intros Hw. apply Nw. eapply wide_equiv; [|exact Hw]. now apply vequiv_sym.
Qed.

(** ** Saving what was loaded *)
Lemma typed_uniq t : round_trips t -> forall d, has_type t d -> data_uniq d.
Proof.
  induction t as [ |t| | | | | | |t IH|t IH|ts IH|tk tv IHk IHv|fs IH|t IH|n ts IH| | | ] using ty_ind';
    intros R d H; inversion R; subst; inversion H; subst; try (apply DuScalar; exact I).
  - apply DuSome; auto.
  - apply DuSeq; intros; apply IH; auto.
  - apply DuTuple. intros d Hd. match goal with F : Forall2 has_type ts _ |- _ => destruct (Forall2_in_r _ _ _ _ F Hd) as (t & Ht & T) end.
    apply (IH t); auto.
  - apply DuMap. match goal with T : forall a b, In (a, b) _ -> _ |- _ => intros a b Hab; destruct (T a b Hab) as [Ta Tb] end. split; auto.
    match goal with K : key_type tk |- _ => clear - Ta K; revert a Ta; induction K; intros a Ta; inversion Ta; subst; try (apply DuScalar; exact I) end.
    apply DuNewtype; auto.
  - apply DuStruct. intros n d Hd. match goal with F : Forall2 has_type _ _ |- _ => apply (in_map snd) in Hd; cbn in Hd;
      destruct (Forall2_in_r _ _ _ _ F Hd) as (t & Ht & T) end. apply in_map_iff in Ht as ([n' t'] & E & Ht). cbn in E; subst t'. apply (IH n' t); eauto.
  - apply DuNewtype; auto.
  - apply DuTupleStruct. intros d Hd. match goal with F : Forall2 has_type ts _ |- _ => destruct (Forall2_in_r _ _ _ _ F Hd) as (t & Ht & T) end.
    apply (IH t); auto.
  - apply DuValue; auto.
Qed.
Lemma loaded_saves t v d : round_trips t -> wf v -> de t v = Done d ->
  (~ data_wide d <-> exists v2, ser d = Done v2).
Proof.
  intros R W D. pose proof (loaded_typed t R v d W D) as T. split.
  - intros N. destruct (round_trip t R d T N) as (v2 & E & _). eauto.
  - intros (v2 & E). pose proof (ser_exact d (typed_uniq t R d T)) as S. unfold ser_summary in S. rewrite E in S. tauto.
Qed.
Lemma loaded_again t v d v2 v2' : round_trips t -> wf v -> de t v = Done d -> ser d = Done v2 ->
  vequiv v2 v2' -> uniq v2' ->
  exists d', de t v2' = Done d' /\ data_equiv d d' /\ exists v3, ser d' = Done v3 /\ vequiv v2 v3.
Proof.
  intros R W D S E U. pose proof (loaded_typed t R v d W D) as T.
  assert (N : ~ data_wide d) by (apply (loaded_saves t v d R W D); eauto).
  destruct (round_trip t R d T N) as (y & Sy & _ & B). rewrite S in Sy; injection Sy as <-.
  destruct (B v2' E U) as (d' & D' & T' & Ed). exists d'. repeat split; auto. exact (ser_respects t R d d' T T' Ed v2 S).
Qed.
Lemma loaded_struct_keys fs v d v2 : round_trips (TStruct fs) -> wf v -> de (TStruct fs) v = Done d -> ser d = Done v2 ->
  forall k, In k (map fst fs) <-> exists x, holds v2 k x.
Proof.
  intros R W D S k. pose proof (loaded_typed _ R v d W D) as T.
  inversion T as [| | | | | | | | | | | | |? ds N1 F1| | | | |]; subst. inversion R as [| | | | | | | | | | |? ND _| | | |]; subst.
  pose proof S as S'. cbn [ser] in S'. apply ser_fields_inv in S' as ((vs & F) & _).
  assert (Nv : map fst vs = map fst ds) by (clear - F; induction F as [|x w l vs [X _] F IH]; cbn; congruence).
  assert (Sd : ser (DStruct ds) = Done (VMap vs)).
  { cbn [ser]. apply (ser_fields_done ser ds [] vs F). cbn. rewrite Nv, <- N1. exact ND. }
  rewrite Sd in S; injection S as <-. rewrite N1, <- Nv. split.
  - intros H. apply in_map_iff in H as ([k' x] & <- & H). exists x. now apply holds_map.
  - intros (x & H). apply holds_map in H. apply (in_map fst) in H. exact H.
Qed.
