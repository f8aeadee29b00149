(** Deserialisation computes exactly [reads_as] and [refuses] (C92). *)
From Coq Require Import ZArith Bool String Lia List.
Import ListNotations.
From Verif.Model Require Import Text Num Flt Value Convert Serde.
From Verif.Spec Require Import Spec Numerals SerdeSpec ReadSpec.
From Verif.Proofs Require Import Basics Conversions SerProofs DeProofs SerdeMore RoundTrip Loaded.
Open Scope Z_scope.

(** ** Keys *)
Lemma key_proper t : key_type t -> proper t.
Proof. induction 1; try (apply PrFlat; exact I). now apply PrNewtype. Qed.
Lemma key_reads tk k a : key_type tk -> (reads_as tk (VStr k) a <-> de tk (VStr k) = Done a).
Proof.
  intros K; revert a; induction K as [|t N| | |t K IH]; intros a; cbn [de]; (split; [intros H; inversion H; subst | intros H]).
  - cbn [of_result obind]. match goal with X : into_bool _ = Ok _ |- _ => rewrite X end. reflexivity.
  - apply obind_done in H as (b & H & [= <-]). apply of_result_ok in H. now constructor.
  - unfold de_int. match goal with X : into_int _ _ = Ok _ |- _ => rewrite X end. destruct t; cbn in N; tauto || reflexivity.
  - assert (Z : exists z, into_int t (VStr k) = Ok z /\ a = DInt t z).
    { unfold de_int in H. destruct t; try discriminate; apply obind_done in H as (z & H & [= <-]); apply of_result_ok in H; eauto. }
    destruct Z as (z & Z & ->). now constructor.
  - match goal with X : into_char _ = Ok _ |- _ => rewrite X end. reflexivity.
  - apply obind_done in H as (b & H & [= <-]). apply of_result_ok in H. now constructor.
  - match goal with X : into_string _ = Ok _ |- _ => rewrite X end. reflexivity.
  - apply obind_done in H as (b & H & [= <-]). apply of_result_ok in H. now constructor.
  - match goal with X : reads_as t _ _ |- _ => apply IH in X; rewrite X end. reflexivity.
  - apply obind_done in H as (b & H & [= <-]). constructor. now apply IH.
Qed.
Lemma key_eqb_iff tk k k' a b : key_type tk -> de tk (VStr k) = Done a -> de tk (VStr k') = Done b ->
  (key_eqb a b = true <-> a = b).
Proof.
  intros K; revert a b; induction K as [|t N| | |t K IH]; intros a b Ha Hb; cbn [de] in Ha, Hb.
  - apply obind_done in Ha as (x & _ & [= <-]). apply obind_done in Hb as (y & _ & [= <-]). cbn.
    rewrite Bool.eqb_true_iff. split; congruence.
  - assert (Za : exists x, a = DInt t x) by (unfold de_int in Ha; destruct t; try discriminate; apply obind_done in Ha as (z & _ & [= <-]); eauto).
    assert (Zb : exists x, b = DInt t x) by (unfold de_int in Hb; destruct t; try discriminate; apply obind_done in Hb as (z & _ & [= <-]); eauto).
    destruct Za as (x & ->), Zb as (y & ->). cbn. rewrite Z.eqb_eq. split; congruence.
  - apply obind_done in Ha as (x & _ & [= <-]). apply obind_done in Hb as (y & _ & [= <-]). cbn. rewrite Z.eqb_eq. split; congruence.
  - apply obind_done in Ha as (x & _ & [= <-]). apply obind_done in Hb as (y & _ & [= <-]). cbn. rewrite str_eqb_eq. split; congruence.
  - apply obind_done in Ha as (x & Ha & [= <-]). apply obind_done in Hb as (y & Hb & [= <-]). cbn. rewrite (IH x y Ha Hb). split; congruence.
Qed.

Lemma exists_last' {A} (l : list A) : l = [] \/ exists l0 z, l = l0 ++ [z].
Proof. induction l as [|a l [->|(l0 & z & ->)]]; [auto | right; exists [], a; auto | right; exists (a :: l0), z; auto]. Qed.

(** ** Maps keep the last entry of each key *)
Lemma dinsert_last k x r : (forall a, In a (map fst r) -> (key_eqb k a = true <-> k = a)) -> NoDup (map fst r) ->
  NoDup (map fst (dinsert k x r)) /\
  forall a b, In (a, b) (dinsert k x r) <-> (a = k /\ b = x) \/ (a <> k /\ In (a, b) r).
Proof.
  intros K. induction r as [|[k' x'] r IH]; intros ND; cbn [dinsert].
  - cbn. split; [repeat constructor; tauto|]. intros a b. split; [intros [[= <- <-]|[]]; auto | intros [[-> ->]|[_ []]]; auto].
  - cbn in ND; inversion ND as [|? ? N1 N2]; subst. pose proof (K k' (or_introl eq_refl)) as Kk.
    destruct (key_eqb k k') eqn:E.
    + assert (k = k') as <- by tauto. split; [cbn; constructor; auto|]. intros a b. cbn. split.
      * intros [[= <- <-]|H]; [auto|]. right. split; [|auto]. intros ->. apply (in_map fst) in H. contradiction.
      * intros [[-> ->]|[Na [[= -> ->]|H]]]; auto. congruence.
    + assert (Nk : k' <> k) by (intros ->; destruct Kk as [_ Kk]; specialize (Kk eq_refl); discriminate).
      destruct IH as [I1 I2]; [intros; apply K; cbn; auto | auto |]. split.
      * cbn. constructor; auto. intros H. apply in_map_iff in H as ([a b] & Ea & H). cbn in Ea; subst a.
        apply I2 in H as [[-> _]|[_ H]]; [congruence|]. apply (in_map fst) in H. contradiction.
      * intros a b. cbn. rewrite I2. split.
        -- intros [[= <- <-]|[H|[H1 H2]]]; auto.
        -- intros [H|[H1 [H2|H2]]]; auto.
Qed.
Lemma last_entries_step ps r k x : last_entries ps r -> (forall a, In a (map fst r) -> (key_eqb k a = true <-> k = a)) ->
  last_entries (ps ++ [(k, x)]) (dinsert k x r).
Proof.
  intros [ND L] K. destruct (dinsert_last k x r K ND) as [N' I]. split; auto. intros a b. rewrite I, L. split.
  - intros [[-> ->]|[Na (u & w & -> & Hw)]].
    + exists ps, []. split; [reflexivity | cbn; tauto].
    + exists u, (w ++ [(k, x)]). rewrite <- app_assoc. split; [reflexivity|]. rewrite map_app, in_app_iff. cbn. intros [H|[H|[]]]; auto.
  - intros (u & w & E & Hw). destruct (exists_last' w) as [->|(w' & z & ->)].
    + apply app_inj_tail in E as [_ [= -> ->]]. auto.
    + change ((a, b) :: w' ++ [z]) with (((a, b) :: w') ++ [z]) in E. rewrite app_assoc in E.
      apply app_inj_tail in E as [-> <-]. right. rewrite map_app, in_app_iff in Hw. cbn in Hw. split; [intros ->; apply Hw; auto|].
      exists u, w'. tauto.
Qed.
Lemma last_entries_fold ps : (forall p q, In p ps -> In q ps -> (key_eqb (fst p) (fst q) = true <-> fst p = fst q)) ->
  last_entries ps (fold_left (fun acc p => dinsert (fst p) (snd p) acc) ps []).
Proof.
  induction ps as [|[k x] ps IH] using rev_ind; intros K.
  - split; [constructor|]. intros a b. split; [intros [] | intros (u & w & E & _); destruct u; discriminate].
  - rewrite fold_left_app. cbn [fold_left fst snd]. apply last_entries_step.
    + apply IH. intros; apply K; apply in_or_app; auto.
    + set (r := fold_left _ ps []) in *. destruct (IH ltac:(intros; apply K; apply in_or_app; auto)) as [_ L].
      intros a Ha. apply in_map_iff in Ha as ([a' b] & Ea & Ha). cbn in Ea; subst a'. apply L in Ha as (u & w & -> & _).
      apply (K (k, x) (a, b)); rewrite !in_app_iff; cbn; auto.
Qed.

(** ** Success *)
Definition read_ok (t : ty) : Prop := forall v, uniq v ->
  (forall d, de t v = Done d -> reads_as t v d) /\
  (forall d, reads_as t v d -> exists d', de t v = Done d' /\ data_equiv d d').

Lemma wide_dec t : wide t \/ ~ wide t.
Proof. destruct t; cbn; tauto. Qed.
Lemma scalar_ok {A} t (conv : value -> result A model_error) (mk : A -> data) :
  (forall v, de t v = obind (of_result (conv v)) (fun a => Done (mk a))) -> (forall a, scalar_datum (mk a)) ->
  (forall v d, reads_as t v d <-> exists a, conv v = Ok a /\ d = mk a) -> read_ok t.
Proof.
  intros E S R v _. split.
  - intros d H. rewrite E in H. apply obind_done in H as (a & H & [= <-]). apply of_result_ok in H. apply R; eauto.
  - intros d H. apply R in H as (a & H & ->). exists (mk a). rewrite E, H. split; [reflexivity | now constructor].
Qed.

Lemma each_sound ts : (forall t, In t ts -> read_ok t) -> forall what i l ds, (forall x, In x l -> uniq x) ->
  de_tuple what i (map (fun t => de t) ts) l = Done ds -> reads_each ts l ds.
Proof.
  induction ts as [|t ts IH]; intros O what i l ds U H; cbn in H.
  - injection H as <-. constructor.
  - destruct l as [|x l]; [discriminate|]. apply obind_done in H as (d & Hd & H). apply obind_done in H as (ds' & H & [= <-]).
    constructor; [apply (O t (or_introl eq_refl) x (U x (or_introl eq_refl))), Hd|].
    eapply IH; eauto; [intros; apply O; cbn; auto | intros; apply U; cbn; auto].
Qed.
Lemma each_complete ts : (forall t, In t ts -> read_ok t) -> forall what i l ds, (forall x, In x l -> uniq x) ->
  reads_each ts l ds -> exists ds', de_tuple what i (map (fun t => de t) ts) l = Done ds' /\ Forall2 data_equiv ds ds'.
Proof.
  induction ts as [|t ts IH]; intros O what i l ds U H; inversion H; subst; cbn.
  - exists []; auto.
  - match goal with X : reads_as t ?x ?d, Y : reads_each ts _ _ |- _ =>
      destruct (proj2 (O t (or_introl eq_refl) x (U x (or_introl eq_refl))) d X) as (d' & -> & E);
      destruct (IH (fun t Ht => O t (or_intror Ht)) what (S i) _ _ (fun x Hx => U x (or_intror Hx)) Y) as (ds' & -> & F) end.
    cbn. eauto.
Qed.

Lemma Forall2_split_l {A B} (R : A -> B -> Prop) l1 x l2 r : Forall2 R (l1 ++ x :: l2) r ->
  exists r1 y r2, r = r1 ++ y :: r2 /\ Forall2 R l1 r1 /\ R x y /\ Forall2 R l2 r2.
Proof.
  intros F. apply Forall2_app_inv_l in F as (r1 & r' & F1 & F2 & ->). inversion F2 as [|? y ? r2 Rx F3]; subst. eauto 10.
Qed.
Lemma Forall2_split_r {A B} (R : A -> B -> Prop) l r1 y r2 : Forall2 R l (r1 ++ y :: r2) ->
  exists l1 x l2, l = l1 ++ x :: l2 /\ Forall2 R l1 r1 /\ R x y /\ Forall2 R l2 r2.
Proof.
  intros F. apply Forall2_app_inv_r in F as (l1 & l' & F1 & F2 & ->). inversion F2 as [|x ? l2 ? Rx F3]; subst. eauto 10.
Qed.

Theorem de_reads t : proper t -> read_ok t.
Proof.
  induction t as [ |t| | | | | | |t IH|t IH|ts IH|tk tv IHk IHv|fs IH|t IH|n ts IH| | | ] using ty_ind'; intros P.
  - apply (scalar_ok TBool into_bool DBool); [intros; reflexivity | intros; exact I |].
    intros v d; split; [intros H; inversion H; eauto | intros (a & E & ->); now constructor].
  - destruct (wide_dec t) as [W|W].
    + intros v _. split; [destruct t; cbn in W; try tauto; discriminate | intros d H; inversion H; contradiction].
    + apply (scalar_ok (TInt t) (into_int t) (DInt t)); [|intros; exact I|].
      * intros v. cbn [de]. unfold de_int. destruct t; cbn in W; tauto || reflexivity.
      * intros v d; split; [intros H; inversion H; subst; eauto | intros (a & E & ->); now constructor].
  - apply (scalar_ok TF32 into_f64 (fun f => DF32 (f64_to_f32 f))); [intros; reflexivity | intros; exact I |].
    intros v d; split; [intros H; inversion H; eauto | intros (a & E & ->); now constructor].
  - apply (scalar_ok TF64 into_f64 DF64); [intros; reflexivity | intros; exact I |].
    intros v d; split; [intros H; inversion H; eauto | intros (a & E & ->); now constructor].
  - apply (scalar_ok TChar into_char DChar); [intros; reflexivity | intros; exact I |].
    intros v d; split; [intros H; inversion H; eauto | intros (a & E & ->); now constructor].
  - apply (scalar_ok TString into_string DStr); [intros; reflexivity | intros; exact I |].
    intros v d; split; [intros H; inversion H; eauto | intros (a & E & ->); now constructor].
  - intros v _. split; [discriminate | intros d H; inversion H].
  - intros v _. split.
    + intros d H. cbn in H. destruct v; try discriminate. injection H as <-. constructor.
    + intros d H. inversion H; subst. exists DUnit. split; [reflexivity | now constructor].
  - assert (Pt : proper t) by (inversion P as [? X| | | | | | |]; subst; [destruct X | auto]).
    intros v U. destruct (IH Pt v U) as [I1 I2]. split.
    + intros d H. cbn [de] in H. destruct v; try (injection H as <-; constructor; fail);
        apply obind_done in H as (x & E & [= <-]); apply RaSome; (discriminate || auto).
    + intros d H. inversion H as [| | | | | | | |? |? ? x Nv Rx| | | | | | |]; subst.
      * exists DNone. split; [reflexivity | now constructor].
      * destruct (I2 x Rx) as (x' & E & Ex). exists (DSome x'). split; [|now constructor]. cbn [de]. rewrite E. destruct v; congruence || reflexivity.
  - assert (Pt : proper t) by (inversion P as [? X| | | | | | |]; subst; [destruct X | auto]).
    intros v U. split.
    + intros d H. apply seq_iff in H as (l & r & -> & -> & F). constructor. eapply Forall2_imp; [|exact F].
      intros x y Hx _ E. apply (IH Pt x); auto. exact (proj1 (uniq_arr l) U x Hx).
    + intros d H. inversion H as [| | | | | | | | | | |? l r F| | | | |]; subst.
      assert (G : forall (l0 : list value), (forall x, In x l0 -> uniq x) -> forall r0, Forall2 (reads_as t) l0 r0 ->
        exists r', Forall2 (fun x d => de t x = Done d) l0 r' /\ Forall2 data_equiv r0 r').
      { intros l0 U0 r0 F0. induction F0 as [|x y l0 r0 Rx F0 IHF]; [exists []; auto|].
        destruct (proj2 (IH Pt x (U0 x (or_introl eq_refl))) y Rx) as (y' & E & Ey).
        destruct IHF as (r' & F1 & F2); [intros; apply U0; cbn; auto|]. exists (y' :: r'); auto. }
      destruct (G l (proj1 (uniq_arr l) U) r F) as (r' & F1 & F2). exists (DSeq r'). split; [|now constructor].
      apply seq_iff. eauto.
  - assert (Pt : forall t, In t ts -> read_ok t) by (inversion P as [? X| | | | | | |]; subst; [destruct X | auto]).
    intros v U. split.
    + intros d H. cbn [de] in H. destruct v; try discriminate. apply obind_done in H as (r & H & [= <-]). constructor.
      eapply each_sound; eauto. exact (proj1 (uniq_arr _) U).
    + intros d H. inversion H; subst. match goal with X : reads_each ts ?l ?r |- _ =>
        destruct (each_complete ts Pt (expecting_tuple (List.length ts)) 0 l r (proj1 (uniq_arr _) U) X) as (r' & E & F) end.
      exists (DTuple r'). split; [|now constructor]. cbn [de]. rewrite E. reflexivity.
  - assert (K : key_type tk /\ proper tv) by (inversion P as [? X| | | | | | |]; subst; [destruct X | auto]). destruct K as [K Pv].
    specialize (IHv Pv). intros v U. split.
    + intros d H. cbn [de] in H. destruct v; try discriminate. apply obind_done in H as (r & H & [= <-]).
      change (@de_map data data (de tk) (de tv) dinsert m) with (de_map_loop (de tk) (de tv) dinsert m []) in H.
      apply de_map_fold in H as (ps & F & ->). apply uniq_map in U as [ND Um].
      apply (RaMap tk tv m ps).
      * eapply Forall2_imp; [|exact F]. intros [k x] [a b] Hk _ [E1 E2]. cbn in *. split; [now apply key_reads | apply (IHv x (Um k x Hk)), E2].
      * apply last_entries_fold. intros [a b] [a' b'] Hp Hq.
        destruct (Forall2_in_r _ _ _ _ F Hp) as ([k x] & _ & E1 & _). destruct (Forall2_in_r _ _ _ _ F Hq) as ([k' x'] & _ & E1' & _).
        cbn in *. exact (key_eqb_iff tk k k' a a' K E1 E1').
    + intros d H. inversion H as [| | | | | | | | | | | | | |? ? m ps r F L| |]; subst. apply uniq_map in U as [ND Um].
      assert (G : exists qs, Forall2 (fun e p => de tk (VStr (fst e)) = Done (fst p) /\ de tv (snd e) = Done (snd p)) m qs
        /\ Forall2 (fun p q => fst p = fst q /\ data_equiv (snd p) (snd q)) ps qs).
      { clear - F Um IHv K. induction F as [|[k x] [a b] m ps [E1 E2] F IHF]; [exists []; auto|]. cbn in *.
        destruct (proj2 (IHv x (Um k x (or_introl eq_refl))) b E2) as (b' & D & E). apply (key_reads tk k a K) in E1.
        destruct IHF as (qs & F1 & F2); [intros; eapply Um; cbn; eauto|]. exists ((a, b') :: qs); auto. }
      destruct G as (qs & F1 & F2). set (r2 := fold_left (fun acc p => dinsert (fst p) (snd p) acc) qs []).
      assert (L2 : last_entries qs r2).
      { apply last_entries_fold. intros [a b] [a' b'] Hp Hq.
        destruct (Forall2_in_r _ _ _ _ F1 Hp) as ([k x] & _ & E1 & _). destruct (Forall2_in_r _ _ _ _ F1 Hq) as ([k' x'] & _ & E1' & _).
        cbn in *. exact (key_eqb_iff tk k k' a a' K E1 E1'). }
      assert (NI : forall us ws a, Forall2 (fun p q : data * data => fst p = fst q /\ data_equiv (snd p) (snd q)) us ws ->
        (In a (map fst us) <-> In a (map fst ws))).
      { intros us ws a X. induction X as [|[p p'] [q q'] us ws [E _] X IHX]; cbn in *; [tauto|]. subst. tauto. }
      exists (DMap r2). split.
      * cbn [de]. change (@de_map data data (de tk) (de tv) dinsert m) with (de_map_loop (de tk) (de tv) dinsert m []).
        assert (D : de_map_loop (de tk) (de tv) dinsert m [] = Done r2) by (apply de_map_fold; exists qs; split; [exact F1 | reflexivity]).
        rewrite D. reflexivity.
      * constructor.
        -- intros a b Hab. apply L in Hab as (u & w & -> & Hw). destruct (Forall2_split_l _ _ _ _ _ F2) as (u' & [a' b'] & w' & -> & Fu & [E1 E2] & Fw).
           cbn in *. subst a'. exists b'. split; auto. apply L2. exists u', w'. split; auto. now rewrite <- (NI w w').
        -- intros a b' Hab. apply L2 in Hab as (u' & w' & -> & Hw). destruct (Forall2_split_r _ _ _ _ _ F2) as (u & [a' b] & w & -> & Fu & [E1 E2] & Fw).
           cbn in *. subst a'. exists b. split; auto. apply L. exists u, w. split; auto. now rewrite (NI w w').
  - assert (K : NoDup (map fst fs) /\ forall n t, In (n, t) fs -> proper t) by (inversion P as [? X| | | | | | |]; subst; [destruct X | auto]).
    destruct K as [ND Pf]. intros v U. destruct (mapv_dec v) as [M|M].
    2:{ split; [intros d H; destruct v; cbn in H; try discriminate; destruct M; eexists; reflexivity | intros d H; inversion H; contradiction]. }
    assert (Ux : forall k x, holds v k x -> uniq x) by (intros k x (m & -> & Hx); apply uniq_map in U as [_ U]; eauto).
    split.
    + intros d H. apply struct_iff in H as (l & -> & F); auto. constructor; auto. eapply Forall2_imp; [|exact F].
      intros [n t] [n' d] Hf _ [E [(x & Hx & Hd)|R]]; (split; [exact E|]); [left | right; exact R].
      exists x. split; auto. cbn in *. apply (IH n t Hf (Pf n t Hf) x); eauto.
    + intros d H. inversion H as [| | | | | | | | | | | | | | |? ? l _ F|]; subst.
      assert (G : forall gs l, (forall n t, In (n, t) gs -> In (n, t) fs) -> Forall2 (fun f d => fst d = fst f /\
          ((exists x, holds v (fst f) x /\ reads_as (snd f) x (snd d))
           \/ (lacks v (fst f) /\ (exists t, snd f = TOption t) /\ snd d = DNone))) gs l ->
        exists l', Forall2 (field_becomes (fun t x d => de t x = Done d) v) gs l' /\ map fst l = map fst l' /\ Forall2 data_equiv (map snd l) (map snd l')).
      { clear l F H. intros gs l Sub F. induction F as [|[n t] [n' d] gs l [E R] F IHF]; [exists []; split; [constructor | split; [reflexivity | constructor]]|].
        cbn in E; subst n'. destruct IHF as (l' & G1 & G2 & G3); [intros; apply Sub; cbn; auto|].
        destruct R as [(x & Hx & Hd)|(N & O & Ed)].
        - cbn in *. destruct (proj2 (IH n t (Sub n t (or_introl eq_refl)) (Pf n t (Sub n t (or_introl eq_refl))) x (Ux n x Hx)) d Hd) as (d' & D & Ed).
          exists ((n, d') :: l'). split; [|cbn; split; [congruence | auto]]. constructor; auto. split; cbn; eauto.
        - cbn in *. subst d. exists ((n, DNone) :: l'). split; [|cbn; split; [congruence | constructor; auto; now constructor]].
          constructor; auto. split; cbn; auto. }
      destruct (G fs l (fun _ _ H => H) F) as (l' & G1 & G2 & G3). exists (DStruct l'). split; [|now constructor].
      apply struct_iff; eauto.
  - assert (Pt : proper t) by (inversion P as [? X| | | | | | |]; subst; [destruct X | auto]).
    intros v U. destruct (IH Pt v U) as [I1 I2]. split.
    + intros d H. cbn [de] in H. apply obind_done in H as (x & E & [= <-]). constructor; auto.
    + intros d H. inversion H as [| | | | | | | | | |? ? x Rx| | | | | |]; subst. destruct (I2 x Rx) as (x' & E & Ex).
      exists (DNewtype x'). split; [cbn [de]; rewrite E; reflexivity | now constructor].
  - assert (Pt : forall t, In t ts -> read_ok t) by (inversion P as [? X| | | | | | |]; subst; [destruct X | auto]).
    intros v U. split.
    + intros d H. cbn [de] in H. destruct v; try discriminate. apply obind_done in H as (r & H & [= <-]). constructor.
      eapply each_sound; eauto. exact (proj1 (uniq_arr _) U).
    + intros d H. inversion H; subst. match goal with X : reads_each ts ?l ?r |- _ =>
        destruct (each_complete ts Pt (expecting_tuple_struct n (List.length ts)) 0 l r (proj1 (uniq_arr _) U) X) as (r' & E & F) end.
      exists (DTupleStruct r'). split; [|now constructor]. cbn [de]. rewrite E. reflexivity.
  - intros v _. split.
    + intros d H. cbn in H. destruct v; try discriminate. injection H as <-. constructor.
    + intros d H. inversion H; subst. exists DUnitStruct. split; [reflexivity | now constructor].
  - intros v _. split; [discriminate | intros d H; inversion H].
  - intros v U. cbn [de]. rewrite de_value_identity by auto. split.
    + intros d [= <-]. constructor.
    + intros d H. inversion H; subst. exists (DValue v). split; [reflexivity | constructor; apply vequiv_refl].
Qed.

(** ** Failure *)
Lemma obind_fail {A B E} (x : outcome A E) (f : A -> outcome B E) e :
  obind x f = Fail e <-> x = Fail e \/ exists a, x = Done a /\ f a = Fail e.
Proof.
  destruct x as [a|e'|]; cbn; split.
  - intros H. right. eauto.
  - intros [H|(a' & [= <-] & H)]; [discriminate | auto].
  - intros [= ->]. left. reflexivity.
  - intros [[= ->]|(a' & H & _)]; [reflexivity | discriminate].
  - discriminate.
  - intros [H|(a' & H & _)]; discriminate.
Qed.
Lemma of_result_err {A E} (r : result A E) e : of_result r = Fail e <-> r = Err e.
Proof. destruct r; cbn; split; congruence. Qed.

Lemma de_seq_fails {A} (de1 : value -> mres A) l e : de_seq de1 l = Fail e <->
  exists l1 x l2, l = l1 ++ x :: l2 /\ (forall y, In y l1 -> exists d, de1 y = Done d) /\ de1 x = Fail e.
Proof.
  induction l as [|a l IH].
  - cbn. split; [discriminate | intros (l1 & x & l2 & E & _); destruct l1; discriminate].
  - cbn. fold (de_seq de1 l). etransitivity; [apply obind_fail|]. split.
    + intros [H|(d & Hd & H)].
      * exists [], a, l. repeat split; auto. intros y [].
      * apply obind_fail in H as [H|(ds & _ & H)]; [|discriminate]. apply IH in H as (l1 & x & l2 & -> & H1 & H2).
        exists (a :: l1), x, l2. repeat split; auto. intros y [<-|Hy]; eauto.
    + intros (l1 & x & l2 & E & H1 & H2). destruct l1 as [|b l1]; cbn in E; injection E as -> E.
      * auto.
      * right. destruct (H1 b (or_introl eq_refl)) as (d & Hd). exists d. split; auto. apply obind_fail. left. apply IH.
        exists l1, x, l2. repeat split; auto. intros; apply H1; cbn; auto.
Qed.
Lemma de_map_fails {A B} (dek : value -> mres A) (dev : value -> mres B) ins m acc e :
  de_map_loop dek dev ins m acc = Fail e <->
  exists m1 k x m2, m = m1 ++ (k, x) :: m2 /\
    (forall k' x', In (k', x') m1 -> (exists a, dek (VStr k') = Done a) /\ exists b, dev x' = Done b) /\
    (dek (VStr k) = Fail e \/ (exists a, dek (VStr k) = Done a) /\ dev x = Fail e).
Proof.
  revert acc; induction m as [|[k0 x0] m IH]; intros acc.
  - cbn. split; [discriminate | intros (m1 & k & x & m2 & E & _); destruct m1; discriminate].
  - cbn. fold (de_map_loop dek dev ins). etransitivity; [apply obind_fail|]. split.
    + intros [H|(a & Ha & H)]; [|apply obind_fail in H as [H|(b & Hb & H)]].
      * exists [], k0, x0, m. split; [reflexivity|]. split; [intros k' x' []|]. left. exact H.
      * exists [], k0, x0, m. split; [reflexivity|]. split; [intros k' x' []|]. right. eauto.
      * apply IH in H as (m1 & k & x & m2 & -> & H1 & H2). exists ((k0, x0) :: m1), k, x, m2. split; [reflexivity|]. split; auto.
        intros k' x' [[= <- <-]|Hk]; eauto.
    + intros (m1 & k & x & m2 & E & H1 & H2). destruct m1 as [|[k1 x1] m1]; cbn in E; injection E as -> -> E.
      * destruct H2 as [H2|((a & Ha) & H2)]; [auto|]. right. exists a. split; auto. apply obind_fail. auto.
      * destruct (H1 k1 x1 (or_introl eq_refl)) as ((a & Ha) & (b & Hb)). right. exists a. split; auto.
        apply obind_fail. right. exists b. split; auto. apply IH. exists m1, k, x, m2. repeat split; auto; eapply H1; cbn; eauto.
Qed.
Lemma struct_loop_fails fs m acc e : NoDup (map fst m) -> (forall k, In k (map fst m) -> mget k acc = None) ->
  struct_loop fs m acc = Fail e <->
  exists m1 k x m2 f, m = m1 ++ (k, x) :: m2 /\ find_field k fs = Some f /\ fs_de f x = Fail e /\
    (forall k' x' f', In (k', x') m1 -> find_field k' fs = Some f' -> exists d, fs_de f' x' = Done d).
Proof.
  revert acc; induction m as [|[k0 x0] m IH]; intros acc ND HA.
  - cbn. split; [discriminate | intros (m1 & k & x & m2 & f & E & _); destruct m1; discriminate].
  - rewrite struct_loop_step. cbn in ND; inversion ND as [|? ? N1 N2]; subst.
    destruct (find_field k0 fs) as [f0|] eqn:Ef.
    + rewrite (HA k0) by (cbn; auto). etransitivity; [apply obind_fail|]. split.
      * intros [H|(d & Hd & H)].
        -- exists [], k0, x0, m, f0. repeat split; auto. intros k' x' f' [].
        -- apply IH in H as (m1 & k & x & m2 & f & -> & H1 & H2 & H3); auto.
           2:{ intros k Hk. rewrite mget_minsert_neq; [apply HA; cbn; auto | intros ->; auto]. }
           exists ((k0, x0) :: m1), k, x, m2, f. repeat split; auto. intros k' x' f' [[= <- <-]|Hk] Hf; [|eauto].
           rewrite Ef in Hf; injection Hf as <-. eauto.
      * intros (m1 & k & x & m2 & f & E & H1 & H2 & H3). destruct m1 as [|[k1 x1] m1]; cbn in E; injection E as -> -> E.
        -- left. congruence.
        -- right. destruct (H3 k1 x1 f0 (or_introl eq_refl) Ef) as (d & Hd). exists d. split; auto. apply IH; auto.
           { intros k' Hk. rewrite mget_minsert_neq; [apply HA; cbn; auto | intros ->; auto]. }
           exists m1, k, x, m2, f. repeat split; auto. intros; eapply H3; cbn; eauto.
    + rewrite IH; auto; [|intros; apply HA; cbn; auto]. split.
      * intros (m1 & k & x & m2 & f & -> & H1 & H2 & H3). exists ((k0, x0) :: m1), k, x, m2, f. repeat split; auto.
        intros k' x' f' [[= <- <-]|Hk] Hf; [congruence | eauto].
      * intros (m1 & k & x & m2 & f & E & H1 & H2 & H3). destruct m1 as [|[k1 x1] m1]; cbn in E; injection E as -> -> E; [congruence|].
        exists m1, k, x, m2, f. repeat split; auto. intros; eapply H3; cbn; eauto.
Qed.
Lemma collect_fails fs slots e : collect_fields fs slots = Fail e <->
  exists f1 f f2, fs = f1 ++ f :: f2 /\ mget (fs_name f) slots = None /\ fs_optional f = false /\
    e = EDeserialization (lit "missing field `" ++ fs_name f ++ lit "`") /\
    (forall g, In g f1 -> mget (fs_name g) slots <> None \/ fs_optional g = true).
Proof.
  induction fs as [|a fs IH].
  - cbn. split; [discriminate | intros (l1 & x & l2 & E & _); destruct l1; discriminate].
  - cbn [collect_fields]. etransitivity; [apply obind_fail|]. split.
    + intros [H|(d & Hd & H)].
      * destruct (mget (fs_name a) slots) eqn:Em; [discriminate|]. destruct (fs_optional a) eqn:Eo; [discriminate|].
        unfold de_fail in H. injection H as <-. exists [], a, fs. split; [reflexivity|]. split; [exact Em|]. split; [exact Eo|]. split; [reflexivity|]. intros g [].
      * apply obind_fail in H as [H|(ds & _ & H)]; [|discriminate]. apply IH in H as (f1 & f & f2 & -> & H1 & H2 & H3 & H4).
        exists (a :: f1), f, f2. repeat split; auto. intros g [<-|Hg]; auto.
        destruct (mget (fs_name a) slots); [left; discriminate|]. destruct (fs_optional a); [auto | discriminate].
    + intros (f1 & f & f2 & E & H1 & H2 & H3 & H4). destruct f1 as [|b f1]; cbn in E; injection E as -> E.
      * left. rewrite H1, H2. unfold de_fail. now rewrite H3.
      * right. destruct (H4 b (or_introl eq_refl)) as [Hb|Hb].
        -- destruct (mget (fs_name b) slots) as [d|]; [|congruence]. exists d. split; auto. apply obind_fail. left. apply IH.
           exists f1, f, f2. repeat split; auto. intros; apply H4; cbn; auto.
        -- assert (HD : exists d, match mget (fs_name b) slots with Some d => Done d
              | None => if fs_optional b then Done DNone else de_fail (lit "missing field `" ++ fs_name b ++ lit "`") end = Done d).
           { destruct (mget (fs_name b) slots); [eauto | rewrite Hb; eauto]. }
           destruct HD as (d & HD). exists d. split; auto. apply obind_fail. left. apply IH.
           exists f1, f, f2. repeat split; auto. intros; apply H4; cbn; auto.
Qed.

Definition refuse_ok (t : ty) : Prop := forall v e, uniq v -> (de t v = Fail e <-> refuses t v e).

Lemma scalar_refuses {A} t (conv : value -> result A model_error) (mk : A -> data) :
  (forall v, de t v = obind (of_result (conv v)) (fun a => Done (mk a))) ->
  (forall v e, refuses t v e <-> conv v = Err e) -> refuse_ok t.
Proof.
  intros E R v e _. rewrite E, R, <- of_result_err. etransitivity; [apply obind_fail|]. split; [intros [H|(a & _ & H)]; [auto | discriminate] | auto].
Qed.
Lemma read_iff t v : proper t -> uniq v -> ((exists d, de t v = Done d) <-> exists d, reads_as t v d).
Proof.
  intros P U. destruct (de_reads t P v U) as [R1 R2]. split; intros (d & H); [eauto|]. destruct (R2 d H) as (d' & H' & _). eauto.
Qed.
Lemma each_refuses ts : (forall t, In t ts -> proper t) -> (forall t, In t ts -> refuse_ok t) ->
  forall what i l e, (forall x, In x l -> uniq x) ->
  (de_tuple what i (map (fun t => de t) ts) l = Fail e <-> refuses_each what i ts l e).
Proof.
  induction ts as [|t ts IH]; intros Pr O what i l e U; cbn [de_tuple map].
  - split; [discriminate | intros H; inversion H].
  - destruct l as [|x l].
    + unfold de_fail. split.
      * intros [= <-]. apply FeShort, print_int_canonical.
      * intros H; inversion H; subst. match goal with X : canonical _ _ |- _ => rewrite (canonical_print _ _ X) end. reflexivity.
    + etransitivity; [apply obind_fail|]. assert (Ux : uniq x) by (apply U; cbn; auto).
      assert (I : forall e, de_tuple what (S i) (map (fun t => de t) ts) l = Fail e <-> refuses_each what (S i) ts l e)
        by (intros; apply IH; [intros; apply Pr; cbn; auto | intros; apply O; cbn; auto | intros; apply U; cbn; auto]).
      split.
      * intros [H|(d & Hd & H)]; [apply FeHere, (O t (or_introl eq_refl) x e Ux), H|].
        apply obind_fail in H as [H|(ds & _ & H)]; [|discriminate]. apply FeLater with d; [|now apply I].
        apply (de_reads t (Pr t (or_introl eq_refl)) x Ux), Hd.
      * intros H; inversion H; subst; [left; now apply (O t (or_introl eq_refl) x e Ux)|]. right.
        match goal with X : reads_as t x ?d |- _ => destruct (proj2 (de_reads t (Pr t (or_introl eq_refl)) x Ux) d X) as (d' & -> & _) end.
        exists d'. split; auto. apply obind_fail. left. now apply I.
Qed.

Lemma kind_refuses t v kind e : de t v = Fail (EDeserialization (lit "Can't deserialize " ++ v_display v ++ lit " to " ++ kind)) ->
  wrong_kind t v kind -> (forall e, refuses t v e -> exists k, wrong_kind t v k /\ e = EDeserialization (lit "Can't deserialize " ++ v_display v ++ lit " to " ++ k)) ->
  (forall k, wrong_kind t v k -> k = kind) -> (de t v = Fail e <-> refuses t v e).
Proof.
  intros D W R U. rewrite D. split.
  - intros [= <-]. now apply RfKind.
  - intros H. destruct (R e H) as (k & Wk & ->). now rewrite (U k Wk).
Qed.

Lemma struct_refuses fs : NoDup (map fst fs) -> (forall n t, In (n, t) fs -> proper t) ->
  (forall n t, In (n, t) fs -> refuse_ok t) -> refuse_ok (TStruct fs).
Proof.
  intros NF P O v e U. destruct (mapv_dec v) as [(m & ->)|M].
  2:{ apply kind_refuses with (lit "Map").
      - destruct v; try reflexivity. destruct M; eexists; reflexivity.
      - now constructor.
      - intros e' H. inversion H; subst; eauto; destruct M; eexists; reflexivity.
      - intros k H. now inversion H. }
  apply uniq_map in U as [NM Ux]. cbn [de]. fold (slots_of fs). unfold de_struct.
  change (de_struct_loop (slots_of fs) m) with (struct_loop (slots_of fs) m []).
  etransitivity; [apply obind_fail|].
  rewrite (struct_loop_fails (slots_of fs) m [] e NM (fun _ _ => eq_refl)).
  assert (RD : forall n x t, In (n, x) m -> In (n, t) fs -> (exists d, de t x = Done d) <-> exists d, reads_as t x d).
  { intros n x t Hx Ht. apply read_iff; eauto. }
  split.
  - intros [(m1 & k & x & m2 & f & -> & Hf & He & Hb)|(slots & Hs & H)].
    + apply find_field_some in Hf as (t & Ht & ->). cbn in He. apply RfField with t; auto.
      * intros n' x' t' Hx' Ht'. apply (RD n'); [apply in_or_app; auto | auto |].
        pose proof (Hb n' x' _ Hx' (find_field_in fs n' t' NF Ht')) as (d & Hd). eauto.
      * apply (O k t Ht x e); [|exact He]. apply (Ux k x). apply in_or_app; cbn; auto.
    + apply obind_fail in H as [H|(ds & _ & H)]; [|discriminate].
      apply collect_fails in H as (f1 & f & f2 & E & H1 & H2 & -> & H4).
      unfold slots_of in E. apply map_eq_app in E as (g1 & g2 & -> & E1 & E). apply map_eq_cons in E as ([n t] & g2' & -> & <- & <-).
      subst f1. cbn in H1, H2. pose proof (struct_loop_inv _ _ _ _ NM Hs) as SL. cbn [fst snd fs_name].
      assert (SN : forall n' t', In (n', t') (g1 ++ (n, t) :: g2') -> (mget n' slots = None <-> mget n' m = None)).
      { intros n' t' Ht. destruct (SL n') as [S1 S2]. rewrite (find_field_in _ n' t' NF Ht) in S1, S2.
        destruct (mget n' m) as [x|]; [|rewrite S1; cbn; tauto]. destruct (S2 x _ eq_refl eq_refl) as (d & Hd).
        rewrite Hd in S1. rewrite S1. split; discriminate. }
      apply RfMissing.
      * intros n' x' t' Hx' Ht'. apply (RD n'); auto. destruct (SL n') as [_ S2].
        apply (S2 x' _ (In_mget _ _ _ NM Hx') (find_field_in _ _ _ NF Ht')).
      * intros n' t' Ht'. assert (Hf : In (n', t') (g1 ++ (n, t) :: g2')) by (apply in_or_app; auto).
        specialize (H4 _ (in_map (fun p => {| fs_name := fst p; fs_optional := is_option (snd p); fs_de := de (snd p) |}) _ _ Ht')).
        cbn in H4. destruct H4 as [H4|H4]; [left | right; now apply is_option_iff].
        rewrite (SN n' t' Hf) in H4. destruct (mget n' m) as [x|] eqn:Ex; [|congruence]. exists x. apply holds_map, mget_In, Ex.
      * intros x Hx. apply holds_map in Hx. apply (SN n t) in H1; [|apply in_or_app; cbn; auto].
        rewrite (In_mget _ _ _ NM Hx) in H1. discriminate.
      * intros u ->. discriminate.
  - intros H. inversion H as [| | | | | | |? ? ? K| | | | | | | |? m1 n x m2 t ? Hb Ht Hr|f1 n t f2 ? Hr Hb Hl Ho]; subst.
    + inversion K; subst. match goal with X : ~ mapv _ |- _ => destruct X; eexists; reflexivity end.
    + left. exists m1, n, x, m2. eexists. split; [reflexivity|]. split; [exact (find_field_in fs n t NF Ht)|]. cbn. split.
      * apply (O n t Ht x e); [|exact Hr]. apply (Ux n x). apply in_or_app; cbn; auto.
      * intros k' x' f' Hx' Hf'. apply find_field_some in Hf' as (t' & Ht' & ->). cbn. apply (RD k'); eauto. apply in_or_app; auto.
    + right. destruct (struct_loop_ok (slots_of (f1 ++ (n, t) :: f2)) m [] NM (fun _ _ => eq_refl)) as [slots Hs].
      { intros k x f Hx Hf. apply find_field_some in Hf as (t' & Ht' & ->). cbn. apply (RD k); eauto. }
      exists slots. split; [exact Hs|]. apply obind_fail. left. apply collect_fails.
      pose proof (struct_loop_inv _ _ _ _ NM Hs) as SL.
      unfold slots_of. rewrite map_app. cbn [map]. eexists _, _, _. split; [reflexivity|]. cbn.
      split; [|split; [|split; [reflexivity|]]].
      * destruct (SL n) as [S1 _]. destruct (mget n m) as [x|] eqn:Ex; [|exact S1].
        destruct (Hl x). apply holds_map, mget_In, Ex.
      * destruct (is_option t) eqn:Eo; [|reflexivity]. apply is_option_iff in Eo as (u & ->). now destruct (Ho u).
      * intros g Hg. apply in_map_iff in Hg as ([n' t'] & <- & Hg). cbn.
        destruct (Hb n' t' Hg) as [(x & Hx)|Hx]; [left | right; now apply is_option_iff].
        apply holds_map in Hx. destruct (SL n') as [S1 S2]. rewrite (In_mget _ _ _ NM Hx) in S1, S2.
        assert (Hf : In (n', t') (f1 ++ (n, t) :: f2)) by (apply in_or_app; auto).
        rewrite (find_field_in _ _ _ NF Hf) in S1, S2. destruct (S2 x _ eq_refl eq_refl) as (d & Hd). rewrite Hd in S1. congruence.
Qed.

Ltac wrong_kind_case K := apply kind_refuses with (lit K);
  [ reflexivity | constructor; (discriminate || intros (? & E0); discriminate)
  | let e' := fresh in let H := fresh in intros e' H; inversion H; subst; eauto
  | let k := fresh in let H := fresh in intros k H; now inversion H ].

Theorem de_refuses t : proper t -> refuse_ok t.
Proof.
  induction t as [|i| | | | | | |t IH|t IH|ts IH|tk tv IHk IHv|fs IH|t IH|n ts IH| | |] using ty_ind'; intros P.
  - apply (scalar_refuses TBool into_bool DBool); [reflexivity|]. intros v e. split; [intros H; inversion H as [| | | | | | |? ? ? K| | | | | | | | |]; subst; auto; inversion K | apply RfBool].
  - intros v e U. cbn [de]. destruct (wide_dec i) as [W|W].
    + assert (D : de_int i v = Fail (EDeserialization (type_name i ++ lit " is not supported"))) by (destruct i; cbn in W; try tauto; reflexivity).
      rewrite D. split.
      * intros [= <-]. now apply RfWide.
      * intros H; inversion H as [| | | | | | |? ? ? K| | | | | | | | |]; subst; try contradiction; [reflexivity | inversion K].
    + assert (D : de_int i v = obind (of_result (into_int i v)) (fun z => Done (DInt i z))) by (destruct i; cbn in W; try tauto; reflexivity).
      rewrite D. etransitivity; [apply obind_fail|]. rewrite of_result_err. split.
      * intros [H|(a & _ & H)]; [now apply RfInt | discriminate].
      * intros H; inversion H as [| | | | | | |? ? ? K| | | | | | | | |]; subst; [auto | contradiction | inversion K].
  - apply (scalar_refuses TF32 into_f64 (fun f => DF32 (f64_to_f32 f))); [reflexivity|]. intros v e. split; [intros H; inversion H as [| | | | | | |? ? ? K| | | | | | | | |]; subst; auto; inversion K | apply RfF32].
  - apply (scalar_refuses TF64 into_f64 DF64); [reflexivity|]. intros v e. split; [intros H; inversion H as [| | | | | | |? ? ? K| | | | | | | | |]; subst; auto; inversion K | apply RfF64].
  - apply (scalar_refuses TChar into_char DChar); [reflexivity|]. intros v e. split; [intros H; inversion H as [| | | | | | |? ? ? K| | | | | | | | |]; subst; auto; inversion K | apply RfChar].
  - apply (scalar_refuses TString into_string DStr); [reflexivity|]. intros v e. split; [intros H; inversion H as [| | | | | | |? ? ? K| | | | | | | | |]; subst; auto; inversion K | apply RfString].
  - intros v e _. cbn. split; [discriminate | intros H; inversion H as [| | | | | | |? ? ? K| | | | | | | | |]; subst; inversion K].
  - intros v e _. destruct v; try (wrong_kind_case "None"%string). cbn. split; [discriminate|].
    intros H; inversion H as [| | | | | | |? ? ? K| | | | | | | | |]; subst; inversion K; congruence.
  - assert (Pt : proper t) by (inversion P as [? X| | | | | | |]; subst; [destruct X | auto]).
    intros v e U. specialize (IH Pt v e U).
    assert (NV : v = VNone \/ v <> VNone) by (destruct v; auto; right; discriminate). destruct NV as [->|NV].
    + cbn. split; [discriminate|]. intros H; inversion H as [| | | | | | |? ? ? K| | | | | | | | |]; subst; [inversion K | congruence].
    + assert (D : de (TOption t) v = obind (de t v) (fun d => Done (DSome d))) by (destruct v; congruence || reflexivity).
      rewrite D. etransitivity; [apply obind_fail|]. rewrite IH. split.
      * intros [H|(d & _ & H)]; [now apply RfSome | discriminate].
      * intros H; inversion H as [| | | | | | |? ? ? K| | | | | | | | |]; subst; [inversion K | auto].
  - assert (Pt : proper t) by (inversion P as [? X| | | | | | |]; subst; [destruct X | auto]). specialize (IH Pt).
    intros v e U. destruct v; try (wrong_kind_case "Array"%string). pose proof (proj1 (uniq_arr _) U) as Ul.
    cbn [de]. etransitivity; [apply obind_fail|]. split.
    + intros [H|(d & _ & H)]; [|discriminate]. apply de_seq_fails in H as (l1 & x & l2 & -> & H1 & H2). apply RfSeq.
      * intros y Hy. apply read_iff; auto. apply Ul, in_or_app; auto.
      * apply IH; auto. apply Ul, in_or_app; cbn; auto.
    + intros H; inversion H as [| | | | | | |? ? ? K| | |? l1 x l2 ? H1 H2| | | | | |]; subst.
      * inversion K; subst. match goal with X : ~ arrayv _ |- _ => destruct X; eexists; reflexivity end.
      * left. apply de_seq_fails. exists l1, x, l2. split; [reflexivity|]. split.
        -- intros y Hy. apply read_iff; auto. apply Ul, in_or_app; auto.
        -- apply IH; auto. apply Ul, in_or_app; cbn; auto.
  - assert (Pt : forall t, In t ts -> proper t) by (inversion P as [? X| | | | | | |]; subst; [destruct X | auto]).
    intros v e U. destruct v; try (wrong_kind_case "Array"%string). pose proof (proj1 (uniq_arr _) U) as Ul.
    cbn [de]. etransitivity; [apply obind_fail|]. pose proof (fun w i => each_refuses ts Pt (fun t Ht => IH t Ht (Pt t Ht)) w i l e Ul) as ER. split.
    + intros [H|(d & _ & H)]; [|discriminate]. apply ER in H. apply RfTuple with (expecting_tuple (List.length ts)); auto.
      apply CtTuple, print_int_canonical.
    + intros H; inversion H as [| | | | | | |? ? ? K| | | |? ? what ? C H1| | | | |]; subst.
      * inversion K; subst. match goal with X : ~ arrayv _ |- _ => destruct X; eexists; reflexivity end.
      * inversion C as [? s Cs]; subst. rewrite (canonical_print _ _ Cs) in H1. left. apply ER. exact H1.
  - assert (K : key_type tk /\ proper tv) by (inversion P as [? X| | | | | | |]; subst; [destruct X | auto]). destruct K as [K Pv].
    specialize (IHk (key_proper _ K)). specialize (IHv Pv).
    intros v e U. destruct v; try (wrong_kind_case "Map"%string). apply uniq_map in U as [_ Ux].
    assert (KR : forall k, (exists a, de tk (VStr k) = Done a) <-> exists a, reads_as tk (VStr k) a)
      by (intros k; split; intros (a & Ha); exists a; now apply (key_reads tk k a K)).
    assert (VR : forall k x, In (k, x) m -> (exists a, de tv x = Done a) <-> exists a, reads_as tv x a)
      by (intros k x Hx; apply read_iff; eauto).
    cbn [de]. change (@de_map data data (de tk) (de tv) dinsert m) with (de_map_loop (de tk) (de tv) dinsert m []).
    etransitivity; [apply obind_fail|]. split.
    + intros [H|(d & _ & H)]; [|discriminate]. apply de_map_fails in H as (m1 & k & x & m2 & -> & H1 & H2).
      assert (H1' : forall k' x', In (k', x') m1 -> (exists a, reads_as tk (VStr k') a) /\ exists b, reads_as tv x' b).
      { intros k' x' Hx. destruct (H1 k' x' Hx). split; [now apply KR | apply (VR k'); auto; apply in_or_app; auto]. }
      destruct H2 as [H2|[H2 H3]].
      * apply RfMapKey; auto. apply IHk; auto. apply UScalar. cbn; auto.
      * apply RfMapValue; auto; [now apply KR | apply IHv; auto]. apply (Ux k x), in_or_app; cbn; auto.
    + intros H; inversion H as [| | | | | | |? ? ? KK| | | | | |? ? m1 k x m2 ? H1 H2|? ? m1 k x m2 ? H1 H2 H3| |]; subst.
      * inversion KK; subst. match goal with X : ~ mapv _ |- _ => destruct X; eexists; reflexivity end.
      * left. apply de_map_fails. exists m1, k, x, m2. split; [reflexivity|]. split.
        -- intros k' x' Hx. destruct (H1 k' x' Hx). split; [now apply KR | apply (VR k'); auto; apply in_or_app; auto].
        -- left. apply IHk; auto. apply UScalar. cbn; auto.
      * left. apply de_map_fails. exists m1, k, x, m2. split; [reflexivity|]. split.
        -- intros k' x' Hx. destruct (H1 k' x' Hx). split; [now apply KR | apply (VR k'); auto; apply in_or_app; auto].
        -- right. split; [now apply KR|]. apply IHv; auto. apply (Ux k x), in_or_app; cbn; auto.
  - assert (K : NoDup (map fst fs) /\ forall n t, In (n, t) fs -> proper t) by (inversion P as [? X| | | | | | |]; subst; [destruct X | auto]).
    destruct K as [ND Pf]. apply struct_refuses; auto. intros n t Ht. apply (IH n t Ht); eauto.
  - assert (Pt : proper t) by (inversion P as [? X| | | | | | |]; subst; [destruct X | auto]).
    intros v e U. specialize (IH Pt v e U). cbn [de]. etransitivity; [apply obind_fail|]. rewrite IH. split.
    + intros [H|(d & _ & H)]; [now apply RfNewtype | discriminate].
    + intros H; inversion H as [| | | | | | |? ? ? K| | | | | | | | |]; subst; [inversion K | auto].
  - assert (Pt : forall t, In t ts -> proper t) by (inversion P as [? X| | | | | | |]; subst; [destruct X | auto]).
    intros v e U. destruct v; try (wrong_kind_case "Array"%string). pose proof (proj1 (uniq_arr _) U) as Ul.
    cbn [de]. etransitivity; [apply obind_fail|]. pose proof (fun w i => each_refuses ts Pt (fun t Ht => IH t Ht (Pt t Ht)) w i l e Ul) as ER. split.
    + intros [H|(d & _ & H)]; [|discriminate]. apply ER in H. apply RfTupleStruct with (expecting_tuple_struct n (List.length ts)); auto.
      unfold expecting_tuple_struct. destruct (Nat.eqb_spec (List.length ts) 1) as [E|E].
      * rewrite E. apply CtOne, print_int_canonical.
      * apply CtMany; auto. apply print_int_canonical.
    + intros H; inversion H as [| | | | | | |? ? ? K| | | | |? ? ? what ? C H1| | | |]; subst.
      * inversion K; subst. match goal with X : ~ arrayv _ |- _ => destruct X; eexists; reflexivity end.
      * left. apply ER. unfold expecting_tuple_struct. inversion C as [s Cs E1 E2|? s N Cs E1 E2]; subst; rewrite (canonical_print _ _ Cs) in H1.
        -- destruct (Nat.eqb_spec 1 1) as [_|N]; [exact H1 | congruence].
        -- destruct (Nat.eqb_spec (List.length ts) 1) as [E|_]; [congruence | exact H1].
  - intros v e _. destruct v; try (wrong_kind_case "None"%string). cbn. split; [discriminate|].
    intros H; inversion H as [| | | | | | |? ? ? K| | | | | | | | |]; subst; inversion K; congruence.
  - intros v e _. cbn. split; [discriminate | intros H; inversion H as [| | | | | | |? ? ? K| | | | | | | | |]; subst; inversion K].
  - intros v e U. cbn [de]. rewrite de_value_identity by auto. split; [discriminate|].
    intros H; inversion H as [| | | | | | |? ? ? K| | | | | | | | |]; subst; inversion K.
Qed.
