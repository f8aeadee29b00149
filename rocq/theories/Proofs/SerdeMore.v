(** More on deserialisation: panics, enums, order independence, the access
    protocol (C58, C59, C62, C64, C65, C67). *)
From Coq Require Import ZArith Bool String Lia List Permutation.
Import ListNotations.
From Verif.Model Require Import Text Num Flt Value Convert Serde.
From Verif.Spec Require Import Spec Numerals SerdeSpec.
From Verif.Proofs Require Import Basics Conversions SerProofs DeProofs RoundTrip.
Open Scope Z_scope.

Lemma obind_no_panic {A B E} (x : outcome A E) (f : A -> outcome B E) :
  x <> Panic -> (forall a, f a <> Panic) -> obind x f <> Panic.
Proof. destruct x; cbn; auto; congruence. Qed.
Lemma of_result_no_panic {A E} (r : result A E) : of_result r <> Panic.
Proof. destruct r; discriminate. Qed.

(** ** C59 *)
Lemma de_value_no_panic v : de_value v <> Panic.
Proof.
  induction v as [v S|l IH|m IH] using value_ind'.
  - destruct v; cbn in S; try tauto; discriminate.
  - cbn [de_value]. apply obind_no_panic; [now apply de_seq_no_panic | discriminate].
  - cbn [de_value]. apply obind_no_panic; [|discriminate]. apply de_map_no_panic; [discriminate | exact IH].
Qed.

Lemma de_no_panic t : no_enum t -> forall v, de t v <> Panic.
Proof.
  induction t as [ |t| | | | | | |t IH|t IH|ts IH|k v IHk IHv|fs IH|t IH|n ts IH| | | ] using ty_ind';
    intros N w; inversion N; subst; cbn [de].
  - apply obind_no_panic; [apply of_result_no_panic | discriminate].
  - destruct t; cbn; try discriminate; (apply obind_no_panic; [apply of_result_no_panic | discriminate]).
  - apply obind_no_panic; [apply of_result_no_panic | discriminate].
  - apply obind_no_panic; [apply of_result_no_panic | discriminate].
  - apply obind_no_panic; [apply of_result_no_panic | discriminate].
  - apply obind_no_panic; [apply of_result_no_panic | discriminate].
  - destruct w; discriminate.
  - destruct w; try discriminate; (apply obind_no_panic; [now apply IH | discriminate]).
  - destruct w; try discriminate. apply obind_no_panic; [|discriminate]. apply de_seq_no_panic; auto.
  - destruct w; try discriminate. apply obind_no_panic; [|discriminate]. apply de_tuple_no_panic.
    intros f x Hf. apply in_map_iff in Hf as (t & <- & Ht). auto.
  - destruct w; try discriminate. apply obind_no_panic; [|discriminate]. apply de_map_no_panic; auto.
  - destruct w; try discriminate. fold (slots_of fs). unfold de_struct.
    change (de_struct_loop (slots_of fs) m) with (struct_loop (slots_of fs) m []).
    apply obind_no_panic; [|intros; apply obind_no_panic; [apply collect_no_panic | discriminate]].
    apply struct_loop_no_panic. intros f x Hf. apply in_map_iff in Hf as ([n t] & <- & Ht). cbn. eauto.
  - apply obind_no_panic; [now apply IH | discriminate].
  - destruct w; try discriminate. apply obind_no_panic; [|discriminate]. apply de_tuple_no_panic.
    intros f x Hf. apply in_map_iff in Hf as (t & <- & Ht). auto.
  - destruct w; discriminate.
  - apply obind_no_panic; [apply de_value_no_panic | discriminate].
Qed.

(** ** C58 *)
Lemma enum_ser_not_none d v : enum_datum d -> ser d = Done v -> v <> VNone.
Proof.
  intros E; inversion E; subst; cbn; intros H.
  - injection H as <-; discriminate.
  - apply obind_done in H as (x & _ & H). cbn in H; injection H as <-; discriminate.
  - apply obind_done in H as (x & _ & H). cbn in H; injection H as <-; discriminate.
  - apply obind_done in H as (x & _ & H). cbn in H; injection H as <-; discriminate.
Qed.
Lemma has_enum_not_none d v : has_enum d -> ser d = Done v -> v <> VNone.
Proof.
  intros E; revert v; induction E; intros v E'; cbn [ser] in E'.
  - eapply enum_ser_not_none; eauto.
  - eauto.
  - apply ser_seq_inv in E' as (vs & _ & ->). discriminate.
  - apply ser_seq_inv in E' as (vs & _ & ->). discriminate.
  - apply ser_map_entries_inv in E' as (_ & m' & ->). discriminate.
  - apply ser_fields_inv in E' as (_ & m' & -> & _). discriminate.
  - eauto.
  - apply ser_seq_inv in E' as (vs & _ & ->). discriminate.
Qed.

(** Every field of a struct is looked at. *)
Lemma ser_fields_holds {A} (ser1 : A -> mres value) l acc r : NoDup (map fst l) ->
  ser_fields ser1 (VMap acc) l = Done (VMap r) ->
  (forall n d, In (n, d) l -> exists x, ser1 d = Done x /\ mget n r = Some x) /\
  (forall n, ~ In n (map fst l) -> mget n r = mget n acc).
Proof.
  revert acc; induction l as [|[n d] l IH]; intros acc ND E.
  - cbn in E. injection E as <-. split; [cbn; tauto | auto].
  - cbn in ND; inversion ND as [|? ? N1 N2]; subst. cbn in E. apply obind_done in E as (x & Ex & E). cbn in E.
    destruct (IH (minsert n x acc) N2 E) as [I1 I2]. split.
    + intros n' d' [[= <- <-]|H]; auto. exists x; split; auto. rewrite I2 by auto. apply mget_minsert_eq.
    + intros n' Hn. cbn in Hn. rewrite I2 by tauto. apply mget_minsert_neq. intros ->; tauto.
Qed.

Lemma nth_error_Forall2 {A B} (R : A -> B -> Prop) l r i a b : Forall2 R l r ->
  nth_error l i = Some a -> nth_error r i = Some b -> R a b.
Proof. intros F; revert i; induction F; intros [|i]; cbn; try discriminate; [congruence | eauto]. Qed.
Lemma nth_error_Forall2_l {A B} (R : A -> B -> Prop) l r i a : Forall2 R l r ->
  nth_error l i = Some a -> exists b, nth_error r i = Some b /\ R a b.
Proof. intros F; revert i; induction F; intros [|i]; cbn; try discriminate; [intros [= <-]; eauto | eauto]. Qed.
Lemma nth_error_Forall2_r {A B} (R : A -> B -> Prop) l r i b : Forall2 R l r ->
  nth_error r i = Some b -> exists a, nth_error l i = Some a /\ R a b.
Proof. intros F; revert i; induction F; intros [|i]; cbn; try discriminate; [intros [= <-]; eauto | eauto]. Qed.

Lemma tuple_enum ts l expecting vs :
  (forall t, In t ts -> forall d, has_type t d -> has_enum d -> forall v, ser d = Done v -> forall d', de t v <> Done d') ->
  Forall2 has_type ts l -> (exists d, In d l /\ has_enum d) ->
  ser_seq ser new_array l = Done (VArr vs) ->
  forall ds, de_tuple expecting 0 (map (fun t => de t) ts) vs <> Done ds.
Proof.
  intros IH F (d & Hd & He) E ds D. apply (ser_seq_inv ser l []) in E as (vs' & Fv & E). cbn in E. injection E as <-.
  apply de_tuple_types in D as (l1 & l2 & -> & L1 & L2 & D).
  apply In_nth_error in Hd as [i Hi].
  destruct (nth_error_Forall2_r _ _ _ _ _ F Hi) as (t & Ht & Td).
  destruct (nth_error_Forall2_l _ _ _ _ _ Fv Hi) as (v & Hv & Ev).
  assert (L : (i < List.length l1)%nat) by (rewrite L1; apply nth_error_Some; congruence).
  rewrite nth_error_app1 in Hv by auto. destruct (D i t v Ht Hv) as (d' & _ & Dd).
  eapply IH; eauto. eapply nth_error_In; eauto.
Qed.

Lemma enum_never_survives t : distinct_fields t -> forall d, has_type t d -> has_enum d ->
  forall v, ser d = Done v -> forall d', de t v <> Done d'.
Proof.
  induction t as [ |t| | | | | | |t IH|t IH|ts IH|k tv IHk IHv|fs IH|t IH|n ts IH| | | ] using ty_ind';
    intros DF d H He v E d'; inversion H; subst; try (inversion He; subst; match goal with X : enum_datum _ |- _ => inversion X end; fail).
  - inversion DF as [? X| | | | | | |]; subst; [destruct X|].
    assert (He' : has_enum d0) by (inversion He; subst; [match goal with X : enum_datum _ |- _ => inversion X end | auto]).
    pose proof (has_enum_not_none _ _ He E) as N. cbn [ser] in E.
    cbn [de]. intros D. destruct v; try congruence; apply obind_done in D as (x & D & _); eapply IH; eauto.
  - inversion DF as [? X| | | | | | |]; subst; [destruct X|].
    cbn [ser] in E. apply (ser_seq_inv ser l []) in E as (vs & F & ->). cbn [app de].
    intros D. apply obind_done in D as (ds & D & _). apply de_seq_done in D.
    inversion He as [? X|?|? d1 Hd1 He1| | | | |]; subst; [inversion X|].
    destruct (Forall2_in_l _ _ _ _ F Hd1) as (v1 & Hv1 & E1).
    destruct (Forall2_in_l _ _ _ _ D Hv1) as (d2 & _ & E2). eapply IH; eauto.
  - inversion DF as [? X| | | | | | |]; subst; [destruct X|].
    cbn [ser] in E. pose proof E as E0. apply (ser_seq_inv ser l []) in E0 as (vs & _ & ->). cbn [app] in *. cbn [de].
    intros D. apply obind_done in D as (ds & D & _).
    inversion He as [? X|?|?|? d1 Hd1 He1| | | |]; subst; [inversion X|].
    eapply tuple_enum; eauto.
  - inversion DF as [? X| | | | | | |]; subst; [destruct X|].
    destruct (ser_map_stored k tv m v H E) as (S1 & _ & _).
    inversion He as [? X|?|?|?|? a b Hab He1| | |]; subst; [inversion X|].
    destruct (S1 a b Hab) as (s & x & _ & Ex & (m' & -> & Hin)). cbn [de]. intros D.
    apply obind_done in D as (es & D & _).
    change (de_map_loop (de k) (de tv) dinsert m' [] = Done es) in D. apply de_map_fold in D as (ps & F & _).
    destruct (Forall2_in_l _ _ _ _ F Hin) as ([a' b'] & _ & _ & Eb).
    eapply IHv; eauto. match goal with T : forall a b, In (a, b) m -> _ |- _ => apply (T a b Hab) end.
  - inversion DF as [? X| | | | |? ND DF'| |]; subst; [destruct X|].
    inversion He as [? X|?|?|?|?|? n d1 Hd1 He1| |]; subst; [inversion X|].
    cbn [ser] in E. pose proof E as E0. apply ser_fields_inv in E0 as (_ & m & -> & NM).
    match goal with A : map fst fs = map fst ds |- _ => rename A into En end.
    match goal with A : Forall2 has_type (map snd fs) (map snd ds) |- _ => rename A into FT end.
    assert (NDs : NoDup (map fst ds)) by (rewrite <- En; auto).
    destruct (ser_fields_holds ser ds [] m NDs E) as [Hh _]. destruct (Hh n d1 Hd1) as (x & Ex & Hx).
    intros D. apply de_struct_done in D as (l & _ & F); auto; [|apply NM; constructor].
    assert (exists t, In (n, t) fs /\ has_type t d1) as (t & Ht & Td).
    { clear - En FT Hd1. revert ds En FT Hd1. induction fs as [|[n0 t0] fs IHf]; intros [|[n1 d0] ds] En FT Hd1; cbn in *; try discriminate; [tauto|].
      injection En as -> En. inversion FT; subst. destruct Hd1 as [[= -> ->]|Hd1]; eauto.
      edestruct IHf as (t & ? & ?); eauto. }
    destruct (Forall2_in_l _ _ _ _ F Ht) as ([n' d2] & _ & E1 & [(y & Hy & Dy)|(Nn & _)]); cbn in *.
    + apply In_mget in Hy; [|apply NM; constructor]. assert (y = x) by congruence; subst y. eapply IH; eauto.
    + apply (Nn x). now apply mget_In.
  - inversion DF as [? X| | | | | | |]; subst; [destruct X|].
    assert (He' : has_enum d0) by (inversion He; subst; [match goal with X : enum_datum _ |- _ => inversion X end | auto]).
    cbn [ser] in E. cbn [de]. intros D. apply obind_done in D as (x & D & _); eapply IH; eauto.
  - inversion DF as [? X| | | | | | |]; subst; [destruct X|].
    cbn [ser] in E. pose proof E as E0. apply (ser_seq_inv ser l []) in E0 as (vs & _ & ->). cbn [app] in *. cbn [de].
    intros D. apply obind_done in D as (ds & D & _).
    inversion He as [? X|?|?|?|?|?|?|? d1 Hd1 He1]; subst; [inversion X|].
    eapply tuple_enum; eauto.
  - cbn [de]. discriminate.
Qed.

(** ** C65: the order in which maps are listed does not matter *)
Lemma text_key_round t s d : text_key t -> de t (VStr s) = Done d ->
  forall s' d', de t (VStr s') = Done d' -> (key_eqb d d' = true <-> s = s') /\ (d = d' <-> s = s').
Proof.
  intros K; revert d; induction K as [|t K IH]; intros d E s' d' E'; cbn in E, E'.
  - injection E as <-; injection E' as <-. cbn. split; [apply str_eqb_eq | split; congruence].
  - apply obind_done in E as (x & E & [= <-]). apply obind_done in E' as (y & E' & [= <-]). cbn.
    destruct (IH x E s' y E') as [A B]. split; auto. rewrite <- B. split; congruence.
Qed.
Lemma text_key_done t s : text_key t -> exists d, de t (VStr s) = Done d.
Proof. induction 1 as [|t K [d E]]; cbn; [eauto | rewrite E; cbn; eauto]. Qed.

Lemma de_text_map k v m ds : text_key k -> NoDup (map fst m) ->
  de (TMap k v) (VMap m) = Done ds <->
  exists es, ds = DMap es /\ Forall2 (fun e p => de k (VStr (fst e)) = Done (fst p) /\ de v (snd e) = Done (snd p)) m es.
Proof.
  intros K ND. cbn [de]. change (de_map (de k) (de v) dinsert m) with (de_map_loop (de k) (de v) dinsert m []).
  assert (Fold : forall ps, Forall2 (fun e p => de k (VStr (fst e)) = Done (fst p) /\ de v (snd e) = Done (snd p)) m ps ->
    fold_left (fun acc p => dinsert (fst p) (snd p) acc) ps [] = ps).
  { intros ps F. rewrite (fold_dinsert_new ps []); [reflexivity|]. cbn [app].
    intros i j a a' b b' L Hi Hj. destruct (key_eqb a' a) eqn:Ek; auto. exfalso.
    destruct (nth_error_Forall2_r _ _ _ _ _ F Hi) as ([s x] & Ei & Di & _).
    destruct (nth_error_Forall2_r _ _ _ _ _ F Hj) as ([s' x'] & Ej & Dj & _). cbn [fst snd] in *.
    apply (text_key_round k s' a' K Dj s a Di) in Ek. subst s'.
    assert (i = j); [|lia]. apply (proj1 (NoDup_nth_error (map fst m)) ND).
    - rewrite map_length. apply nth_error_Some. congruence.
    - rewrite (map_nth_error fst i m Ei), (map_nth_error fst j m Ej). reflexivity. }
  split.
  - intros H. apply obind_done in H as (es & H & [= <-]). apply de_map_fold in H as (ps & F & ->).
    exists ps; split; auto. f_equal. now apply Fold.
  - intros (es & -> & F). assert (H : de_map_loop (de k) (de v) dinsert m [] = Done es).
    { apply de_map_fold. exists es; split; auto. symmetry; now apply Fold. }
    rewrite H; reflexivity.
Qed.



Lemma tuple_order ts expecting l r ds :
  (forall t, In t ts -> forall v v', vequiv v v' -> uniq v -> uniq v' -> forall d, de t v = Done d ->
      exists d', de t v' = Done d' /\ data_equiv d d') ->
  Forall2 vequiv l r -> (forall x, In x l -> uniq x) -> (forall x, In x r -> uniq x) ->
  de_tuple expecting 0 (map (fun t => de t) ts) l = Done ds ->
  exists ds', de_tuple expecting 0 (map (fun t => de t) ts) r = Done ds' /\ Forall2 data_equiv ds ds'.
Proof.
  generalize 0%nat as i. revert l r ds; induction ts as [|t ts IH]; intros l r ds i H F Ul Ur D; cbn in *.
  - injection D as <-. eauto.
  - destruct F as [|x y l r E F]; [discriminate|].
    apply obind_done in D as (d & Dx & D). apply obind_done in D as (ds' & D & [= <-]).
    destruct (H t (or_introl eq_refl) x y E (Ul x (or_introl eq_refl)) (Ur y (or_introl eq_refl)) d Dx) as (d' & Dy & Ed).
    destruct (IH l r ds' (S i) (fun t0 Ht0 => H t0 (or_intror Ht0)) F (fun z Hz => Ul z (or_intror Hz))
      (fun z Hz => Ur z (or_intror Hz)) D) as (ds2 & D2 & E2).
    exists (d' :: ds2). split; [|auto]. cbn. rewrite Dy; cbn. rewrite D2; cbn. reflexivity.
Qed.

Lemma value_eq_none v : v = VNone \/ v <> VNone.
Proof. destruct v; auto; right; discriminate. Qed.

Lemma de_order t : text_maps t -> forall v v', vequiv v v' -> uniq v -> uniq v' ->
  forall d, de t v = Done d -> exists d', de t v' = Done d' /\ data_equiv d d'.
Proof.
  assert (Sc : forall t v v' d, vequiv v v' -> scalarv v -> de t v = Done d -> data_equiv d d ->
     exists d', de t v' = Done d' /\ data_equiv d d').
  { intros t0 v v' d E S D R. rewrite (vequiv_scalar_l _ _ S E). eauto. }
  induction t as [ |t| | | | | | |t IH|t IH|ts IH|k tv IHk IHv|fs IH|t IH|n ts IH| | | ] using ty_ind';
    intros T v v' E U U' d D.
  - pose proof D as D0. cbn in D0. apply obind_done in D0 as (b & Hb & [= <-]).
    eapply Sc; eauto; [destruct v; try exact I; discriminate | now constructor].
  - pose proof D as D0. cbn [de] in D0. unfold de_int in D0.
    assert (X : exists z, of_result (into_int t v) = Done z /\ d = DInt t z).
    { destruct t; try discriminate; apply obind_done in D0 as (z & Hz & [= <-]); eauto. }
    destruct X as (z & Hz & ->). eapply Sc; eauto; [destruct v; try exact I; destruct t; discriminate | now constructor].
  - pose proof D as D0. cbn in D0. apply obind_done in D0 as (b & Hb & [= <-]).
    eapply Sc; eauto; [destruct v; try exact I; discriminate | now constructor].
  - pose proof D as D0. cbn in D0. apply obind_done in D0 as (b & Hb & [= <-]).
    eapply Sc; eauto; [destruct v; try exact I; discriminate | now constructor].
  - pose proof D as D0. cbn in D0. apply obind_done in D0 as (b & Hb & [= <-]).
    eapply Sc; eauto; [destruct v; try exact I; discriminate | now constructor].
  - pose proof D as D0. cbn in D0. apply obind_done in D0 as (b & Hb & [= <-]).
    eapply Sc; eauto; [destruct v; try exact I; discriminate | now constructor].
  - discriminate.
  - pose proof D as D0. cbn in D0. destruct v; try discriminate. injection D0 as <-. eapply Sc; eauto; [exact I | now constructor].
  - inversion T; subst. cbn [de] in *. destruct (value_eq_none v) as [->|N].
    + injection D as <-. rewrite (vequiv_scalar_l VNone v' I E). exists DNone; split; auto. now constructor.
    + assert (N' : v' <> VNone) by (intros ->; apply N; exact (vequiv_scalar_r v VNone I E)).
      assert (D' : obind (de t v) (fun d => Done (DSome d)) = Done d) by (destruct v; auto; congruence).
      apply obind_done in D' as (x & D' & [= <-]). destruct (IH H0 v v' E U U' x D') as (x' & Dx & Ex).
      exists (DSome x'); split; [destruct v'; try congruence; rewrite Dx; reflexivity | now constructor].
  - inversion T; subst. cbn [de] in D. destruct v; try discriminate. apply obind_done in D as (ds & D & [= <-]).
    apply vequiv_arr_l in E as (r & -> & F). apply de_seq_done in D.
    pose proof (proj1 (uniq_arr _) U) as Ul. pose proof (proj1 (uniq_arr _) U') as Ur.
    assert (X : exists ds', Forall2 (fun x d => de t x = Done d) r ds' /\ Forall2 data_equiv ds ds').
    { clear - F D IH H0 Ul Ur. revert r F Ur. induction D as [|x d l ds Dx D IHD]; intros r F Ur; inversion F as [|? y ? r' E F']; subst; [exists []; auto|].
      destruct (IH H0 x y E (Ul x (or_introl eq_refl)) (Ur y (or_introl eq_refl)) d Dx) as (d' & Dy & Ed).
      destruct (IHD (fun z Hz => Ul z (or_intror Hz)) r' F' (fun z Hz => Ur z (or_intror Hz))) as (ds' & A & B).
      exists (d' :: ds'); auto. }
    destruct X as (ds' & A & B). exists (DSeq ds'). split; [|now constructor]. cbn [de].
    apply de_seq_done in A. rewrite A. reflexivity.
  - inversion T; subst. cbn [de] in D. destruct v; try discriminate. apply obind_done in D as (ds & D & [= <-]).
    apply vequiv_arr_l in E as (r & -> & F).
    match goal with X : forall t, In t ts -> text_maps t |- _ =>
      destruct (tuple_order ts (expecting_tuple (List.length ts)) l r ds (fun t Ht => IH t Ht (X t Ht)) F
        (proj1 (uniq_arr _) U) (proj1 (uniq_arr _) U') D) as (ds' & A & B) end.
    exists (DTuple ds'). split; [|now constructor]. cbn [de]. rewrite A. reflexivity.
  - inversion T as [| | | | | | | | | | |? ? TK TV| | | | | |]; subst. destruct v; try discriminate. apply uniq_map in U as [ND Um].
    apply vequiv_map_l in E as (m' & -> & V1 & V2). apply uniq_map in U' as [ND' Um'].
    apply de_text_map in D as (es & -> & F); auto.
    assert (G : forall e', In e' m' -> exists p, (de k (VStr (fst e')) = Done (fst p) /\ de tv (snd e') = Done (snd p))
       /\ exists p0, In p0 es /\ fst p0 = fst p /\ data_equiv (snd p0) (snd p)).
    { intros [s y] Hy. destruct (V2 s y Hy) as (x & Hx & Exy).
      destruct (Forall2_in_l _ _ _ _ F Hx) as ([a b] & Hp & Da & Db). cbn in Da, Db.
      destruct (IHv TV x y Exy (Um s x Hx) (Um' s y Hy) b Db) as (b' & Db' & Eb).
      exists (a, b'); split; auto. exists (a, b); auto. }
    destruct (Forall2_exists _ _ G) as (es' & F').
    exists (DMap es'). split.
    + apply de_text_map; auto. exists es'; split; auto. eapply Forall2_imp; [|exact F']. intros x y _ _ X; apply X.
    + constructor.
      * intros a b Hab. destruct (Forall2_in_r _ _ _ _ F Hab) as ([s x] & Hx & Da & Db). cbn in Da, Db.
        destruct (V1 s x Hx) as (y & Hy & Exy).
        destruct (Forall2_in_l _ _ _ _ F' Hy) as ([a' b'] & Hp & (Da' & Db') & _). cbn in *.
        destruct (IHv TV x y Exy (Um s x Hx) (Um' s y Hy) b Db) as (b2 & Db2 & Eb).
        assert (a' = a) by congruence. assert (b2 = b') by congruence. subst. eauto.
      * intros a b' Hab. destruct (Forall2_in_r _ _ _ _ F' Hab) as ([s y] & _ & _ & [a0 b0] & Hp & E1 & E2). cbn in *. subst. eauto.
  - inversion T as [| | | | | | | | | | | |? NF Tf| | | | |]; subst. destruct v; try discriminate. apply uniq_map in U as [ND Um].
    apply vequiv_map_l in E as (m' & -> & V1 & V2). apply uniq_map in U' as [ND' Um'].
    apply de_struct_done in D as (l & -> & F); auto.
    assert (G : exists l', Forall2 (field_result m') fs l' /\ map fst l = map fst l' /\ Forall2 data_equiv (map snd l) (map snd l')).
    { clear NF T. revert IH Tf. induction F as [|[n t] [n' d] fs l [E H] F IHF]; intros IH Tf; [exists []; repeat split; auto; constructor|].
      destruct IHF as (l' & L1 & L2 & L3); [intros; eapply IH; cbn; eauto | intros; eapply Tf; cbn; eauto|]. cbn in E, H. subst n'.
      destruct H as [(x & Hx & Dx)|(Nx & Ho & ->)].
      - destruct (V1 n x Hx) as (y & Hy & Exy).
        destruct (IH n t (or_introl eq_refl) (Tf n t (or_introl eq_refl)) x y Exy (Um n x Hx) (Um' n y Hy) d Dx) as (d' & Dy & Ed).
        exists ((n, d') :: l'). split; [constructor; auto; split; cbn; eauto|]. cbn. split; [congruence | constructor; auto].
      - exists ((n, DNone) :: l'). split.
        + constructor; auto. split; cbn; auto. right. split; auto. intros y Hy. destruct (V2 n y Hy) as (x & Hx & _). eapply Nx; eauto.
        + cbn; split; [congruence | constructor; auto]. now constructor. }
    destruct G as (l' & G1 & G2 & G3). exists (DStruct l'). split; [|now constructor].
    apply de_struct_done; eauto.
  - inversion T; subst. cbn [de] in *. apply obind_done in D as (x & D & [= <-]).
    destruct (IH H0 v v' E U U' x D) as (x' & Dx & Ex). exists (DNewtype x'). rewrite Dx. split; [reflexivity | now constructor].
  - inversion T; subst. cbn [de] in D. destruct v; try discriminate. apply obind_done in D as (ds & D & [= <-]).
    apply vequiv_arr_l in E as (r & -> & F).
    match goal with X : forall t, In t ts -> text_maps t |- _ =>
      destruct (tuple_order ts (expecting_tuple_struct n (List.length ts)) l r ds (fun t Ht => IH t Ht (X t Ht)) F
        (proj1 (uniq_arr _) U) (proj1 (uniq_arr _) U') D) as (ds' & A & B) end.
    exists (DTupleStruct ds'). split; [|now constructor]. cbn [de]. rewrite A. reflexivity.
  - pose proof D as D0. cbn in D0. destruct v; try discriminate. injection D0 as <-. eapply Sc; eauto; [exact I | now constructor].
  - discriminate.
  - cbn [de] in *. rewrite de_value_identity in D by auto. injection D as <-. rewrite de_value_identity by auto.
    exists (DValue v'); split; [reflexivity | now constructor].
Qed.

(** ** C67: the access protocol *)
Lemma map_access_panics cs m : map_access_run m cs = Panic <-> (List.length m < values_asked cs)%nat.
Proof.
  revert m; induction cs as [|c cs IH]; intros m; cbn [map_access_run values_asked].
  - split; [discriminate | lia].
  - destruct c; cbn [map_access_step].
    + cbn [obind snd]. rewrite <- IH. destruct (map_access_run m cs); cbn; split; congruence.
    + destruct m as [|[k x] m]; cbn [obind snd List.length].
      * split; [lia | reflexivity].
      * rewrite <- Nat.succ_lt_mono, <- IH. destruct (map_access_run m cs); cbn; split; congruence.
Qed.
Lemma map_access_skip cs m rs m' : map_access_run m cs = Done (rs, m') ->
  m' = skipn (values_asked cs) m /\ List.length rs = List.length cs /\
  forall i c, nth_error cs i = Some c ->
    nth_error rs i = Some match c with
      | NextKey => RKey match nth_error m (values_asked (firstn i cs)) with Some e => Some (VStr (fst e)) | None => None end
      | NextValue => RValue match nth_error m (values_asked (firstn i cs)) with Some e => snd e | None => VNone end
      end.
Proof.
  revert m rs m'; induction cs as [|c cs IH]; intros m rs m' H; cbn [map_access_run] in H.
  - injection H as <- <-. repeat split; auto. intros [|i]; discriminate.
  - apply obind_done in H as ([r m1] & E1 & H). apply obind_done in H as ([rs1 m2] & E2 & H).
    cbn [fst snd] in *. injection H as <- <-. destruct (IH _ _ _ E2) as (I1 & I2 & I3).
    destruct c; cbn [map_access_step] in E1.
    + injection E1 as <- <-. cbn [values_asked]. split; auto. split; [cbn; lia|].
      intros [|i] c; cbn.
      * intros [= <-]. destruct m as [|[k x] m]; reflexivity.
      * intros Hc. apply I3 in Hc. exact Hc.
    + destruct m as [|[k x] m]; [discriminate|]. injection E1 as <- <-. cbn [values_asked skipn]. split; auto. split; [cbn; lia|].
      intros [|i] c; cbn.
      * intros [= <-]. reflexivity.
      * intros Hc. apply I3 in Hc. exact Hc.
Qed.

(** ** Wrappers used by the property file *)
Lemma struct_iff fs v ds : NoDup (map fst fs) -> uniq v -> mapv v ->
  de (TStruct fs) v = Done ds <->
  exists l, ds = DStruct l /\ Forall2 (field_becomes (fun t x d => de t x = Done d) v) fs l.
Proof.
  intros NF U [m ->]. apply uniq_map in U as [ND Um]. rewrite de_struct_done by auto.
  assert (Q : forall l, Forall2 (field_result m) fs l <-> Forall2 (field_becomes (fun t x d => de t x = Done d) (VMap m)) fs l).
  { intros l. assert (P : forall f d, field_result m f d <-> field_becomes (fun t x d => de t x = Done d) (VMap m) f d).
    { intros f d. unfold field_result, field_becomes, lacks. split; intros [E H]; (split; [exact E|]).
      - destruct H as [(x & Hx & Hd)|(N & H)]; [left; exists x; split; auto; now apply holds_map|].
        right. split; auto. intros x Hx. apply (N x). now apply holds_map in Hx.
      - destruct H as [(x & Hx & Hd)|(N & H)]; [left; exists x; split; auto; now apply holds_map in Hx|].
        right. split; auto. intros x Hx. apply (N x). now apply holds_map. }
    split; intros F; (eapply Forall2_imp; [|exact F]); intros f d _ _; apply P. }
  split; intros (l & -> & F); exists l; (split; [reflexivity|]); now apply Q.
Qed.

Lemma struct_only_fields fs v v' ds : NoDup (map fst fs) -> uniq v -> uniq v' -> mapv v -> mapv v' ->
  (forall n x, In n (map fst fs) -> holds v n x <-> holds v' n x) ->
  de (TStruct fs) v = Done ds -> de (TStruct fs) v' = Done ds.
Proof.
  intros NF U U' M M' A H. apply struct_iff in H as (l & -> & F); auto. apply struct_iff; auto.
  exists l; split; auto. eapply Forall2_imp; [|exact F]. intros [n t] d Hf _ [E B]; split; auto. cbn in *.
  apply (in_map fst) in Hf; cbn in Hf.
  destruct B as [(x & Hx & Hd)|(N & B)]; [left; exists x; split; auto; now apply A|].
  right; split; auto. intros x Hx. apply (N x). now apply A.
Qed.

Lemma seq_iff t v ds : de (TSeq t) v = Done ds <->
  exists l r, v = VArr l /\ ds = DSeq r /\ Forall2 (fun x d => de t x = Done d) l r.
Proof.
  cbn [de]. split.
  - destruct v; try discriminate. intros H. apply obind_done in H as (r & H & [= <-]). apply de_seq_done in H. eauto.
  - intros (l & r & -> & -> & F). apply de_seq_done in F. rewrite F. reflexivity.
Qed.
Lemma tuple_iff ts v ds : de (TTuple ts) v = Done ds <->
  exists first rest r, v = VArr (first ++ rest) /\ ds = DTuple r /\
    List.length first = List.length ts /\ Forall2 (fun tx d => de (fst tx) (snd tx) = Done d) (combine ts first) r.
Proof.
  cbn [de]. split.
  - destruct v; try discriminate. intros H. apply obind_done in H as (r & H & [= <-]).
    apply de_tuple_done in H as (l1 & l2 & -> & F & L). rewrite map_length in L.
    exists l1, l2, r; repeat split; auto.
    clear - F. revert l1 r F; induction ts as [|t ts IH]; intros l1 r F; cbn in *; [inversion F; constructor|].
    destruct l1 as [|x l1]; cbn in *; [inversion F; constructor|]. inversion F; subst; constructor; auto.
  - intros (l1 & l2 & r & -> & -> & L & F).
    assert (D : de_tuple (expecting_tuple (List.length ts)) 0 (map (fun t => de t) ts) (l1 ++ l2) = Done r).
    { apply de_tuple_done. exists l1, l2. rewrite map_length. repeat split; auto.
      clear - F. revert l1 r F; induction ts as [|t ts IH]; intros l1 r F; cbn in *; [inversion F; constructor|].
      destruct l1 as [|x l1]; cbn in *; [inversion F; constructor|]. inversion F; subst; constructor; auto. }
    rewrite D. reflexivity.
Qed.
Lemma tuple_too_short ts l : (List.length l < List.length ts)%nat -> forall ds, de (TTuple ts) (VArr l) <> Done ds.
Proof.
  intros L ds H. apply tuple_iff in H as (first & rest & r & E & _ & L1 & _). injection E as ->.
  rewrite app_length in L. lia.
Qed.

Lemma map_free_equal t : map_free t -> forall d d', has_type t d -> data_equiv d d' -> d = d'.
Proof.
  assert (LL : forall ts l r, (forall t, In t ts -> forall d d', has_type t d -> data_equiv d d' -> d = d') ->
    Forall2 has_type ts l -> Forall2 data_equiv l r -> l = r).
  { intros ts l r IH F; revert r IH; induction F as [|t0 d ts l T F IHF]; intros r IH G; inversion G; subst; auto.
    f_equal; [apply (IH t0 (or_introl eq_refl)); auto | apply IHF; auto]. intros; eapply IH; cbn; eauto. }
  induction t as [ |t| | | | | | |t IH|t IH|ts IH|k tv IHk IHv|fs IH|t IH|n ts IH| | | ] using ty_ind';
    intros M d d' T E; inversion M as [? X|? M1|? M1|? M1|? M1|? M1|? ? M1]; subst; try (destruct X; fail); inversion T; subst; inversion E; subst; auto;
    try match goal with X : scalar_datum _ |- _ => destruct X end.
  - f_equal. apply IH; auto.
  - f_equal. assert (forall t0 l r, (forall d, In d l -> has_type t0 d) -> (forall d d', has_type t0 d -> data_equiv d d' -> d = d') -> Forall2 data_equiv l r -> l = r) as Z.
    { clear. intros t0 l r H A F; induction F as [|a b l r E F IHF]; auto. f_equal; [apply A; auto; apply H; cbn; auto | apply IHF; intros; apply H; cbn; auto]. }
    eapply Z; eauto.
  - f_equal. eapply LL; eauto.
  - f_equal. match goal with A : map fst fs = map fst ds, B : map fst ds = map fst gs, C : Forall2 data_equiv (map snd ds) (map snd gs), D : Forall2 has_type _ _ |- _ =>
      rename A into A1; rename B into B1; rename C into C1; rename D into D1 end.
    assert (S : map snd ds = map snd gs).
    { eapply LL; eauto. intros t Ht. apply in_map_iff in Ht as ([n t'] & E' & Ht). cbn in E'; subst t'. eapply IH; eauto. }
    clear - B1 S. revert gs B1 S; induction ds as [|[a b] ds IH]; intros [|[c e] gs] B1 S; cbn in *; try discriminate; auto.
    injection B1 as -> B1. injection S as -> S. f_equal; auto.
  - f_equal. apply IH; auto.
  - f_equal. eapply LL; eauto.
Qed.
