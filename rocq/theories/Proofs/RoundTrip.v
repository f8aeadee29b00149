(** Typed data through Values and back (C57-C59, C63-C65). *)
From Coq Require Import ZArith Bool String Lia List Permutation.
Import ListNotations.
From Verif.Model Require Import Text Num Flt Value Convert Serde.
From Verif.Spec Require Import Spec Numerals SerdeSpec.
From Verif.Proofs Require Import Basics Conversions SerProofs DeProofs FloatBase.
Open Scope Z_scope.

(** ** Keys *)
Lemma key_round t d : key_type t -> has_type t d ->
  exists kv s, ser d = Done kv /\ into_string kv = Ok s /\ key_text d s /\ de t (VStr s) = Done d.
Proof.
  intros K; revert d; induction K as [|t N| | |t K IH]; intros d H; inversion H; subst.
  - destruct b; eexists _, _; (split; [reflexivity|]); (split; [reflexivity|]); (split; [constructor|]); reflexivity.
  - destruct (int_string_round_trip t z) as (s & E1 & E2 & E3); auto.
    exists (from_int t z), s. split; [destruct t; cbn in *; tauto || reflexivity|]. split; auto.
    split; [now constructor|]. cbn [de]. unfold de_int. unfold from_str in E3. rewrite E3.
    destruct t; cbn in *; tauto || reflexivity.
  - eexists _, _; split; [reflexivity|]; split; [reflexivity|]; split; [constructor|]; reflexivity.
  - eexists _, _; split; [reflexivity|]; split; [reflexivity|]; split; [constructor|]; reflexivity.
  - destruct (IH d0) as (kv & s & E1 & E2 & E3 & E4); auto. exists kv, s. repeat split; auto; [now constructor|].
    cbn [de]. rewrite E4; reflexivity.
Qed.
Lemma key_eqb_eq t a b : key_type t -> has_type t a -> has_type t b -> key_eqb a b = true -> a = b.
Proof.
  intros K; revert a b; induction K as [|t N| | |t K IH]; intros a b Ha Hb; inversion Ha; subst; inversion Hb; subst; cbn.
  - intros H. apply Bool.eqb_prop in H. congruence.
  - intros H. apply Z.eqb_eq in H. congruence.
  - intros H. apply Z.eqb_eq in H. congruence.
  - intros H. apply str_eqb_eq in H. congruence.
  - intros H. f_equal. auto.
Qed.
Lemma key_eqb_refl t a : key_type t -> has_type t a -> key_eqb a a = true.
Proof.
  intros K; revert a; induction K as [|t N| | |t K IH]; intros a Ha; inversion Ha; subst; cbn;
    auto using Bool.eqb_reflx, Z.eqb_refl, str_eqb_refl.
Qed.
Lemma key_text_fun d s s' : key_text d s -> key_text d s' -> s = s'.
Proof.
  intros H; revert s'; induction H; intros s' H'; inversion H'; subst; auto.
  eapply canonical_unique; eauto.
Qed.
(** Distinct keys of one type have distinct texts. *)
Lemma key_text_inj t a b s : key_type t -> has_type t a -> has_type t b ->
  key_text a s -> key_text b s -> a = b.
Proof.
  intros K Ha Hb Ta Tb.
  destruct (key_round t a K Ha) as (ka & sa & _ & _ & Ta' & Ra).
  destruct (key_round t b K Hb) as (kb & sb & _ & _ & Tb' & Rb).
  rewrite <- (key_text_fun _ _ _ Ta Ta') in Ra. rewrite <- (key_text_fun _ _ _ Tb Tb') in Rb. congruence.
Qed.

(** ** C63 *)
Lemma ser_map_texts tk m : key_type tk -> (forall a b, In (a, b) m -> has_type tk a) -> NoDup (map fst m) ->
  forall xs, Forall2 (fun e x => ser (snd e) = Done x) m xs ->
  exists ps, ser (DMap m) = Done (VMap ps) /\ NoDup (map fst ps) /\
    Forall2 (fun e p => key_text (fst e) (fst p) /\ ser (snd e) = Done (snd p)) m ps.
Proof.
  intros K T ND xs F.
  assert (E : exists ps, Forall2 (fun e p => (exists kv, ser (fst e) = Done kv /\ into_string kv = Ok (fst p)) /\ ser (snd e) = Done (snd p)) m ps
    /\ Forall2 (fun e p => key_text (fst e) (fst p) /\ ser (snd e) = Done (snd p)) m ps).
  { clear ND. induction F as [|[a b] x m xs E F IH].
    - exists []; auto.
    - destruct IH as (ps & F1 & F2); [intros; eapply T; cbn; eauto|].
      destruct (key_round tk a K (T a b (or_introl eq_refl))) as (kv & s & E1 & E2 & E3 & _).
      exists ((s, x) :: ps); split; constructor; cbn in *; eauto. }
  destruct E as (ps & F1 & F2). exists ps.
  assert (NP : NoDup (map fst ps)).
  { clear F F1. induction F2 as [|[a b] [s x] m ps [E1 E2] F2 IH]; cbn in *; constructor.
    - inversion ND as [|? ? N1 N2]; subst. intros Hin. apply N1.
      apply in_map_iff in Hin as ([s' x'] & E & Hin). cbn in E; subst s'.
      assert (exists a' b', In (a', b') m /\ key_text a' s) as (a' & b' & Hin' & Ht).
      { clear - F2 Hin. induction F2 as [|[a b] [s' y] m ps [E1 E2] F2 IH]; [destruct Hin|].
        destruct Hin as [[= <- <-]|Hin]; [cbn in *; eauto|]. destruct (IH Hin) as (a' & b' & ? & ?); cbn; eauto. }
      assert (a = a').
      { apply (key_text_inj tk a a' s K); auto; [eapply T; cbn; eauto | eapply T; cbn; right; eauto]. }
      subst a'. apply (in_map fst) in Hin'. exact Hin'.
    - inversion ND; subst. apply IH; auto. intros; eapply T; eauto. }
  split; [|split; auto]. cbn [ser]. now apply ser_map_entries_done.
Qed.

Lemma Forall2_exists {A B} (R : A -> B -> Prop) l : (forall x, In x l -> exists y, R x y) -> exists ys, Forall2 R l ys.
Proof.
  induction l as [|x l IH]; intros H; [exists []; auto|].
  destruct (H x (or_introl eq_refl)) as [y Hy]. destruct IH as [ys F]; [intros; apply H; cbn; auto|].
  exists (y :: ys); auto.
Qed.
Lemma Forall2_in_l {A B} (R : A -> B -> Prop) l r x : Forall2 R l r -> In x l -> exists y, In y r /\ R x y.
Proof. induction 1 as [|a b l r H F IH]; cbn; [tauto|]. intros [<-|Hx]; eauto. destruct (IH Hx) as (y & ? & ?); eauto. Qed.
Lemma Forall2_in_r {A B} (R : A -> B -> Prop) l r y : Forall2 R l r -> In y r -> exists x, In x l /\ R x y.
Proof. induction 1 as [|a b l r H F IH]; cbn; [tauto|]. intros [<-|Hx]; eauto. destruct (IH Hx) as (x & ? & ?); eauto. Qed.
Lemma Forall2_imp {A B} (R S : A -> B -> Prop) l r : (forall x y, In x l -> In y r -> R x y -> S x y) -> Forall2 R l r -> Forall2 S l r.
Proof. intros H F; revert H; induction F as [|a b l r E F IH]; intros H; constructor; [apply H; cbn; auto | apply IH; intros; apply H; cbn; auto]. Qed.
Lemma Forall2_comp {A B C} (R : A -> B -> Prop) (S : B -> C -> Prop) l r t :
  Forall2 R l r -> Forall2 S r t -> Forall2 (fun x z => exists y, R x y /\ S y z) l t.
Proof.
  intros F; revert t; induction F; intros t G; inversion G; subst; constructor; eauto.
Qed.

Lemma ser_map_stored tk tv m v : has_type (TMap tk tv) (DMap m) -> ser (DMap m) = Done v ->
  (forall a b, In (a, b) m -> exists s x, key_text a s /\ ser b = Done x /\ holds v s x)
  /\ (forall s x, holds v s x -> exists a b, In (a, b) m /\ key_text a s /\ ser b = Done x)
  /\ v_len v = List.length m.
Proof.
  intros H E. inversion H as [| | | | | | | | | | | |? ? ? K ND T| | | | | |]; subst.
  pose proof E as E'. cbn [ser] in E'. apply ser_map_entries_inv in E' as [(vs & F) _].
  destruct (ser_map_texts tk m K (fun a b Hab => proj1 (T a b Hab)) ND (map snd vs)) as (ps & E1 & NP & F2).
  { clear - F. induction F as [|e v m vs [_ E] F IH]; cbn; constructor; auto. }
  rewrite E1 in E; injection E as <-. split; [|split].
  - intros a b Hab. destruct (Forall2_in_l _ _ _ _ F2 Hab) as ([s x] & Hs & E2 & E3). cbn in *.
    exists s, x; repeat split; auto. now apply holds_map.
  - intros s x Hs. apply holds_map in Hs. destruct (Forall2_in_r _ _ _ _ F2 Hs) as ([a b] & Hab & E2 & E3). eauto.
  - cbn. symmetry. eapply Forall2_length'; eauto.
Qed.

(** ** What comes out of the types that never use none *)
Lemma never_none_ser t d v : never_none t -> has_type t d -> ser d = Done v -> v <> VNone.
Proof.
  intros N; revert d v; induction N as [| | | | | |t|ts|k v0|fs|n ts|t N IH]; intros d v H E; inversion H; subst; cbn in E.
  - injection E as <-; discriminate.
  - destruct t; cbn in E; try discriminate; injection E as <-; discriminate.
  - injection E as <-; discriminate.
  - injection E as <-; discriminate.
  - injection E as <-; discriminate.
  - injection E as <-; discriminate.
  - apply ser_seq_inv in E as (vs & _ & ->). discriminate.
  - apply ser_seq_inv in E as (vs & _ & ->). discriminate.
  - apply ser_map_entries_inv in E as (_ & m' & ->). discriminate.
  - apply ser_fields_inv in E as (_ & m' & -> & _). discriminate.
  - apply ser_seq_inv in E as (vs & _ & ->). discriminate.
  - eauto.
Qed.

(** ** C57 *)
Definition survives (t : ty) (d : data) : Prop :=
  exists v, ser d = Done v /\ uniq v /\
    forall v', vequiv v v' -> uniq v' -> exists d', de t v' = Done d' /\ has_type t d' /\ data_equiv d d'.

Lemma scalar_survives t d v : has_type t d -> scalar_datum d -> scalarv v -> ser d = Done v ->
  de t v = Done d -> survives t d.
Proof.
  intros T S Sv E1 E2. exists v; split; auto. split; [now apply UScalar|].
  intros v' Ev _. rewrite (vequiv_scalar_l _ _ Sv Ev). exists d; repeat split; auto. now constructor.
Qed.

Lemma ser_seq_survive (ts : list ty) l :
  Forall2 has_type ts l -> Forall2 survives ts l ->
  exists vs, Forall2 (fun x v => ser x = Done v) l vs /\ (forall v, In v vs -> uniq v) /\
    forall vs', Forall2 vequiv vs vs' -> (forall v, In v vs' -> uniq v) ->
      exists l', Forall2 (fun (p : ty * value) d => de (fst p) (snd p) = Done d) (combine ts vs') l' /\
        List.length l' = List.length ts /\ Forall2 has_type ts l' /\ Forall2 data_equiv l l'.
Proof.
  intros _ F. induction F as [|t d ts l (v & E & U & S) F IH].
  - exists []. repeat split; auto; [cbn; tauto|]. intros vs' Fv _. inversion Fv; subst. exists []; repeat split; auto.
    constructor.
  - destruct IH as (vs & F1 & U1 & S1). exists (v :: vs). split; [constructor; auto|]. split.
    + intros x [<-|Hx]; auto.
    + intros vs0 Fv Uv. inversion Fv as [|? v' ? vs' Ev Fv']; subst.
      destruct (S v' Ev (Uv v' (or_introl eq_refl))) as (d' & D1 & D2 & D3).
      destruct (S1 vs' Fv') as (l' & L1 & L2 & L3 & L4); [intros; apply Uv; cbn; auto|].
      exists (d' :: l'); cbn; repeat split; auto.
Qed.

Lemma combine_Forall2_de expecting i ts vs l : List.length vs = List.length ts ->
  Forall2 (fun (p : ty * value) d => de (fst p) (snd p) = Done d) (combine ts vs) l ->
  de_tuple expecting i (map (fun t => de t) ts) vs = Done l.
Proof.
  intros L F. apply de_tuple_done. exists vs, []. rewrite app_nil_r, map_length. repeat split; auto.
  clear - F. revert vs l F; induction ts as [|t ts IH]; intros vs l F; cbn in *; [inversion F; subst; constructor|].
  destruct vs as [|v vs]; cbn in *; [inversion F; subst; constructor|].
  inversion F as [|? d ? l' E F']; subst. constructor; cbn in *; auto.
Qed.

Lemma tuple_survives (mk : list data -> data) (T : ty) ts expecting l :
  (forall l, ser (mk l) = ser_seq ser new_array l) ->
  (forall vs, de T (VArr vs) = obind (de_tuple expecting 0 (map (fun t => de t) ts) vs) (fun ds => Done (mk ds))) ->
  (forall l, Forall2 has_type ts l -> has_type T (mk l)) ->
  (forall l r, Forall2 data_equiv l r -> data_equiv (mk l) (mk r)) ->
  Forall2 has_type ts l -> Forall2 survives ts l -> survives T (mk l).
Proof.
  intros Es Ed Ht He Tl Sl. destruct (ser_seq_survive ts l Tl Sl) as (vs & F & U & S).
  exists (VArr vs). split; [rewrite Es; exact (ser_seq_done ser l [] vs F)|]. split; [now apply uniq_arr|].
  intros v' Ev Uv. apply vequiv_arr_l in Ev as (vs' & -> & Fv).
  destruct (S vs' Fv) as (l' & L1 & L2 & L3 & L4); [now apply uniq_arr|].
  exists (mk l'). split; [|split; auto]. rewrite Ed. erewrite combine_Forall2_de; eauto; [reflexivity|].
  apply Forall2_length' in Fv, F, Tl. congruence.
Qed.

Lemma no_wide_in {A} (f : A -> Prop) (l : list A) (P : Prop) : (forall d, In d l -> f d -> P) -> ~ P -> forall d, In d l -> ~ f d.
Proof. intros H N d Hd Hf. eauto. Qed.

Lemma nodup_fst_perm_equiv {A} : forall (m n : list (data * A)) x y, NoDup (map fst m) ->
  In (x, y) m -> forall y', In (x, y') m -> y = y'.
Proof.
  intros m _ x y ND Hin. induction m as [|[a b] m IH]; [destruct Hin|]. cbn in ND; inversion ND as [|? ? N1 N2]; subst.
  intros y' [E'|H']; destruct Hin as [E|Hin]; auto.
  - congruence.
  - injection E' as -> ->. apply (in_map fst) in Hin. destruct N1; exact Hin.
  - injection E as -> ->. apply (in_map fst) in H'. destruct N1; exact H'.
Qed.

Theorem round_trip t : round_trips t -> forall d, has_type t d -> ~ data_wide d -> survives t d.
Proof.
  induction t as [ |t| | | | | | |t IH|t IH|ts IH|k v IHk IHv|fs IH|t IH|n ts IH| | | ] using ty_ind';
    intros R d H W; inversion R; subst; inversion H; subst.
  - eapply scalar_survives; eauto; try reflexivity; exact I.
  - apply scalar_survives with (v := from_int t z); auto; try exact I.
    + destruct t; exact I.
    + destruct t; cbn in *; tauto || reflexivity.
    + cbn [de]. unfold de_int. rewrite from_into_int by auto. destruct t; cbn in *; tauto || reflexivity.
  - apply scalar_survives with (v := from_f32 f); auto; try exact I.
    cbn. now rewrite f32_round_trip.
  - eapply scalar_survives; eauto; try reflexivity; exact I.
  - eapply scalar_survives; eauto; try reflexivity; exact I.
  - eapply scalar_survives; eauto; try reflexivity; exact I.
  - eapply scalar_survives; eauto; try reflexivity; exact I.
  - eapply scalar_survives; eauto; try reflexivity; exact I.
  - rename d0 into d.
    match goal with A : round_trips t, B : never_none t, C : has_type t d |- _ => rename A into Rt; rename B into Nt; rename C into Td end.
    destruct (IH Rt d Td) as (v & E & U & S); [intros X; apply W; now constructor|].
    exists v; split; auto. split; auto. intros v' Ev Uv. destruct (S v' Ev Uv) as (d' & D1 & D2 & D3).
    exists (DSome d'). split; [|split; now constructor]. cbn [de].
    assert (N : v' <> VNone).
    { intros ->. apply (never_none_ser t d v Nt Td E). exact (vequiv_scalar_r v VNone I Ev). }
    destruct v'; try congruence; rewrite D1; reflexivity.
  - match goal with A : round_trips t, C : forall d, In d l -> has_type t d |- _ => rename A into Rt; rename C into Tl end.
    assert (Sl : forall d, In d l -> survives t d).
    { intros d Hd. apply IH; auto. intros X; apply W; econstructor; eauto. }
    assert (Sl' : exists vs, Forall2 (fun x v => ser x = Done v) l vs /\ (forall v, In v vs -> uniq v) /\
       forall vs', Forall2 vequiv vs vs' -> (forall v, In v vs' -> uniq v) ->
        exists l', Forall2 (fun x d => de t x = Done d) vs' l' /\ (forall d, In d l' -> has_type t d) /\ Forall2 data_equiv l l').
    { clear - Sl. induction l as [|d l IH].
      - exists []; repeat split; auto; [cbn; tauto|]. intros vs' F _; inversion F; subst. exists []; repeat split; auto; cbn; tauto.
      - destruct IH as (vs & F1 & U1 & S1); [intros; apply Sl; cbn; auto|].
        destruct (Sl d (or_introl eq_refl)) as (v & E & U & S). exists (v :: vs). split; [constructor; auto|]. split.
        + intros x [<-|Hx]; auto.
        + intros vs0 F Uv. inversion F as [|? v' ? vs' Ev Fv]; subst.
          destruct (S v' Ev (Uv v' (or_introl eq_refl))) as (d' & D1 & D2 & D3).
          destruct (S1 vs' Fv) as (l' & L1 & L2 & L3); [intros; apply Uv; cbn; auto|].
          exists (d' :: l'); repeat split; auto. intros x [<-|Hx]; auto. }
    destruct Sl' as (vs & F & U & S). exists (VArr vs).
    split; [exact (ser_seq_done ser l [] vs F)|]. split; [now apply uniq_arr|].
    intros v' Ev Uv. apply vequiv_arr_l in Ev as (vs' & -> & Fv).
    destruct (S vs' Fv) as (l' & L1 & L2 & L3); [now apply uniq_arr|].
    exists (DSeq l'). split; [|split; now constructor]. cbn [de]. apply de_seq_done in L1. rewrite L1. reflexivity.
  - eapply tuple_survives; eauto using HtTuple, DeTuple; try reflexivity.
    assert (X : forall d, In d l -> ~ data_wide d) by (intros d Hd X; apply W; econstructor; eauto).
    match goal with A : forall t, In t ts -> round_trips t, F : Forall2 has_type ts l |- _ =>
      rename A into RA; rename F into FT end.
    clear W H R; revert IH RA X; induction FT as [|t d ts l Td F IHF]; intros IH RA X; constructor.
    + apply IH; [cbn; auto | apply RA; cbn; auto | auto | apply X; cbn; auto].
    + apply IHF; intros; [apply IH | apply RA | apply X]; cbn; auto.
  - rename m into m0.
    match goal with A : key_type k, B : round_trips v, C : NoDup (map fst m0), D : forall a b, In (a, b) m0 -> _ |- _ =>
      rename A into K; rename B into Rv; rename C into ND; rename D into T end.
    assert (Sb : forall a b, In (a, b) m0 -> survives v b).
    { intros a b Hab. apply IHv; auto; [apply (T a b Hab)|]. intros X; apply W; eapply DwVal; eauto. }
    assert (exists xs, Forall2 (fun e x => ser (snd e) = Done x) m0 xs) as [xs Fx].
    { apply Forall2_exists. intros [a b] Hab. destruct (Sb a b Hab) as (x & E & _). exists x; exact E. }
    destruct (ser_map_texts k m0 K (fun a b Hab => proj1 (T a b Hab)) ND xs Fx) as (ps & E1 & NP & F2).
    exists (VMap ps). split; auto. split.
    { apply uniq_map; split; auto. intros s x Hs. destruct (Forall2_in_r _ _ _ _ F2 Hs) as ([a b] & Hab & _ & E).
      destruct (Sb a b Hab) as (x' & E' & U & _). cbn in E. congruence. }
    intros v' Ev Uv. apply vequiv_map_l in Ev as (n & -> & V1 & V2). apply uniq_map in Uv as [NN Un].
    (* the entry that each stored entry becomes *)
    assert (G : forall e, In e n -> exists p, (de k (VStr (fst e)) = Done (fst p) /\ de v (snd e) = Done (snd p))
       /\ has_type k (fst p) /\ has_type v (snd p) /\ key_text (fst p) (fst e) /\ exists b, In (fst p, b) m0 /\ data_equiv b (snd p)).
    { intros [s y] He. destruct (V2 s y He) as (x & Hx & Exy).
      destruct (Forall2_in_r _ _ _ _ F2 Hx) as ([a b] & Hab & Ta & Eb). cbn in Ta, Eb.
      destruct (key_round k a K (proj1 (T a b Hab))) as (kv & s' & _ & _ & Ta' & Ra).
      rewrite <- (key_text_fun _ _ _ Ta Ta') in Ra.
      destruct (Sb a b Hab) as (x' & E' & _ & S). assert (x' = x) by congruence; subst x'.
      destruct (S y Exy (Un s y He)) as (b' & B1 & B2 & B3).
      exists (a, b'); cbn; repeat split; auto; [apply (T a b Hab) | eauto]. }
    destruct (Forall2_exists _ _ G) as (es & Fe).
    assert (NE : NoDup (map fst es)).
    { clear - Fe NN K. induction Fe as [|[s y] [a b'] n es (_ & Ha & _ & Ta & _) Fe IH]; cbn in *; constructor.
      - inversion NN as [|? ? N1 N2]; subst. intros Hin. apply N1. apply in_map_iff in Hin as ([a' b2] & E & Hin). cbn in E; subst a'.
        destruct (Forall2_in_r _ _ _ _ Fe Hin) as ([s' y'] & Hn & _ & _ & _ & Ta' & _). cbn in Ta'.
        rewrite (key_text_fun _ _ _ Ta Ta'). apply (in_map fst) in Hn. exact Hn.
      - inversion NN; auto. }
    assert (TE : forall a b, In (a, b) es -> has_type k a /\ has_type v b).
    { intros a b Hab. destruct (Forall2_in_r _ _ _ _ Fe Hab) as (e & _ & _ & ? & ? & _); auto. }
    assert (D : de (TMap k v) (VMap n) = Done (DMap es)).
    { cbn [de]. assert (M : de_map (de k) (de v) dinsert n = Done es).
      { change (de_map_loop (de k) (de v) dinsert n [] = Done es). apply de_map_fold.
        exists es. split; [eapply Forall2_imp; [|exact Fe]; intros x y _ _ HH; apply HH|].
        symmetry. rewrite (fold_dinsert_new es []); [reflexivity|]. cbn [app].
        intros i j a a' b b' L Hi Hj. destruct (key_eqb a' a) eqn:Ek; auto. exfalso.
        pose proof (nth_error_In _ _ Hi) as Ii. pose proof (nth_error_In _ _ Hj) as Ij.
        apply (key_eqb_eq k) in Ek; auto; [|apply (TE _ _ Ij) | apply (TE _ _ Ii)]. subst a'.
        assert (i = j); [|lia]. eapply (proj1 (NoDup_nth_error (map fst es)) NE).
        - rewrite map_length. apply nth_error_Some. congruence.
        - rewrite (map_nth_error fst i es Hi), (map_nth_error fst j es Hj). reflexivity. }
      rewrite M. reflexivity. }
    exists (DMap es). split; auto. split; [constructor; auto|]. constructor.
    + intros a b Hab. destruct (Forall2_in_l _ _ _ _ F2 Hab) as ([s x] & Hs & Ta & Eb). cbn in Ta, Eb.
      destruct (V1 s x Hs) as (y & Hy & Exy).
      destruct (Forall2_in_l _ _ _ _ Fe Hy) as ([a' b'] & He & _ & Ha' & _ & Ta' & b0 & Hb0 & Eq). cbn in *.
      assert (a' = a) by (eapply (key_text_inj k); eauto; apply (T a b Hab)). subst a'.
      rewrite (nodup_fst_perm_equiv m0 m0 a b ND Hab b0 Hb0). eauto.
    + intros a b' Hab. destruct (Forall2_in_r _ _ _ _ Fe Hab) as (e & _ & _ & _ & _ & _ & b0 & Hb0 & Eq). cbn in *. eauto.
  - rename ds into ds0.
    match goal with A : NoDup (map fst fs), B : forall n t, In (n, t) fs -> round_trips t, C : map fst fs = map fst ds0,
      D : Forall2 has_type _ _ |- _ => rename A into NF; rename B into Rf; rename C into En; rename D into T end.
    assert (X : forall n d, In (n, d) ds0 -> ~ data_wide d) by (intros n d Hd X; apply W; econstructor; eauto).
    (* field by field *)
    assert (G : Forall2 (fun (f : str * ty) (d : str * data) => fst f = fst d /\ has_type (snd f) (snd d) /\ survives (snd f) (snd d)) fs ds0).
    { clear NF H R W. revert ds0 En T X. induction fs as [|[n t] fs IHf]; intros [|[n' d] ds0] En T X; cbn in *; try discriminate; constructor.
      - cbn in *. injection En as -> _. inversion T; subst. split; [reflexivity|]. split; auto.
        eapply IH; eauto.
      - apply IHf; [intros; eapply IH; eauto | intros; eapply Rf; eauto | congruence | inversion T; auto | intros; eapply X; eauto]. }
    assert (exists ps, Forall2 (fun (d : str * data) p => fst d = fst p /\ ser (snd d) = Done (snd p)) ds0 ps) as [ps Fp].
    { apply Forall2_exists. intros [n d] Hd. destruct (Forall2_in_r _ _ _ _ G Hd) as (f & _ & _ & _ & (x & E & _)).
      exists (n, x); split; auto. }
    assert (KP : map fst ps = map fst fs).
    { rewrite En. clear - Fp. induction Fp as [|a b l r [E _] F IH]; cbn; congruence. }
    exists (VMap ps). split; [|split].
    { cbn [ser]. apply (ser_fields_done ser ds0 [] ps Fp). cbn. rewrite KP; auto. }
    { apply uniq_map; split; [rewrite KP; auto|]. intros s x Hs. destruct (Forall2_in_r _ _ _ _ Fp Hs) as ([n d] & Hd & E1 & E2).
      destruct (Forall2_in_r _ _ _ _ G Hd) as (f & _ & _ & _ & (x' & E & U & _)). cbn in *. congruence. }
    intros v' Ev Uv. apply vequiv_map_l in Ev as (m & -> & V1 & V2). apply uniq_map in Uv as [NM Um].
    assert (Q : exists ds', Forall2 (fun (f : str * ty) (d' : str * data) => fst f = fst d' /\ has_type (snd f) (snd d') /\ exists x, In (fst f, x) m /\ de (snd f) x = Done (snd d')) fs ds'
       /\ Forall2 (fun (d d' : str * data) => fst d = fst d' /\ data_equiv (snd d) (snd d')) ds0 ds').
    { clear - G Fp V1 Um. 
      assert (V : forall s x, In (s, x) ps -> exists y, In (s, y) m /\ vequiv x y /\ uniq y).
      { intros s x Hs. destruct (V1 s x Hs) as (y & Hy & E). eauto. }
      clear V1 Um. revert ps Fp V. induction G as [|[n t] [n' d] fs ds (E1 & E2 & (x & E3 & _ & S)) G IH]; intros ps Fp V.
      - inversion Fp; subst. exists []; auto.
      - inversion Fp as [|? [n2 x2] ? ps' [F1 F2] Fp']; subst; cbn in *. subst n' n2. assert (x2 = x) by congruence; subst x2.
        destruct (V n x (or_introl eq_refl)) as (y & Hy & Exy & Uy). destruct (S y Exy Uy) as (d' & D1 & D2 & D3).
        destruct (IH ps' Fp') as (ds' & Q1 & Q2); [intros; apply V; cbn; auto|].
        exists ((n, d') :: ds'); split; constructor; cbn; eauto. }
    destruct Q as (ds' & Q1 & Q2). exists (DStruct ds'). split; [|split].
    + apply de_struct_done; auto. exists ds'; split; auto. eapply Forall2_imp; [|exact Q1].
      intros f d' _ _ (E1 & E2 & x & Hx & E3). split; [auto|]. left; eauto.
    + constructor.
      * clear - Q1. induction Q1 as [|a b l r (E & _) F IH]; cbn; congruence.
      * clear - Q1. induction Q1 as [|a b l r (_ & E & _) F IH]; cbn; constructor; auto.
    + constructor.
      * clear - Q2. induction Q2 as [|a b l r (E & _) F IH]; cbn; congruence.
      * clear - Q2. induction Q2 as [|a b l r (_ & E) F IH]; cbn; constructor; auto.
  - rename d0 into d.
    match goal with A : round_trips t, C : has_type t d |- _ => destruct (IH A d C) as (v & E & U & S) end; [intros X; apply W; now constructor|].
    exists v; split; auto. split; auto. intros v' Ev Uv. destruct (S v' Ev Uv) as (d' & D1 & D2 & D3).
    exists (DNewtype d'). split; [cbn [de]; rewrite D1; reflexivity | split; now constructor].
  - eapply tuple_survives; eauto using HtTupleStruct, DeTupleStruct; try reflexivity.
    assert (X : forall d, In d l -> ~ data_wide d) by (intros d Hd X; apply W; econstructor; eauto).
    match goal with A : forall t, In t ts -> round_trips t, F : Forall2 has_type ts l |- _ =>
      rename A into RA; rename F into FT end.
    clear W H R; revert IH RA X; induction FT as [|t d ts l Td F IHF]; intros IH RA X; constructor.
    + apply IH; [cbn; auto | apply RA; cbn; auto | auto | apply X; cbn; auto].
    + apply IHF; intros; [apply IH | apply RA | apply X]; cbn; auto.
  - eapply scalar_survives; eauto; try reflexivity; exact I.
  - rename v into v0. exists v0. assert (N : ~ has_wide v0) by (intros X; apply W; now constructor).
    split; [now apply ser_value_identity|]. split; auto. intros v' Ev Uv. exists (DValue v').
    split; [cbn [de]; rewrite de_value_identity by auto; reflexivity|]. split; now constructor.
Qed.
