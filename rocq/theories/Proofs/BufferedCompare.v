(** Strict and direct reading compared (C100). *)
From Coq Require Import ZArith Bool String Lia.
From Coq Require Import List.
Import ListNotations.
From Verif.Model Require Import Text Num Flt Value Convert Serde Attributes Buffered.
From Verif.Spec Require Import Spec Numerals SerdeSpec ReadSpec AttrSpec BufferedSpec.
From Verif.Proofs Require Import Basics Conversions SerProofs DeProofs SerdeMore RoundTrip Loaded ReadAs Attrs BufferedProofs BufferedMore.
Local Open Scope Z_scope.

Lemma strict_key_inj l p tk : key_type tk -> forall s a s' a', strict l p tk (VStr s) a -> strict l p tk (VStr s') a' -> key_eqb a' a = true -> s = s'.
Proof.
  intros K. induction K as [|t W| | |t K IH]; intros s a s' a' H H' E.
  - inversion H.
  - inversion H as [|? ? ? [X|X]| | | | | | | | | | | | | | | | | | | | |]; discriminate.
  - inversion H; inversion H'; subst. cbn in E. apply Z.eqb_eq in E. congruence.
  - inversion H; inversion H'; subst. cbn in E. symmetry. now apply str_eqb_eq.
  - inversion H; inversion H'; subst. cbn in E. eauto.
Qed.
Lemma strict_keys_distinct l p tk (m : vmap) ps acc : key_type tk -> NoDup (map fst m) -> acc = [] ->
  Forall2 (fun (e : str * value) (q : data * data) => strict l p tk (VStr (fst e)) (fst q)) m ps ->
  fold_left (fun acc p => dinsert (fst p) (snd p) acc) ps acc = acc ++ ps.
Proof.
  intros K N -> F. apply fold_dinsert_new. cbn [app]. intros i j k k' v v' L Hi Hj.
  destruct (nth_error_Forall2_r _ _ _ _ _ F Hi) as ([s1 x1] & E1 & H1). destruct (nth_error_Forall2_r _ _ _ _ _ F Hj) as ([s2 x2] & E2 & H2). cbn in H1, H2.
  destruct (key_eqb k' k) eqn:E; auto. exfalso.
  pose proof (strict_key_inj _ _ _ K _ _ _ _ H1 H2 E) as <-.
  apply (map_nth_error fst) in E1, E2. cbn in E1, E2. assert (i = j); [|lia].
  eapply NoDup_nth_error; [exact N | | congruence]. apply nth_error_Some. congruence.
Qed.

Definition direct_ok (t : ty) : Prop := forall v, uniq v -> forall d, strict false false t v d -> de t v = Done d.
Lemma each_direct ts : (forall t, In t ts -> direct_ok t) -> forall what i l ds, (forall x, In x l -> uniq x) ->
  strict_each false false ts l ds -> de_tuple what i (map (fun t => de t) ts) l = Done ds.
Proof.
  induction ts as [|t ts IH]; intros O what i l ds U H; inversion H as [|? ? x xs d ds' Hd Hs]; subst; [reflexivity|].
  cbn. rewrite (O t (or_introl eq_refl) x (U x (or_introl eq_refl)) d Hd). cbn.
  rewrite (IH (fun t Ht => O t (or_intror Ht)) what (S i) xs ds' (fun x Hx => U x (or_intror Hx)) Hs). reflexivity.
Qed.
Lemma int_whole t v z : whole v z -> ~ wide t -> fits t z -> into_int t v = Ok z.
Proof.
  intros W N F. apply in_range_fits in F. unfold whole in W.
  destruct W as [-> | ->]; destruct t; cbn in N; try tauto; cbn [into_int]; unfold to_number, try_from; try rewrite F; reflexivity.
Qed.
Ltac par P := inversion P as [? X| | | | | | |]; subst; [destruct X | auto].
Lemma strict_direct t : proper t -> no_enum t -> no_f32 t -> direct_ok t.
Proof.
  induction t as [ |t| | | | | | |t IH|t IH|ts IH|tk tv IHk IHv|fs IH|t IH|n ts IH| | | ] using ty_ind'; intros P Ne Nf v U d H.
  - inversion H; reflexivity.
  - inversion H as [|? ? z W Nw F| | | | | | | | | | | | | | | | | | | | |]; subst.
    assert (E : de (TInt t) v = obind (of_result (into_int t v)) (fun z => Done (DInt t z))) by (destruct t; cbn in Nw; try tauto; reflexivity).
    rewrite E, (int_whole t v z); auto.
  - inversion Nf as [? X| | | | | | |]; destruct X.
  - inversion H as [| | |? z W| | | | | | | | | | | | | | | | | | |]; subst; [reflexivity|]. destruct W as [-> | ->]; reflexivity.
  - inversion H; reflexivity.
  - inversion H; reflexivity.
  - inversion Ne.
  - inversion H; subst; [reflexivity | discriminate].
  - assert (I : direct_ok t) by (apply IH; [par P | inversion Ne; auto | inversion Nf as [? X| | | | | | |]; subst; [destruct X | auto]]).
    inversion H as [| | | | | | | | | | | | | |? ? x Nv Hx| | | | | | | |]; subst; [reflexivity|]. cbn [de]. destruct v; try contradiction; rewrite (I _ U _ Hx); reflexivity.
  - assert (I : direct_ok t) by (apply IH; [par P | inversion Ne; auto | inversion Nf as [? X| | | | | | |]; subst; [destruct X | auto]]).
    inversion H as [| | | | | | | | | | | | | | | |? l r F| | | | | |]; subst. apply seq_iff. exists l, r. repeat split; auto.
    eapply Forall2_impl_in; [|exact F]. intros a b Ha Hab. apply I; auto. apply (proj1 (uniq_arr l) U); auto.
  - assert (I : forall t, In t ts -> direct_ok t).
    { intros t Ht. apply IH; auto; [par P; auto | inversion Ne; auto | inversion Nf as [? X| | | | | | |]; subst; [destruct X | auto]]. }
    inversion H as [| | | | | | | | | | | | | | | | |? l r F| | | | |]; subst. cbn [de]. rewrite (each_direct ts I _ _ l r); auto. now apply uniq_arr.
  - assert (K : key_type tk /\ proper tv) by par P. destruct K as [K Pv].
    assert (N : no_enum tk /\ no_enum tv) by (inversion Ne; auto). destruct N as [Nk Nv].
    assert (N : no_f32 tk /\ no_f32 tv) by (inversion Nf as [? X| | | | | | |]; subst; [destruct X | auto]). destruct N as [Fk Fv].
    specialize (IHk (key_proper tk K) Nk Fk). specialize (IHv Pv Nv Fv).
    inversion H as [| | | | | | | | | | | | | | | | | | |? ? m r F| | |]; subst. apply uniq_map in U as [ND Um].
    cbn [de]. change (@de_map data data (de tk) (de tv) dinsert m) with (de_map_loop (de tk) (de tv) dinsert m []).
    assert (E : de_map_loop (de tk) (de tv) dinsert m [] = Done r).
    { apply de_map_fold. exists r. split.
      - eapply Forall2_impl_in; [|exact F]. intros [k x] [a b] Hk [H1 H2]. cbn in *. split; [apply IHk; [now constructor | auto] | apply IHv; eauto].
      - symmetry. erewrite (strict_keys_distinct false false tk m r []); eauto. eapply Forall2_impl_in; [|exact F]. intros ? ? _ [? _]; assumption. }
    rewrite E. reflexivity.
  - assert (K : NoDup (map fst fs) /\ forall n t, In (n, t) fs -> proper t) by par P. destruct K as [ND Pf].
    assert (I : forall n t, In (n, t) fs -> direct_ok t).
    { intros n t Ht. eapply IH; eauto; [inversion Ne; eauto | inversion Nf as [? X| | | | | | |]; subst; [destruct X | eauto]]. }
    inversion H as [| | | | | | | | | | | | | | | | | | | |? ? l (m & ->) F|? l r X|]; subst; [|discriminate X]. apply uniq_map in U as [NM Um].
    apply de_struct_done; auto. exists l. split; auto. eapply Forall2_impl_in; [|exact F]. intros [n t] x Hf [E1 [(y & Hy & Hd)|(N & O)]]; (split; [exact E1|]); cbn [fst snd] in *.
    + left. exists y. apply holds_map in Hy. split; auto. eapply I; eauto.
    + right. split; auto. intros y Hy. apply (N y). now apply holds_map.
  - assert (I : direct_ok t) by (apply IH; [par P | inversion Ne; auto | inversion Nf as [? X| | | | | | |]; subst; [destruct X | auto]]).
    inversion H as [| | | | | | | | | | | | | | | ? ? x Hx| | | | | | |]; subst. cbn [de]. rewrite (I _ U _ Hx). reflexivity.
  - assert (I : forall t, In t ts -> direct_ok t).
    { intros t Ht. apply IH; auto; [par P; auto | inversion Ne; auto | inversion Nf as [? X| | | | | | |]; subst; [destruct X | auto]]. }
    inversion H as [| | | | | | | | | | | | | | | | | |? ? l r F| | | |]; subst. cbn [de]. rewrite (each_direct ts I _ _ l r); auto. now apply uniq_arr.
  - inversion H; subst; [reflexivity | discriminate..].
  - inversion Ne.
  - inversion H; subst. cbn [de]. rewrite de_value_identity by auto. reflexivity.
Qed.

(** Where both read, no licence was used. *)
Definition plain_ok (t : ty) : Prop := forall l p v, uniq v -> forall d d', de t v = Done d -> strict l p t v d' -> strict false false t v d'.
Lemma each_plain l p ts : (forall t, In t ts -> plain_ok t) -> forall what i vs ds ds', (forall x, In x vs -> uniq x) ->
  de_tuple what i (map (fun t => de t) ts) vs = Done ds -> strict_each l p ts vs ds' -> strict_each false false ts vs ds'.
Proof.
  induction ts as [|t ts IH]; intros O what i vs ds ds' U D H; inversion H as [|? ? x xs d dt Hd Hs]; subst; [constructor|].
  cbn in D. apply obind_done in D as (y & Hy & D). apply obind_done in D as (ys & D & _). constructor.
  - eapply O; eauto; [left; auto | apply U; left; auto].
  - eapply IH; eauto; [intros; apply O; right; auto | intros; apply U; right; auto].
Qed.
Lemma both_plain t : proper t -> no_enum t -> plain_ok t.
Proof.
  induction t as [ |t| | | | | | |t IH|t IH|ts IH|tk tv IHk IHv|fs IH|t IH|n ts IH| | | ] using ty_ind'; intros P Ne l p v U d d' D H.
  - inversion H; constructor.
  - inversion H; subst; constructor; auto.
  - inversion H as [| | | | |? z W| | | | | | | | | | | | | | | | |]; subst; [constructor | apply StF32Whole; auto].
  - inversion H as [| | |? z W| | | | | | | | | | | | | | | | | | |]; subst; [constructor | apply StF64Whole; auto].
  - inversion H; constructor.
  - inversion H; constructor.
  - inversion Ne.
  - inversion H; subst; [constructor | discriminate D].
  - assert (I : plain_ok t) by (apply IH; [par P | inversion Ne; auto]).
    inversion H as [| | | | | | | | | | | | | |? ? x Nv Hx| | | | | | | |]; subst; [constructor|]. apply StSome; auto.
    assert (X : exists d0, de t v = Done d0) by (cbn [de] in D; destruct v; try contradiction; apply obind_done in D as (y & Hy & _); eauto).
    destruct X. eapply I; eauto.
  - assert (I : plain_ok t) by (apply IH; [par P | inversion Ne; auto]).
    inversion H as [| | | | | | | | | | | | | | | |? vs r F| | | | | |]; subst. apply seq_iff in D as (vs' & ds & [= <-] & -> & G). constructor.
    assert (Ul : forall x, In x vs -> uniq x) by (now apply uniq_arr). clear - I F G Ul. revert ds G. induction F as [|a b vs r Hab F IHF]; intros ds G; [constructor|].
    inversion G; subst. constructor; [eapply I; eauto; apply Ul; left; auto | eapply IHF; eauto; intros; apply Ul; right; auto].
  - assert (I : forall t, In t ts -> plain_ok t) by (intros t Ht; apply IH; auto; [par P; auto | inversion Ne; auto]).
    inversion H as [| | | | | | | | | | | | | | | | |? vs r F| | | | |]; subst. cbn [de] in D. apply obind_done in D as (ds & D & _). constructor. eapply each_plain; eauto. now apply uniq_arr.
  - assert (K : key_type tk /\ proper tv) by par P. destruct K as [K Pv].
    assert (N : no_enum tk /\ no_enum tv) by (inversion Ne; auto). destruct N as [Nk Nv].
    specialize (IHk (key_proper tk K) Nk). specialize (IHv Pv Nv).
    inversion H as [| | | | | | | | | | | | | | | | | | |? ? m r F| | |]; subst. apply uniq_map in U as [ND Um]. cbn [de] in D.
    change (@de_map data data (de tk) (de tv) dinsert m) with (de_map_loop (de tk) (de tv) dinsert m []) in D. apply obind_done in D as (es & D & _).
    apply de_map_fold in D as (ps & G & _). constructor. clear ND H. revert ps G. induction F as [|[k x] [a b] m r [H1 H2] F IHF]; intros ps G; [constructor|].
    inversion G as [|? [a' b'] ? ? [G1 G2] G']; subst. cbn [fst snd] in *. constructor; cbn [fst snd].
    + split; [eapply IHk; eauto; constructor; exact I | eapply IHv; eauto; eapply Um; left; reflexivity].
    + eapply IHF; eauto; intros; eapply Um; right; eauto.
  - assert (K : NoDup (map fst fs) /\ forall n t, In (n, t) fs -> proper t) by par P. destruct K as [ND Pf].
    assert (I : forall n t, In (n, t) fs -> plain_ok t) by (intros n t Ht; eapply IH; eauto; inversion Ne; eauto).
    inversion H as [| | | | | | | | | | | | | | | | | | | |? ? r (m & ->) F|? vs r X|]; subst; [|discriminate D]. apply uniq_map in U as [NM Um].
    apply de_struct_done in D as (ds & -> & G); auto. apply StStruct; [eexists; reflexivity|].
    assert (G' : forall n t y, In (n, t) fs -> holds (VMap m) n y -> exists z, de t y = Done z).
    { intros n t y Hf Hy. destruct (Forall2_in_l _ _ _ (n, t) G Hf) as ([n' z] & _ & _ & [(y' & Hy' & Hd)|(N & _)]); cbn [fst snd] in *.
      - apply holds_map in Hy. apply In_mget in Hy, Hy'; auto. assert (y = y') as -> by congruence. eauto.
      - apply holds_map in Hy. destruct (N y Hy). }
    eapply Forall2_impl_in; [|exact F]. intros [n t] x Hf [E1 [(y & Hy & Hd)|(N & O)]]; (split; [exact E1|]); cbn [fst snd] in *.
    + left. exists y. split; auto. destruct (G' n t y Hf Hy) as (z & Hz). eapply I; eauto. apply holds_map in Hy. eauto.
    + right. auto.
  - assert (I : plain_ok t) by (apply IH; [par P | inversion Ne; auto]).
    inversion H as [| | | | | | | | | | | | | | | ? ? x Hx| | | | | | |]; subst. cbn [de] in D. apply obind_done in D as (y & Hy & _). constructor. eapply I; eauto.
  - assert (I : forall t, In t ts -> plain_ok t) by (intros t Ht; apply IH; auto; [par P; auto | inversion Ne; auto]).
    inversion H as [| | | | | | | | | | | | | | | | | |? ? vs r F| | | |]; subst. cbn [de] in D. apply obind_done in D as (ds & D & _). constructor. eapply each_plain; eauto. now apply uniq_arr.
  - inversion H; subst; [constructor | discriminate D..].
  - inversion Ne.
  - inversion H; subst. constructor.
Qed.
Lemma both_agree t l p v d d' : proper t -> no_enum t -> no_f32 t -> uniq v -> de t v = Done d -> strict l p t v d' -> d' = d.
Proof.
  intros P N F U D S. pose proof (both_plain t P N l p v U d d' D S) as S'. apply strict_direct in S'; auto. congruence.
Qed.
