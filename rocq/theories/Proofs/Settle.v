(** Typed settings out of many layers (C111). *)
From Coq Require Import ZArith Bool String Lia List.
Import ListNotations.
From Verif.Model Require Import Text Num Flt Value Convert Serde Merge World Layers Config.
From Verif.Spec Require Import Spec Numerals ConfigSpec SerdeSpec ReadSpec OverrideSpec SettleSpec.
From Verif.Proofs Require Import Basics Conversions Merge ConfigBuild SerProofs DeProofs SerdeMore RoundTrip Loaded ReadAs Override.
Open Scope Z_scope.

Definition layer_maps (ms : list value) : Prop := forall v, In v ms -> mapv v /\ uniq v.
(** v is what the mentions cs amount to. *)
Definition amounts (cs : list value) (v : value) : Prop :=
  exists cs' x, cs = cs' ++ [x] /\ ((~ mapv x /\ v = x) \/ exists tm, mapv x /\ trailing_maps cs tm /\ v = merge_all tm).

Lemma snoc_case {A} (l : list A) : l <> [] -> exists l' x, l = l' ++ [x].
Proof. intros N. destruct l as [|x l _] using rev_ind; [contradiction | eauto]. Qed.
Lemma amounts_total c cs : exists v, amounts (c :: cs) v.
Proof.
  destruct (snoc_case (c :: cs)) as (cs' & x & E); [discriminate|]. destruct (mapv_dec x) as [M|N].
  - destruct (trailing_total (c :: cs)) as [tm T]. exists (merge_all tm). exists cs', x. split; auto. right. eauto.
  - exists x, cs', x. auto.
Qed.
Lemma defs_amounts ms k c cs v : layer_maps ms -> defs k ms (c :: cs) -> amounts (c :: cs) v -> holds (merge_all ms) k v.
Proof.
  intros W D (cs' & x & E & [[N ->]|(tm & M & T & ->)]); destruct (merge_all_key ms k W _ D) as (_ & K2 & K3); eauto.
Qed.
Lemma holds_amounts ms k y : layer_maps ms -> holds (merge_all ms) k y -> exists c cs, defs k ms (c :: cs) /\ amounts (c :: cs) y.
Proof.
  intros W H. destruct (defs_total k ms) as [[|c cs] D].
  - exfalso. exact (proj1 (merge_all_key ms k W _ D) eq_refl y H).
  - exists c, cs. split; auto. destruct (amounts_total c cs) as [v A]. pose proof (defs_amounts _ _ _ _ _ W D A) as H'.
    assert (U : uniq (merge_all ms)) by (apply merge_all_uniq; intros; now apply W). now rewrite (holds_fun _ _ _ _ U H H').
Qed.
Lemma defs_fun k ms cs cs' : layer_maps ms -> defs k ms cs -> defs k ms cs' -> cs = cs'.
Proof.
  intros W D. revert cs'; induction D as [|m x ms cs H D IH|m ms cs L D IH]; intros cs' D'; inversion D' as [|? y ? ? H' D2|? ? ? L' D2]; subst; auto.
  - f_equal; [|apply IH; auto; intros v Hv; apply W; cbn; auto]. apply (holds_fun m k); auto. apply W; cbn; auto.
  - now apply L' in H.
  - now apply L in H'.
  - apply IH; auto. intros v Hv; apply W; cbn; auto.
Qed.
Lemma lacks_defs ms k : layer_maps ms -> (lacks (merge_all ms) k <-> defs k ms []).
Proof.
  intros W. split.
  - intros L. destruct (defs_total k ms) as [[|c cs] D]; auto. exfalso. destruct (amounts_total c cs) as [v A].
    exact (L v (defs_amounts _ _ _ _ _ W D A)).
  - intros D. now apply (merge_all_key ms k W _ D).
Qed.
Lemma mentions_uniq k ms cs x : layer_maps ms -> defs k ms cs -> In x cs -> uniq x.
Proof. intros W D H. destruct (defs_In _ _ _ _ D H) as (m & Hm & Hh). exact (holds_uniq _ _ _ (proj2 (W m Hm)) Hh). Qed.
Lemma trailing_layers k ms cs tm : layer_maps ms -> defs k ms cs -> trailing_maps cs tm -> layer_maps tm.
Proof. intros W D T v Hv. destruct (trailing_In _ _ _ T Hv) as [Hc Mv]. split; auto. exact (mentions_uniq _ _ _ _ W D Hc). Qed.

Definition settle_ok (t : ty) : Prop := forall ms, layer_maps ms ->
  (forall d, de t (merge_all ms) = Done d -> settled t ms d) /\
  (forall d, settled t ms d -> exists d', de t (merge_all ms) = Done d' /\ data_equiv d d').
Definition place_ok (t : ty) : Prop := forall cs v, (forall x, In x cs -> uniq x) -> amounts cs v ->
  (forall d, de t v = Done d -> settled_at t cs d) /\
  (forall d, settled_at t cs d -> exists d', de t v = Done d' /\ data_equiv d d').

Lemma trailing_fun cs tm tm' : trailing_maps cs tm -> trailing_maps cs tm' -> tm = tm'.
Proof.
  revert tm tm'; induction cs as [|x cs IH] using rev_ind; intros tm tm' T T'.
  - apply trailing_nil in T, T'. congruence.
  - destruct (mapv_dec x) as [M|N].
    + destruct (trailing_snoc_map _ _ _ M T) as (a & -> & A), (trailing_snoc_map _ _ _ M T') as (b & -> & B). f_equal. auto.
    + apply trailing_nonmap_last in T, T'; auto. congruence.
Qed.
Lemma settle_place t : proper t -> settle_ok t -> place_ok t.
Proof.
  intros P O cs v U (cs' & x & -> & [[N ->]|(tm & M & T & ->)]).
  - assert (Ux : uniq x) by (apply U, in_or_app; cbn; auto). destruct (de_reads t P x Ux) as [R1 R2]. split.
    + intros d D. apply SaLast; auto.
    + intros d S. inversion S as [? c ? ? N' R E1 E2 E3|? c ? ? ? M' T S' E1 E2 E3]; subst; apply app_inj_tail in E2 as [-> ->]; [auto | contradiction].
  - assert (W : layer_maps tm).
    { intros y Hy. destruct (trailing_In _ _ _ T Hy) as [Hc My]. auto. }
    destruct (O tm W) as [O1 O2]. split.
    + intros d D. eapply SaMaps; eauto.
    + intros d S. inversion S as [? c ? ? N' R E1 E2 E3|? c ? ms' ? M' T' S' E1 E2 E3]; subst; apply app_inj_tail in E2 as [-> ->]; [contradiction|].
      apply O2. now rewrite (trailing_fun _ _ _ T T').
Qed.

Lemma struct_settle fs : NoDup (map fst fs) -> (forall n t, In (n, t) fs -> proper t) ->
  (forall n t, In (n, t) fs -> place_ok t) -> settle_ok (TStruct fs).
Proof.
  intros ND P O ms W.
  assert (U : uniq (merge_all ms)) by (apply merge_all_uniq; intros; now apply W). pose proof (merge_all_mapv ms) as M.
  split.
  - intros d D. apply struct_iff in D as (l & -> & F); auto. constructor. clear ND P.
    induction F as [|[n t] [n' d] fs l [E H] F IH]; [constructor|]. cbn in E, H; subst n'.
    specialize (IH (fun n t H => O n t (or_intror H))). destruct H as [(x & Hx & Dx)|(L & (u & ->) & ->)].
    + destruct (holds_amounts _ _ _ W Hx) as (c & cs & D & A). eapply SfSet; eauto.
      apply (O n t (or_introl eq_refl) (c :: cs) x); auto. intros y Hy. exact (mentions_uniq _ _ _ _ W D Hy).
    + apply SfMissing; auto. now apply lacks_defs.
  - intros d S. inversion S as [| |? ? l F| |]; subst.
    assert (G : exists l', Forall2 (field_becomes (fun t x d => de t x = Done d) (merge_all ms)) fs l'
       /\ map fst l = map fst l' /\ Forall2 data_equiv (map snd l) (map snd l')).
    { clear ND P S. revert l F; induction fs as [|[n t] fs IH]; intros l F.
      - inversion F; subst. exists []. split; [constructor | split; [reflexivity | constructor]].
      - specialize (IH (fun n t H => O n t (or_intror H))). inversion F as [|? ? ? ? c cs d l0 D S F'|? ? u ? l0 D F']; subst.
        + destruct (IH l0 F') as (l' & G1 & G2 & G3). destruct (amounts_total c cs) as [v A].
          destruct (O n t (or_introl eq_refl) (c :: cs) v) as [_ O2]; [intros y Hy; exact (mentions_uniq _ _ _ _ W D Hy) | auto|].
          destruct (O2 d S) as (d' & D' & E'). exists ((n, d') :: l'). split; [|split; [cbn; congruence | constructor; auto]].
          constructor; auto. split; [reflexivity|]. left. exists v. split; auto. exact (defs_amounts _ _ _ _ _ W D A).
        + destruct (IH l0 F') as (l' & G1 & G2 & G3). exists ((n, DNone) :: l'). split; [|split; [cbn; congruence | constructor; [constructor; exact I | auto]]].
          constructor; auto. split; [reflexivity|]. right. cbn. split; [now apply lacks_defs | eauto]. }
    destruct G as (l' & G1 & G2 & G3). exists (DStruct l'). split; [apply struct_iff; eauto | now constructor].
Qed.

Lemma map_settle tk tv : text_key tk -> place_ok tv -> settle_ok (TMap tk tv).
Proof.
  intros K O ms W.
  assert (U : uniq (merge_all ms)) by (apply merge_all_uniq; intros; now apply W).
  pose proof (fun k y => holds_amounts ms k y W) as HA. pose proof (fun k c cs v => defs_amounts ms k c cs v W) as DA.
  destruct (merge_all_mapv ms) as [w Ew]. rewrite Ew in *. apply uniq_map in U as [Nw Uw].
  assert (KK : forall k k' a, de tk (VStr k) = Done a -> de tk (VStr k') = Done a -> k = k')
    by (intros k k' a E E'; apply (text_key_round tk k a K E k' a E'); reflexivity).
  pose proof (fun k a => key_reads tk k a (text_is_key _ K)) as KR.
  split.
  - intros d D. apply de_text_map in D as (es & -> & F); auto. destruct (text_map_entries _ _ _ _ K Nw F) as [Ne He]. apply SeMap; auto.
    + intros a b H. apply He in H as (k & y & Hk & Ea & Eb). apply holds_map in Hk. destruct (HA k y Hk) as (c & cs & D & A).
      exists k, c, cs. split; [now apply KR|]. split; auto. apply (O (c :: cs) y); auto. intros z Hz. exact (mentions_uniq _ _ _ _ W D Hz).
    + intros k a c cs D R. apply KR in R. destruct (amounts_total c cs) as [v A]. pose proof (DA _ _ _ _ D A) as H. apply holds_map in H.
      destruct (Forall2_in_l _ _ _ _ F H) as ([a' b'] & Hb' & Ea' & _). cbn in Ea'.
      assert (a' = a) as -> by congruence. apply (in_map fst) in Hb'. exact Hb'.
  - intros d S. inversion S as [| | |? ? ? r Nr H1 H2|]; subst.
    assert (G : forall k y a, In (k, y) w -> de tk (VStr k) = Done a -> exists b b', In (a, b) r /\ de tv y = Done b' /\ data_equiv b b').
    { intros k y a Hk Ea. apply holds_map in Hk. destruct (HA k y Hk) as (c & cs & D & A).
      assert (Ir : In a (map fst r)) by (eapply H2; eauto; now apply KR).
      apply in_map_iff in Ir as ([a' b] & E & Ir). cbn in E; subst a'. exists b.
      destruct (H1 a b Ir) as (k' & c' & cs' & Rk & D' & S'). apply KR in Rk. rewrite <- (KK k k' a Ea Rk) in D'.
      pose proof (defs_fun _ _ _ _ W D D') as E. rewrite <- E in S'.
      destruct (O (c :: cs) y) as [_ O2]; [intros z Hz; exact (mentions_uniq _ _ _ _ W D Hz) | auto|].
      destruct (O2 b S') as (b' & Eb & Q). exists b'. auto. }
    destruct (forall_Forall2 (fun e p => de tk (VStr (fst e)) = Done (fst p) /\ de tv (snd e) = Done (snd p)) w) as [es' F'].
    { intros [k y] Hk. destruct (text_key_done tk k K) as (a & Ea). destruct (G k y a Hk Ea) as (b & b' & _ & E & _). exists (a, b'). auto. }
    destruct (text_map_entries _ _ _ _ K Nw F') as [Ne' He'].
    exists (DMap es'). split; [apply de_text_map; eauto|]. apply DeMap.
    + intros a b Hr. destruct (H1 a b Hr) as (k & c & cs & Rk & D & Sb). apply KR in Rk.
      destruct (amounts_total c cs) as [y A]. pose proof (DA _ _ _ _ D A) as Hy. apply holds_map in Hy.
      destruct (G k y a Hy Rk) as (b1 & b' & I1 & E1 & Q). rewrite (nodup_fst r a b b1 Nr Hr I1).
      exists b'. split; auto. apply He'. eauto.
    + intros a b' H. apply He' in H as (k & y & Hk & Ea & Eb). destruct (G k y a Hk Ea) as (b & b1 & I & E & Q). exists b. split; auto. congruence.
Qed.

Lemma value_settle : settle_ok TValue.
Proof.
  intros ms W. assert (U : uniq (merge_all ms)) by (apply merge_all_uniq; intros; now apply W).
  cbn [de]. rewrite de_value_identity by auto. split.
  - intros d [= <-]. remember (merge_all ms) as v eqn:Ev. revert ms W Ev U.
    induction v as [v S|l IH|n IH] using value_ind'; intros ms W Ev U;
      destruct (merge_all_mapv ms) as [w Ew]; rewrite <- Ev in Ew; try (rewrite Ew in S; destruct S; fail); try discriminate.
    apply SeValue; auto.
    + eexists; reflexivity.
    + intros k y H. pose proof H as H'. rewrite Ev in H'. destruct (holds_amounts _ _ _ W H') as (c & cs & D & A). exists c, cs. split; auto.
      pose proof (holds_uniq _ _ _ U H) as Uy. apply holds_map in H. destruct A as (cs' & x & E & [[N ->]|(tm & M & T & Ey)]).
      * rewrite E. apply SaLast; auto. constructor.
      * rewrite E in *. eapply SaMaps; eauto. apply (IH k y H tm); auto. exact (trailing_layers _ _ _ _ W D T).
    + intros k L. apply lacks_defs; auto. now rewrite <- Ev.
  - intros d S. eexists. split; [reflexivity|]. inversion S as [| | | |? u Mu Uu H1 H2]; subst. constructor. clear S.
    revert ms W Mu Uu H1 H2 U. induction u as [u Su|l IH|n IH] using value_ind'; intros ms W Mu Uu H1 H2 U.
    + destruct Mu as [m ->]. destruct Su.
    + destruct Mu as [m E]. discriminate.
    + destruct (merge_all_mapv ms) as [w Ew]. rewrite Ew in *.
      assert (G : forall k y z, In (k, y) n -> In (k, z) w -> vequiv y z).
      { intros k y z Hy Hz. pose proof Hy as Hy'. apply holds_map in Hy'. destruct (H1 k y Hy') as (c & cs & D & S).
        apply holds_map in Hz. rewrite <- Ew in Hz, U. destruct (holds_amounts _ _ _ W Hz) as (c' & cs' & D' & A).
        rewrite <- (defs_fun _ _ _ _ W D D') in A. destruct A as (c1 & x & E & [[N ->]|(tm & M & T & ->)]); rewrite E in *.
        - inversion S as [? ? ? ? N' R E1 E2 E3|? ? ? ? ? M' T S' E1 E2 E3]; subst; apply app_inj_tail in E2 as [-> ->]; [|contradiction].
          inversion R; subst. apply vequiv_refl.
        - inversion S as [? ? ? ? N' R E1 E2 E3|? ? ? ms' ? M' T' S' E1 E2 E3]; subst; apply app_inj_tail in E2 as [-> ->]; [contradiction|].
          rewrite <- (trailing_fun _ _ _ T T') in S'. pose proof (trailing_layers _ _ _ _ W D T) as Wt.
          inversion S' as [| | | |? ? My Uy K1 K2]; subst. apply (IH k y Hy tm); auto. exact (holds_uniq _ _ _ U Hz). }
      apply EqvMap.
      * intros k y Hy. destruct (holds_or_lacks (VMap w) k) as [[z Hz]|L].
        -- apply holds_map in Hz. eauto.
        -- exfalso. rewrite <- Ew in L. apply lacks_defs in L; auto. apply holds_map in Hy. destruct (H1 k y Hy) as (c & cs & D & _).
           pose proof (defs_fun _ _ _ _ W D L). discriminate.
      * intros k z Hz. destruct (holds_or_lacks (VMap n) k) as [[y Hy]|L].
        -- apply holds_map in Hy. eauto.
        -- exfalso. apply H2 in L. apply holds_map in Hz. rewrite <- Ew in Hz. apply lacks_defs in L; auto. now apply L in Hz.
Qed.

Theorem de_settled t : proper t -> text_maps t -> settle_ok t.
Proof.
  assert (NoMap : forall t0, (forall m d, de t0 (VMap m) <> Done d) -> (forall ms d, ~ settled t0 ms d) -> settle_ok t0).
  { intros t0 N S ms W. destruct (merge_all_mapv ms) as [m E]. rewrite E. split; intros d H; [now apply N in H | now apply S in H]. }
  induction t as [|i| | | | | | |t IH|t IH|ts IH|tk tv IHk IHv|fs IH|t IH|n ts IH| | |] using ty_ind'; intros P T;
    try (apply NoMap; [intros m d D; cbn [de] in D; discriminate | intros ms d S; inversion S]; fail).
  - apply NoMap; [|intros ms d S; inversion S]. intros m d D. cbn [de] in D. unfold de_int in D.
    destruct i; try discriminate; apply obind_done in D as (z & D & _); apply of_result_ok in D; discriminate.
  - assert (Pt : proper t) by (inversion P as [? X| | | | | | |]; subst; [destruct X | auto]).
    assert (Tt : text_maps t) by (inversion T; auto). intros ms W. destruct (IH Pt Tt ms W) as [I1 I2].
    destruct (merge_all_mapv ms) as [w Ew]. rewrite Ew in *. split.
    + intros d D. cbn [de] in D. apply obind_done in D as (a & D & [= <-]). apply SeSome; auto.
    + intros d S. inversion S as [? ? d0 S0| | | |]; subst. destruct (I2 d0 S0) as (d1 & D1 & E1).
      exists (DSome d1). split; [cbn [de]; rewrite D1; reflexivity | now constructor].
  - assert (K : key_type tk /\ proper tv) by (inversion P as [? X| | | | | | |]; subst; [destruct X | auto]). destruct K as [_ Pv].
    inversion T; subst. apply map_settle; auto. apply settle_place; auto.
  - assert (K : NoDup (map fst fs) /\ forall n t, In (n, t) fs -> proper t) by (inversion P as [? X| | | | | | |]; subst; [destruct X | auto]).
    destruct K as [ND Pf]. inversion T; subst. apply struct_settle; auto. intros n t H. apply settle_place; eauto.
  - assert (Pt : proper t) by (inversion P as [? X| | | | | | |]; subst; [destruct X | auto]).
    assert (Tt : text_maps t) by (inversion T; auto). intros ms W. destruct (IH Pt Tt ms W) as [I1 I2]. split.
    + intros d D. cbn [de] in D. apply obind_done in D as (a & D & [= <-]). apply SeNewtype; auto.
    + intros d S. inversion S as [|? ? d0 S0| | |]; subst. destruct (I2 d0 S0) as (d1 & D1 & E1).
      exists (DNewtype d1). split; [cbn [de]; rewrite D1; reflexivity | now constructor].
  - exact value_settle.
Qed.

(** ** For the properties *)
Lemma build_reads w c r r' vs ms skip v : registered c r -> without_failing w r r' -> reads w r' (map Ok vs) ->
  (forall x, In x vs -> wf x) -> only_maps vs ms -> build_value w c skip = Ok v ->
  v = merge_all ms /\ layer_maps ms.
Proof.
  intros R F Rd W O B. assert (E : build_value w c true = Ok v).
  { destruct skip; auto. destruct (without_failing_registered w r r' F (proj1 (proj2 R))) as [c' R']. now apply (lenient_build w c r r' c' R F R'). }
  rewrite (build_value_list w c r true R), (build_list_without w r r' F) in E. apply reads_split in Rd.
  rewrite (build_list_ok _ _ _ _ Rd) in E. change (fold_left v_merge vs new_map) with (fold_left v_merge vs (VMap [])) in E.
  rewrite (fold_only_maps _ _ O) in E. injection E as <-. split; [reflexivity|].
  intros x Hx. destruct (only_maps_In _ _ _ O Hx) as [Hv Mx]. split; auto. now apply wf_uniq, W.
Qed.

Lemma leaf_no_map t ms d : leaf_type t -> ~ settled t ms d.
Proof. intros L; revert d; induction L as [t H|t L IH|t L IH]; intros d S; [inversion S; subst; destruct H | inversion S; subst; eapply IH; eassumption | inversion S; subst; eapply IH; eassumption]. Qed.
Lemma leaf_place t cs x d : leaf_type t -> (settled_at t (cs ++ [x]) d <-> ~ mapv x /\ reads_as t x d).
Proof.
  intros L. split.
  - intros S. inversion S as [? ? ? ? N R E1 E2 E3|? ? ? ? ? M T S' E1 E2 E3]; subst; apply app_inj_tail in E2 as [-> ->]; auto.
    now apply leaf_no_map in S'.
  - intros [N R]. now apply SaLast.
Qed.
Lemma settled_field ms fs l n t d : NoDup (map fst fs) -> settled_fields ms fs l -> In (n, t) fs -> In (n, d) l ->
  (exists c cs, defs n ms (c :: cs) /\ settled_at t (c :: cs) d) \/ (defs n ms [] /\ (exists u, t = TOption u) /\ d = DNone).
Proof.
  intros ND F. assert (Nl : map fst l = map fst fs) by (clear ND; induction F; cbn; congruence).
  induction F as [|ms m u fs c cs e l D S F IH|ms m u fs l D F IH]; intros Hf Hl; [destruct Hf| |];
    cbn in ND, Nl; inversion ND as [|? ? N1 N2]; subst; injection Nl as Nl; specialize (IH N2 Nl).
  - destruct Hf as [[= -> ->]|Hf].
    + destruct Hl as [[= ->]|Hl]; [eauto|]. exfalso. apply N1. rewrite <- Nl. apply (in_map fst) in Hl. exact Hl.
    + destruct Hl as [[= -> ->]|Hl]; [|auto]. exfalso. apply N1. apply (in_map fst) in Hf. exact Hf.
  - destruct Hf as [[= -> <-]|Hf].
    + destruct Hl as [[= <-]|Hl]; [eauto|]. exfalso. apply N1. rewrite <- Nl. apply (in_map fst) in Hl. exact Hl.
    + destruct Hl as [[= -> ->]|Hl]; [|auto]. exfalso. apply N1. apply (in_map fst) in Hf. exact Hf.
Qed.
