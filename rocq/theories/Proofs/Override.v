(** Typed data overridden by a later layer (C93). *)
From Coq Require Import ZArith Bool String Lia List.
Import ListNotations.
From Verif.Model Require Import Text Num Flt Value Convert Serde Merge.
From Verif.Spec Require Import Spec Numerals SerdeSpec ReadSpec OverrideSpec.
From Verif.Proofs Require Import Basics Conversions Merge SerProofs DeProofs SerdeMore RoundTrip Loaded ReadAs.
Open Scope Z_scope.

Definition overlay (v x : value) : value := if is_map v && is_map x then v_merge v x else x.
Lemma overlay_maps v x : mapv v -> mapv x -> overlay v x = v_merge v x.
Proof. intros A B. apply is_map_iff in A, B. unfold overlay. now rewrite A, B. Qed.
Lemma overlay_not v x : ~ (mapv v /\ mapv x) -> overlay v x = x.
Proof.
  intros N. unfold overlay. destruct (is_map v && is_map x) eqn:E; auto. apply andb_true_iff in E as [A B].
  apply is_map_iff in A, B. tauto.
Qed.
Lemma both_dec v x : (mapv v /\ mapv x) \/ ~ (mapv v /\ mapv x).
Proof. destruct (mapv_dec v), (mapv_dec x); tauto. Qed.
Lemma overlay_uniq v x : uniq v -> uniq x -> uniq (overlay v x).
Proof. intros U V. destruct (both_dec v x) as [[A B]|N]; [rewrite overlay_maps by auto; now apply v_merge_uniq | now rewrite overlay_not]. Qed.

Lemma holds_or_lacks v k : (exists x, holds v k x) \/ lacks v k.
Proof.
  destruct (mapv_dec v) as [[m ->]|N].
  - destruct (mget k m) as [x|] eqn:E; [left; exists x; apply holds_map, mget_In, E|].
    right. intros x H. apply holds_map in H. exact (proj1 (mget_None_In k m) E x H).
  - right. intros x (m & -> & _). apply N. eexists; reflexivity.
Qed.
Lemma holds_uniq v k x : uniq v -> holds v k x -> uniq x.
Proof. intros U (m & -> & H). apply uniq_map in U as [_ U]. eauto. Qed.
Lemma merge_holds_overlay v x k y : uniq v -> uniq x -> mapv v -> mapv x ->
  (holds (v_merge v x) k y <->
     (holds v k y /\ lacks x k) \/ (lacks v k /\ holds x k y) \/ exists a b, holds v k a /\ holds x k b /\ y = overlay a b).
Proof.
  intros U V A B. rewrite merge_holds by auto. split.
  - intros [[L H]|[[H N]|(a & b & Ha & Hb & Ma & Mb & ->)]]; [auto | |].
    + right. destruct (holds_or_lacks v k) as [[a Ha]|L]; [right | auto]. exists a, y. rewrite overlay_not; auto.
    + right; right. exists a, b. rewrite overlay_maps; auto.
  - intros [[H L]|[[L H]|(a & b & Ha & Hb & ->)]]; [auto | |].
    + right; left. split; auto. intros a Ha. now apply L in Ha.
    + right. destruct (both_dec a b) as [[Ma Mb]|N]; [right | left].
      * exists a, b. rewrite overlay_maps; auto.
      * rewrite overlay_not by auto. split; auto. intros a' Ha'. now rewrite (holds_fun v k a' a).
Qed.

Lemma overlaid_overlay x : forall v, uniq v -> uniq x -> overlaid v x (overlay v x).
Proof.
  induction x as [x S|l IH|n IH] using value_ind'; intros v U V;
    (match type of V with uniq ?y => destruct (both_dec v y) as [[A B]|N] end; [|rewrite overlay_not by auto; now constructor]).
  - destruct B as [? ->]. destruct S.
  - destruct B as [? B]. discriminate.
  - rewrite overlay_maps by auto. apply OvMaps; auto.
    + now apply v_merge_mapv.
    + now apply v_merge_uniq.
    + intros k y H. apply merge_holds_overlay in H as [H|[H|(a & b & Ha & Hb & ->)]]; auto.
      right; right. exists a, b. repeat split; auto. pose proof Hb as Hb'. apply holds_map in Hb'. apply (IH k b Hb').
      * exact (holds_uniq _ _ _ U Ha).
      * exact (holds_uniq _ _ _ V Hb).
    + intros k L. now apply merge_no_other in L.
Qed.
Lemma overlaid_equiv v x r : overlaid v x r -> uniq v -> uniq x -> vequiv r (overlay v x).
Proof.
  revert v r; induction x as [x S|l IH|n IH] using value_ind'; intros v r O U V; inversion O as [? ? N|? ? ? A B C D H1 H2]; subst;
    try (rewrite overlay_not by auto; apply vequiv_refl).
  - destruct B as [? ->]. destruct S.
  - destruct B as [? B]. discriminate.
  - rewrite overlay_maps by auto. destruct (v_merge_mapv v (VMap n) A) as [w Ew]. destruct C as [rm ->].
    rewrite Ew. pose proof (v_merge_uniq (VMap n) v U V) as Uw. rewrite Ew in Uw.
    assert (MH : forall k y, In (k, y) w <-> (holds v k y /\ lacks (VMap n) k) \/ (lacks v k /\ holds (VMap n) k y)
      \/ exists a b, holds v k a /\ holds (VMap n) k b /\ y = overlay a b)
      by (intros k y; rewrite <- merge_holds_overlay, Ew, holds_map by auto; reflexivity).
    apply EqvMap.
    + intros k y Hy. apply holds_map in Hy. destruct (H1 k y Hy) as [H|[H|(a & b & Ha & Hb & O')]].
      * exists y. split; [apply MH; auto | apply vequiv_refl].
      * exists y. split; [apply MH; auto | apply vequiv_refl].
      * exists (overlay a b). split; [apply MH; right; right; eauto|]. pose proof Hb as Hb'. apply holds_map in Hb'.
        apply (IH k b Hb' a y O'); [exact (holds_uniq _ _ _ U Ha) | exact (holds_uniq _ _ _ V Hb)].
    + intros k y Hy. destruct (holds_or_lacks (VMap rm) k) as [[z Hz]|L].
      * pose proof Hz as Hz'. apply holds_map in Hz'. exists z. split; auto. apply MH in Hy. destruct (H1 k z Hz) as [[K1 K2]|[[K1 K2]|(a & b & Ha & Hb & O')]].
        -- destruct Hy as [[J1 J2]|[[J1 J2]|(a & b & Ha & Hb & ->)]]; [|now apply J1 in K1 | now apply K2 in Hb].
           rewrite (holds_fun v k y z) by auto. apply vequiv_refl.
        -- destruct Hy as [[J1 J2]|[[J1 J2]|(a & b & Ha & Hb & ->)]]; [now apply K1 in J1 | | now apply K1 in Ha].
           rewrite (holds_fun (VMap n) k y z) by auto. apply vequiv_refl.
        -- destruct Hy as [[J1 J2]|[[J1 J2]|(a' & b' & Ha' & Hb' & ->)]]; [now apply J2 in Hb | now apply J1 in Ha|].
           rewrite (holds_fun v k a' a), (holds_fun (VMap n) k b' b) by auto. pose proof Hb as Hb''. apply holds_map in Hb''.
           apply (IH k b Hb'' a z O'); [exact (holds_uniq _ _ _ U Ha) | exact (holds_uniq _ _ _ V Hb)].
      * destruct (H2 k L) as [L1 L2]. apply MH in Hy as [[J1 J2]|[[J1 J2]|(a & b & Ha & Hb & ->)]]; [now apply L1 in J1 | now apply L2 in J2 | now apply L1 in Ha].
Qed.

(** ** Which data come from maps *)
Lemma from_map t : forall v d, uniq v -> de t v = Done d -> (map_datum d <-> mapv v).
Proof.
  assert (NM : forall v : value, (forall m, v <> VMap m) -> ~ mapv v) by (intros v H [m E]; exact (H m E)).
  induction t as [|i| | | | | | |t IH|t IH|ts IH|tk tv IHk IHv|fs IH|t IH|n ts IH| | |] using ty_ind'; intros v d U D; cbn [de] in D;
    try (apply obind_done in D as (a & D & [= <-]); apply of_result_ok in D; split; [intros H; inversion H | intros [m ->]; discriminate]).
  - assert (Z : exists z, into_int i v = Ok z /\ d = DInt i z).
    { unfold de_int in D. destruct i; try discriminate; apply obind_done in D as (z & D & [= <-]); apply of_result_ok in D; eauto. }
    destruct Z as (z & Z & ->). split; [intros H; inversion H | intros [m ->]; discriminate].
  - discriminate.
  - destruct v; try discriminate. injection D as <-. split; [intros H; inversion H | intros [m E]; discriminate].
  - assert (K : (v = VNone /\ d = DNone) \/ exists a, de t v = Done a /\ d = DSome a).
    { destruct v; try (right; apply obind_done in D as (a & D & [= <-]); eauto; fail). left. injection D as <-. auto. }
    destruct K as [[-> ->]|(a & E & ->)]; [split; [intros H; inversion H | intros [m E]; discriminate]|].
    rewrite <- (IH v a U E). split; [intros H; now inversion H | now constructor].
  - destruct v; try discriminate. apply obind_done in D as (a & _ & [= <-]). split; [intros H; inversion H | intros [m E]; discriminate].
  - destruct v; try discriminate. apply obind_done in D as (a & _ & [= <-]). split; [intros H; inversion H | intros [m E]; discriminate].
  - destruct v; try discriminate. apply obind_done in D as (a & _ & [= <-]). split; [eexists; reflexivity | constructor].
  - destruct v; try discriminate. unfold de_struct in D. apply obind_done in D as (a & _ & D). apply obind_done in D as (b & _ & [= <-]).
    split; [eexists; reflexivity | constructor].
  - apply obind_done in D as (a & E & [= <-]). rewrite <- (IH v a U E). split; [intros H; now inversion H | now constructor].
  - destruct v; try discriminate. apply obind_done in D as (a & _ & [= <-]). split; [intros H; inversion H | intros [m E]; discriminate].
  - destruct v; try discriminate. injection D as <-. split; [intros H; inversion H | intros [m E]; discriminate].
  - discriminate.
  - rewrite de_value_identity in D by auto. injection D as <-. split; [intros H; now inversion H | now constructor].
Qed.
Lemma de_self t v d : proper t -> uniq v -> de t v = Done d -> data_equiv d d.
Proof.
  intros P U D. destruct (de_reads t P v U) as [R1 R2]. destruct (R2 d (R1 d D)) as (d' & D' & E).
  assert (d' = d) as <- by congruence. exact E.
Qed.

(** ** Updates *)
Definition upd_ok (t : ty) : Prop := forall v d x, uniq v -> uniq x -> de t v = Done d ->
  (forall d', de t (overlay v x) = Done d' -> updated t d x d') /\
  (forall d', updated t d x d' -> exists d'', de t (overlay v x) = Done d'' /\ data_equiv d' d'').

Lemma upd_maps t : proper t ->
  (forall v d x, uniq v -> uniq x -> mapv v -> mapv x -> map_datum d -> de t v = Done d ->
    (forall d', de t (v_merge v x) = Done d' -> updated t d x d') /\
    (forall d', updated t d x d' -> exists d'', de t (v_merge v x) = Done d'' /\ data_equiv d' d'')) -> upd_ok t.
Proof.
  intros P H v d x U V D. pose proof (from_map t v d U D) as M. destruct (both_dec v x) as [[A B]|N].
  - rewrite overlay_maps by auto. apply H; tauto.
  - rewrite overlay_not by auto. destruct (de_reads t P x V) as [R1 R2]. split.
    + intros d' D'. apply UpReplace; [tauto | auto].
    + intros d' Up. inversion Up; subst; auto; exfalso; apply N; split; auto; apply M; constructor; auto.
Qed.
Lemma updated_fields_names fs l x l' : updated_fields fs l x l' -> map fst l' = map fst fs.
Proof. induction 1; cbn; congruence. Qed.

Lemma updated_fields_app f1 f2 a b x a' b' : updated_fields f1 a x a' -> updated_fields f2 b x b' ->
  updated_fields (f1 ++ f2) (a ++ b) x (a' ++ b').
Proof. induction 1 as [x|n t fs d l x l' L H IH|n t fs d l x y d' l' Hy Hd H IH]; intros K; cbn; auto; [apply UfKept; auto | eapply UfSet; eauto]. Qed.
Lemma struct_upd fs : NoDup (map fst fs) -> (forall n t, In (n, t) fs -> proper t) ->
  (forall n t, In (n, t) fs -> upd_ok t) -> proper (TStruct fs) -> upd_ok (TStruct fs).
Proof.
  intros NF P O Pf. apply upd_maps; auto. intros v d x U V Mv Mx _ D.
  apply struct_iff in D as (l & -> & F); auto.
  pose proof (v_merge_uniq x v U V) as Uw. pose proof (v_merge_mapv v x Mv) as Mw.
  pose proof (fun k y => merge_holds_overlay v x k y U V Mv Mx) as MH.
  pose proof (fun k => merge_no_other v x k Mv Mx U V) as ML.
  split.
  - intros d' D'. apply struct_iff in D' as (l' & -> & F'); auto. apply UpStruct; auto.
    assert (Sub : forall n t, In (n, t) fs -> In (n, t) fs) by auto. revert Sub F F'.
    generalize fs at 1 3 4 5 as gs. intros gs. revert l l'.
    induction gs as [|[n t] gs IH]; intros l l' Sub F F'; (inversion F as [|? [n0 d0] ? l0 [E0 H0] F0]; subst); (inversion F' as [|? [n1 d1] ? lz [E1 H1] F1]; subst).
    + constructor.
    + cbn in E0, E1, H0, H1. subst n0 n1. specialize (IH l0 lz (fun n t H => Sub n t (or_intror H)) F0 F1).
      pose proof (Sub n t (or_introl eq_refl)) as Hn.
      destruct (holds_or_lacks x n) as [[y Hy]|Ly].
      * apply UfSet with y; auto. destruct H0 as [(a & Ha & Da)|(La & (u & ->) & ->)].
        -- assert (Hw : holds (v_merge v x) n (overlay a y)) by (apply MH; right; right; eauto).
           destruct H1 as [(b & Hb & Db)|(L & _)]; [|now apply L in Hw]. rewrite (holds_fun _ n b (overlay a y) Uw Hb Hw) in Db.
           apply (O n t Hn a d0 y); auto; [exact (holds_uniq _ _ _ U Ha) | exact (holds_uniq _ _ _ V Hy)].
        -- assert (Hw : holds (v_merge v x) n y) by (apply MH; auto).
           destruct H1 as [(b & Hb & Db)|(L & _)]; [|now apply L in Hw]. rewrite (holds_fun _ n b y Uw Hb Hw) in Db.
           apply UpReplace; [intros [H _]; inversion H|]. apply (de_reads (TOption u) (P n _ Hn) y); auto. exact (holds_uniq _ _ _ V Hy).
      * assert (d1 = d0) as ->; [|now apply UfKept]. destruct H0 as [(a & Ha & Da)|(La & (u & ->) & ->)].
        -- assert (Hw : holds (v_merge v x) n a) by (apply MH; auto).
           destruct H1 as [(b & Hb & Db)|(L & _)]; [|now apply L in Hw]. rewrite (holds_fun _ n b a Uw Hb Hw) in Db. congruence.
        -- destruct H1 as [(b & Hb & Db)|(_ & _ & ->)]; auto. apply MH in Hb as [[Hb _]|[[_ Hb]|(p & q & Hp & _)]];
             [now apply La in Hb | now apply Ly in Hb | now apply La in Hp].
  - intros d' Up. inversion Up as [? ? ? ? N| | | |? ? ? l' _ UF|]; subst; [exfalso; apply N; split; [constructor | auto]|].
    assert (G : exists l'', Forall2 (field_becomes (fun t x d => de t x = Done d) (v_merge v x)) fs l''
       /\ map fst l' = map fst l'' /\ Forall2 data_equiv (map snd l') (map snd l'')).
    { assert (Sub : forall n t, In (n, t) fs -> In (n, t) fs) by auto. clear Up. revert Sub F UF.
      generalize fs at 1 3 4 5 as gs. intros gs. revert l l'.
      induction gs as [|[n t] gs IH]; intros l l' Sub F UF; inversion F as [|? [n0 d0] ? l0 [E0 H0] F0]; subst.
      - inversion UF; subst. exists []. split; [constructor | split; [reflexivity | constructor]].
      - cbn in E0, H0. subst n0. pose proof (Sub n t (or_introl eq_refl)) as Hn.
        inversion UF as [|? ? ? ? ? ? lr Lx UF'|? ? ? ? ? ? y d1 lr Hy Ud UF']; subst;
          destruct (IH l0 lr (fun n t H => Sub n t (or_intror H)) F0 UF') as (l'' & G1 & G2 & G3).
        + exists ((n, d0) :: l''). assert (Eq : data_equiv d0 d0).
          { destruct H0 as [(a & Ha & Da)|(_ & _ & ->)]; [|now constructor]. apply (de_self t a); eauto. exact (holds_uniq _ _ _ U Ha). }
          split; [|split; [cbn; congruence | constructor; auto]]. constructor; auto. split; [reflexivity|]. cbn.
          destruct H0 as [(a & Ha & Da)|(La & (u & ->) & ->)].
          * left. exists a. split; auto. apply MH; auto.
          * right. split; [apply ML; auto | eauto].
        + destruct H0 as [(a & Ha & Da)|(La & (u & ->) & ->)].
          * destruct (proj2 (O n t Hn a d0 y (holds_uniq _ _ _ U Ha) (holds_uniq _ _ _ V Hy) Da) d1 Ud) as (d2 & D2 & E2).
            exists ((n, d2) :: l''). split; [|split; [cbn; congruence | constructor; auto]]. constructor; auto. split; [reflexivity|]. cbn.
            left. exists (overlay a y). split; auto. apply MH. right; right; eauto.
          * inversion Ud as [? ? ? ? N Rd| | | | |]; subst.
            destruct (proj2 (de_reads (TOption u) (P n _ Hn) y (holds_uniq _ _ _ V Hy)) d1 Rd) as (d2 & D2 & E2).
            exists ((n, d2) :: l''). split; [|split; [cbn; congruence | constructor; auto]]. constructor; auto. split; [reflexivity|]. cbn.
            left. exists y. split; auto. apply MH; auto. }
    destruct G as (l'' & G1 & G2 & G3). exists (DStruct l''). split; [apply struct_iff; eauto | now constructor].
Qed.

Lemma text_is_key tk : text_key tk -> key_type tk.
Proof. induction 1; constructor; auto. Qed.
Lemma forall_Forall2 {A B} (R : A -> B -> Prop) l : (forall x, In x l -> exists y, R x y) -> exists r, Forall2 R l r.
Proof.
  induction l as [|a l IH]; intros H; [exists []; constructor|].
  destruct (H a (or_introl eq_refl)) as [b Hb]. destruct IH as [r Hr]; [intros; apply H; cbn; auto|]. exists (b :: r). now constructor.
Qed.
(** What a text-keyed map reads, by membership. *)
Lemma text_map_entries tk tv m es : text_key tk -> NoDup (map fst m) ->
  Forall2 (fun e p => de tk (VStr (fst e)) = Done (fst p) /\ de tv (snd e) = Done (snd p)) m es ->
  NoDup (map fst es) /\ (forall a b, In (a, b) es <-> exists k y, In (k, y) m /\ de tk (VStr k) = Done a /\ de tv y = Done b).
Proof.
  intros K ND F. assert (M : forall a b, In (a, b) es <-> exists k y, In (k, y) m /\ de tk (VStr k) = Done a /\ de tv y = Done b).
  { intros a b. split.
    - intros H. destruct (Forall2_in_r _ _ _ _ F H) as ([k y] & Hk & E1 & E2). eauto.
    - intros (k & y & H & E1 & E2). destruct (Forall2_in_l _ _ _ _ F H) as ([a' b'] & Hb & E1' & E2'). cbn in *. congruence. }
  split; auto. clear M. induction F as [|[k y] [a b] m es [E1 E2] F IH]; cbn in *; [constructor|].
  inversion ND as [|? ? N1 N2]; subst. constructor; auto. intros H. apply in_map_iff in H as ([a' b'] & Ea & H). cbn in Ea; subst a'.
  destruct (Forall2_in_r _ _ _ _ F H) as ([k' y'] & Hk & E1' & _). cbn in E1'.
  assert (k = k') as -> by (apply (text_key_round tk k a K E1 k' a E1'); reflexivity). apply N1. apply (in_map fst) in Hk. exact Hk.
Qed.
Lemma nodup_fst {A B} (l : list (A * B)) a b b' : NoDup (map fst l) -> In (a, b) l -> In (a, b') l -> b = b'.
Proof.
  induction l as [|[x y] l IH]; cbn; intros ND H H'; [destruct H|]. inversion ND as [|? ? N1 N2]; subst.
  destruct H as [[= -> ->]|H], H' as [[= E]|H']; try congruence; auto.
  - exfalso. apply N1. apply (in_map fst) in H'. exact H'.
  - subst. exfalso. apply N1. apply (in_map fst) in H. exact H.
Qed.

Lemma map_upd tk tv : text_key tk -> proper tv -> upd_ok tv -> proper (TMap tk tv) -> upd_ok (TMap tk tv).
Proof.
  intros K P O Pm. apply upd_maps; auto. intros v d x U V Mv Mx _ D.
  destruct Mv as [m ->]. pose proof U as U0. apply uniq_map in U0 as [Nm Um].
  apply de_text_map in D as (es & -> & F); auto. destruct (text_map_entries _ _ _ _ K Nm F) as [Ne He].
  pose proof (v_merge_uniq x (VMap m) U V) as Uw. assert (Mm : mapv (VMap m)) by (eexists; reflexivity).
  destruct (v_merge_mapv (VMap m) x Mm) as [w Ew]. 
  pose proof (fun k y => merge_holds_overlay (VMap m) x k y U V Mm Mx) as MH.
  pose proof (fun k => merge_no_other (VMap m) x k Mm Mx U V) as ML. rewrite Ew in *.
  pose proof Uw as Uw0. apply uniq_map in Uw0 as [Nw _].
  assert (KK : forall k k' a, de tk (VStr k) = Done a -> de tk (VStr k') = Done a -> k = k')
    by (intros k k' a E E'; apply (text_key_round tk k a K E k' a E'); reflexivity).
  pose proof (fun k a => key_reads tk k a (text_is_key _ K)) as KR.
  assert (RV : forall k y, In (k, y) m -> exists b, de tv y = Done b).
  { intros k y H. destruct (Forall2_in_l _ _ _ _ F H) as ([a b] & _ & _ & E). eauto. }
  split.
  - intros d' D'. apply de_text_map in D' as (es' & -> & F'); auto. destruct (text_map_entries _ _ _ _ K Nw F') as [Ne' He'].
    apply UpMap; auto.
    + intros a b H. apply He' in H as (k & y & Hk & Ea & Eb). exists k. split; [now apply KR|].
      apply holds_map in Hk. apply MH in Hk as [[Hv Lx]|[[Lv Hx]|(p & q & Hp & Hq & ->)]].
      * left. split; auto. apply He. apply holds_map in Hv. eauto.
      * right; left. split.
        -- intros b0 H0. apply He in H0 as (k' & y' & Hk' & Ea' & _). rewrite <- (KK k k' a Ea Ea') in Hk'. apply holds_map in Hk'. now apply Lv in Hk'.
        -- exists y. split; auto. apply (de_reads tv P y); auto. exact (holds_uniq _ _ _ V Hx).
      * right; right. pose proof Hp as Hp'. apply holds_map in Hp'. destruct (RV k p Hp') as (b0 & E0). exists b0, q. split; [apply He; eauto|]. split; auto.
        apply (O p b0 q); auto; [exact (holds_uniq _ _ _ U Hp) | exact (holds_uniq _ _ _ V Hq)].
    + intros a b H. apply He in H as (k & y & Hk & Ea & Eb). destruct (holds_or_lacks (VMap w) k) as [[z Hz]|L].
      * apply holds_map in Hz. destruct (Forall2_in_l _ _ _ _ F' Hz) as ([a' b'] & Hb' & Ea' & _). cbn in Ea'.
        assert (a' = a) as -> by congruence. apply (in_map fst) in Hb'. exact Hb'.
      * apply ML in L as [L _]. apply holds_map in Hk. now apply L in Hk.
    + intros k y a Hx Ra. apply KR in Ra. destruct (holds_or_lacks (VMap w) k) as [[z Hz]|L].
      * apply holds_map in Hz. destruct (Forall2_in_l _ _ _ _ F' Hz) as ([a' b'] & Hb' & Ea' & _). cbn in Ea'.
        assert (a' = a) as -> by congruence. apply (in_map fst) in Hb'. exact Hb'.
      * apply ML in L as [_ L]. now apply L in Hx.
  - intros d' Up. inversion Up as [? ? ? ? N| | | | |? ? ? ? r _ Nr H1 H2 H3]; subst; [exfalso; apply N; split; [constructor | auto]|].
    assert (G : forall k y a, In (k, y) w -> de tk (VStr k) = Done a -> exists b b', In (a, b) r /\ de tv y = Done b' /\ data_equiv b b').
    { intros k y a Hk Ea. apply holds_map in Hk. pose proof Hk as Hw. apply MH in Hk.
      assert (Ir : In a (map fst r)).
      { destruct Hk as [[Hv Lx]|[[Lv Hx]|(p & q & Hp & Hq & ->)]].
        - apply holds_map in Hv. destruct (RV k y Hv) as (b & Eb). apply (H2 a b). apply He. eauto.
        - apply (H3 k y a Hx). now apply KR.
        - apply (H3 k q a Hq). now apply KR. }
      apply in_map_iff in Ir as ([a' b] & E & Ir). cbn in E; subst a'. exists b.
      destruct (H1 a b Ir) as (k' & Rk & C). apply KR in Rk. rewrite <- (KK k k' a Ea Rk) in C. clear k' Rk.
      destruct C as [[Im Lx]|[[Nm' (y' & Hy' & Ry)]|(b0 & y' & Im & Hy' & Uy)]].
      - apply He in Im as (k' & y' & Hk' & Ea' & Eb). rewrite <- (KK k k' a Ea Ea') in Hk'.
        destruct Hk as [[Hv _]|[[_ Hx]|(p & q & _ & Hq & _)]]; [|now apply Lx in Hx | now apply Lx in Hq].
        apply holds_map in Hk'. rewrite <- (holds_fun _ k y y' U Hv Hk') in Eb. exists b. split; auto. split; auto.
        apply (de_self tv y); auto. exact (holds_uniq _ _ _ U Hv).
      - assert (Nv : forall z, ~ holds (VMap m) k z).
        { intros z Hz. apply holds_map in Hz. destruct (RV k z Hz) as (b0 & E0). apply (Nm' b0). apply He. eauto. }
        destruct Hk as [[Hv _]|[[_ Hx]|(p & q & Hp & _)]]; [now apply Nv in Hv | | now apply Nv in Hp].
        rewrite (holds_fun _ k y' y V Hy' Hx) in Ry.
        destruct (proj2 (de_reads tv P y (holds_uniq _ _ _ V Hx)) b Ry) as (b' & E' & Q). exists b'. auto.
      - apply He in Im as (k' & z & Hk' & Ea' & Eb). rewrite <- (KK k k' a Ea Ea') in Hk'. apply holds_map in Hk'.
        destruct Hk as [[_ Lx]|[[Lv _]|(p & q & Hp & Hq & ->)]]; [now apply Lx in Hy' | now apply Lv in Hk' |].
        rewrite (holds_fun _ k p z U Hp Hk'). rewrite (holds_fun _ k q y' V Hq Hy').
        destruct (proj2 (O z b0 y' (holds_uniq _ _ _ U Hk') (holds_uniq _ _ _ V Hy') Eb) b Uy) as (b' & E' & Q). exists b'. auto. }
    destruct (forall_Forall2 (fun e p => de tk (VStr (fst e)) = Done (fst p) /\ de tv (snd e) = Done (snd p)) w) as [es' F'].
    { intros [k y] Hk. destruct (text_key_done tk k K) as (a & Ea). destruct (G k y a Hk Ea) as (b & b' & _ & E & _). exists (a, b'). auto. }
    destruct (text_map_entries _ _ _ _ K Nw F') as [Ne' He'].
    exists (DMap es'). split; [apply de_text_map; eauto|]. apply DeMap.
    + intros a b Hr. destruct (H1 a b Hr) as (k & Rk & C). apply KR in Rk.
      assert (Hw : exists y, In (k, y) w).
      { destruct (holds_or_lacks (VMap w) k) as [[z Hz]|L]; [apply holds_map in Hz; eauto|]. exfalso. apply ML in L as [L1 L2].
        destruct C as [[Im Lx]|[[_ (y' & Hy' & _)]|(b0 & y' & _ & Hy' & _)]]; [|now apply L2 in Hy' | now apply L2 in Hy'].
        apply He in Im as (k' & z & Hk' & Ea' & _). rewrite <- (KK k k' a Rk Ea') in Hk'. apply holds_map in Hk'. now apply L1 in Hk'. }
      destruct Hw as (y & Hy). destruct (G k y a Hy Rk) as (b1 & b' & I1 & E1 & Q). rewrite (nodup_fst r a b b1 Nr Hr I1).
      exists b'. split; auto. apply He'. eauto.
    + intros a b' H. apply He' in H as (k & y & Hk & Ea & Eb). destruct (G k y a Hk Ea) as (b & b1 & I & E & Q). exists b. split; auto. congruence.
Qed.

Theorem de_updated t : proper t -> text_maps t -> upd_ok t.
Proof.
  induction t as [|i| | | | | | |t IH|t IH|ts IH|tk tv IHk IHv|fs IH|t IH|n ts IH| | |] using ty_ind'; intros P T;
    try (apply upd_maps; auto; intros v d x U V Mv Mx Md D; exfalso; cbn [de] in D;
         (discriminate || (apply obind_done in D as (a & _ & [= <-]); inversion Md)); fail).
  - apply upd_maps; auto. intros v d x U V Mv Mx Md D. exfalso. cbn [de] in D.
    assert (Z : exists z, d = DInt i z) by (unfold de_int in D; destruct i; try discriminate; apply obind_done in D as (z & _ & [= <-]); eauto).
    destruct Z as [z ->]. inversion Md.
  - apply upd_maps; auto. intros v d x U V [m ->] Mx Md D. discriminate.
  - assert (Pt : proper t) by (inversion P as [? X| | | | | | |]; subst; [destruct X | auto]).
    assert (Tt : text_maps t) by (inversion T; auto). specialize (IH Pt Tt).
    apply upd_maps; auto. intros v d x U V [m ->] Mx Md D. cbn [de] in D. apply obind_done in D as (a & D & [= <-]).
    assert (Mm : mapv (VMap m)) by (eexists; reflexivity). destruct (v_merge_mapv (VMap m) x Mm) as [w Ew].
    destruct (IH (VMap m) a x U V D) as [I1 I2]. rewrite overlay_maps in I1, I2 by auto. rewrite Ew in *. inversion Md; subst. split.
    + intros d' D'. cbn [de] in D'. apply obind_done in D' as (b & D' & [= <-]). apply UpSome; auto.
    + intros d' Up. inversion Up as [? ? ? ? N|? ? ? d0| | | |]; subst; [exfalso; apply N; split; auto|].
      destruct (I2 d0) as (d1 & D1 & E1); auto. exists (DSome d1). split; [cbn [de]; rewrite D1; reflexivity | now constructor].
  - apply upd_maps; auto. intros v d x U V [m ->] Mx Md D. discriminate.
  - apply upd_maps; auto. intros v d x U V [m ->] Mx Md D. discriminate.
  - assert (K : key_type tk /\ proper tv) by (inversion P as [? X| | | | | | |]; subst; [destruct X | auto]). destruct K as [_ Pv].
    inversion T; subst. apply map_upd; auto.
  - assert (K : NoDup (map fst fs) /\ forall n t, In (n, t) fs -> proper t) by (inversion P as [? X| | | | | | |]; subst; [destruct X | auto]).
    destruct K as [ND Pf]. inversion T; subst. apply struct_upd; eauto.
  - assert (Pt : proper t) by (inversion P as [? X| | | | | | |]; subst; [destruct X | auto]).
    assert (Tt : text_maps t) by (inversion T; auto). specialize (IH Pt Tt).
    apply upd_maps; auto. intros v d x U V Mm Mx Md D. cbn [de] in D. apply obind_done in D as (a & D & [= <-]).
    destruct (IH v a x U V D) as [I1 I2]. rewrite overlay_maps in I1, I2 by auto. inversion Md; subst. split.
    + intros d' D'. cbn [de] in D'. apply obind_done in D' as (b & D' & [= <-]). apply UpNewtype; auto.
    + intros d' Up. inversion Up as [? ? ? ? N| |? ? ? d0| | |]; subst; [exfalso; apply N; split; auto|].
      destruct (I2 d0) as (d1 & D1 & E1); auto. exists (DNewtype d1). split; [cbn [de]; rewrite D1; reflexivity | now constructor].
  - apply upd_maps; auto. intros v d x U V [m ->] Mx Md D. discriminate.
  - apply upd_maps; auto. intros v d x U V [m ->] Mx Md D. discriminate.
  - apply upd_maps; auto. intros v d x U V Mm Mx Md D. cbn [de] in D. rewrite de_value_identity in D by auto. injection D as <-.
    cbn [de]. rewrite de_value_identity by (now apply v_merge_uniq). split.
    + intros d' [= <-]. apply UpValue; auto. rewrite <- overlay_maps by auto. now apply overlaid_overlay.
    + intros d' Up. eexists. split; [reflexivity|]. inversion Up as [? ? ? ? N| | |? ? r _ _ Or| |]; subst; [exfalso; apply N; split; auto|].
      constructor. rewrite <- overlay_maps by auto. now apply overlaid_equiv.
Qed.
