(** C108: types of the standard library. *)
From Coq Require Import ZArith Bool String Lia.
From Coq Require Import List.
Import ListNotations.
From Verif.Model Require Import Text Num Flt Value Convert Serde Buffered Attributes StdTypes.
From Verif.Spec Require Import Spec Numerals SerdeSpec ReadSpec AttrSpec StdSpec.
From Verif.Proofs Require Import Basics Conversions SerProofs DeProofs RoundTrip Loaded ReadAs Attrs.
Local Open Scope Z_scope.

(** ** Sets *)
Lemma key_eqb_read t v v' a b : key_type t -> de t v = Done a -> de t v' = Done b -> (key_eqb a b = true <-> a = b).
Proof.
  intros K; revert a b; induction K as [|t N| | |t K IH]; intros a b Ha Hb; cbn [de] in Ha, Hb.
  - apply obind_done in Ha as (x & _ & [= <-]). apply obind_done in Hb as (y & _ & [= <-]). cbn.
    rewrite Bool.eqb_true_iff. split; congruence.
  - assert (Za : exists x, a = DInt t x) by (unfold de_int in Ha; destruct t; try discriminate; apply obind_done in Ha as (z & _ & [= <-]); eauto).
    assert (Zb : exists x, b = DInt t x) by (unfold de_int in Hb; destruct t; try discriminate; apply obind_done in Hb as (z & _ & [= <-]); eauto).
    destruct Za as (x & ->), Zb as (y & ->). cbn. rewrite Z.eqb_eq. split; congruence.
  - apply obind_done in Ha as (x & _ & [= <-]). apply obind_done in Hb as (y & _ & [= <-]). cbn. rewrite Z.eqb_eq. split; congruence.
  - apply obind_done in Ha as (x & _ & [= <-]). apply obind_done in Hb as (y & _ & [= <-]). cbn. rewrite str_eqb_eq. split; congruence.
  - apply obind_done in Ha as (x & Ha & [= <-]). apply obind_done in Hb as (y & Hb & [= <-]). cbn. rewrite (IH x y Ha Hb). split; congruence.
Qed.

Lemma set_fold ds : forall s, (forall a b, In a (s ++ ds) -> In b (s ++ ds) -> (key_eqb a b = true <-> a = b)) -> NoDup s ->
  NoDup (fold_left set_insert ds s) /\ forall d, In d (fold_left set_insert ds s) <-> In d (s ++ ds).
Proof.
  induction ds as [|d ds IH]; intros s Q N; cbn [fold_left]; [rewrite app_nil_r; split; auto; tauto|].
  assert (X : existsb (key_eqb d) s = true <-> In d s).
  { rewrite existsb_exists. split.
    - intros (y & Hy & E). apply Q in E; [subst; auto | apply in_or_app; right; left; auto | apply in_or_app; auto].
    - intros Hd. exists d. split; auto. apply Q; auto; apply in_or_app; auto. }
  unfold set_insert at 2 4. destruct (existsb (key_eqb d) s) eqn:E.
  - assert (Hd : In d s) by (apply X; auto). destruct (IH s) as [N1 I1]; auto.
    + intros a b Ha Hb. apply Q; apply in_or_app; apply in_app_or in Ha; apply in_app_or in Hb; cbn; tauto.
    + split; auto. intros d'. rewrite I1, !in_app_iff. cbn. intuition (subst; auto).
  - assert (Hd : ~ In d s) by (intros Hd; apply X in Hd; discriminate). destruct (IH (s ++ [d])) as [N1 I1].
    + intros a b Ha Hb. rewrite <- app_assoc in Ha, Hb. apply Q; auto.
    + now apply NoDup_snoc.
    + split; auto. intros d'. rewrite I1. rewrite <- app_assoc. reflexivity.
Qed.

Lemma de_set_iff t v l : key_type t -> (de_set t v = Done l -> exists r, de (TSeq t) v = Done (DSeq r) /\ lists_set l r).
Proof.
  intros K H. unfold de_set in H. destruct v; try discriminate H. apply obind_done in H as (ds & E & H). assert (l = fold_left set_insert ds []) as -> by congruence. clear H. exists ds. split; [cbn [de]; rewrite E; reflexivity|].
  apply de_seq_done in E. destruct (set_fold ds []) as [N I1]; [|constructor|split; auto]. cbn [app]. intros a b Ha Hb.
  destruct (Forall2_in_r _ _ _ _ E Ha) as (x & _ & Hx). destruct (Forall2_in_r _ _ _ _ E Hb) as (y & _ & Hy). exact (key_eqb_read t x y a b K Hx Hy).
Qed.
Lemma de_set_done t v r : de (TSeq t) v = Done (DSeq r) -> exists l, de_set t v = Done l.
Proof. intros H. cbn [de] in H. unfold de_set. destruct v; try discriminate H. apply obind_done in H as (ds & E & [= <-]). rewrite E. eexists; reflexivity. Qed.
Lemma de_seq_form t v d : de (TSeq t) v = Done d -> exists r, d = DSeq r.
Proof. cbn [de]. destruct v; try discriminate. intros H. apply obind_done in H as (ds & E & [= <-]). eauto. Qed.
Lemma de_set_fail t v e : de_set t v = Fail e <-> de (TSeq t) v = Fail e.
Proof.
  cbn [de]. unfold de_set. destruct v as [| | | | | | | |lst|]; try (unfold de_kind_fail, de_fail; split; intros [= <-]; reflexivity).
  destruct (de_seq (de t) lst); cbn; split; discriminate || congruence.
Qed.
Lemma de_set_no_panic t v : key_type t -> de_set t v <> Panic.
Proof.
  intros K. unfold de_set. destruct v as [| | | | | | | |lst|]; try discriminate. destruct (de_seq (de t) lst) eqn:E; cbn; try discriminate. intros _. revert E. apply de_seq_no_panic. intros x _.
  clear - K. induction K as [|i W| | |t K IH]; cbn [de].
  - destruct (into_bool x); discriminate.
  - unfold de_int. destruct i; try discriminate; destruct (into_int _ x); discriminate.
  - destruct (into_char x); discriminate.
  - destruct (into_string x); discriminate.
  - destruct (de t x); try discriminate. congruence.
Qed.

Lemma key_round t : key_type t -> round_trips t.
Proof. induction 1; now constructor. Qed.
Lemma key_map_free t : key_type t -> map_free t.
Proof. induction 1; try (now apply MfFlat). now constructor. Qed.
Lemma key_not_wide t d : key_type t -> has_type t d -> ~ data_wide d.
Proof. intros K; revert d; induction K as [|i W| | |t K IH]; intros d H X; inversion H; subst; inversion X; subst; auto. eapply IH; eauto. Qed.

Lemma set_survives t l : key_type t -> (forall d, In d l -> has_type t d) -> NoDup l ->
  exists v, ser_set l = Done v /\ forall v', vequiv v v' -> uniq v' -> exists l', de_set t v' = Done l' /\ lists_set l' l.
Proof.
  intros K H N. assert (R : round_trips (TSeq t)) by (constructor; now apply key_round). assert (W : ~ data_wide (DSeq l)).
  { intros X. inversion X as [| | |? d Hd X1| | | | | | | | |]; subst. eapply key_not_wide; eauto. }
  destruct (round_trip (TSeq t) R (DSeq l) (HtSeq _ _ H) W) as (v & E & U & S). exists v. split; [exact E|]. intros v' Ev Uv.
  destruct (S v' Ev Uv) as (d' & D & _ & Q). destruct (de_seq_form _ _ _ D) as (r & ->).
  assert (r = l) as ->.
  { inversion Q as [? X| |l0 r0 F| | | | | |]; subst; [cbn in X; contradiction|]. clear - F K H. revert H. induction F as [|a b l r E F IH]; intros H; auto. f_equal; [|apply IH; intros; apply H; right; auto].
    assert (Ha : has_type t a) by (apply H; left; auto). clear - E K Ha. revert a b E Ha. induction K as [|i W| | |t K IH]; intros a b E Ha; inversion Ha; subst; inversion E; subst; auto. f_equal. auto. }
  destruct (de_set_done _ _ _ D) as (l' & E'). exists l'. split; auto. destruct (de_set_iff t v' l' K E') as (r & D' & L). assert (r = l) as -> by congruence. exact L.
Qed.

(** ** Arrays *)
Lemma combine_repeat {A B} (f : A) (l : list B) : List.combine (repeat f (List.length l)) l = map (fun x => (f, x)) l.
Proof. induction l; cbn; congruence. Qed.
Lemma de_array_iff t n v ds : de_array t n v = Done ds <->
  exists l rest, v = VArr (l ++ rest) /\ List.length l = n /\ Forall2 (fun x d => de t x = Done d) l ds.
Proof.
  unfold de_array. split.
  - destruct v as [| | | | | | | |lst|]; try discriminate. intros H. apply de_tuple_done in H as (l1 & l2 & -> & F & L). rewrite repeat_length in L. subst n.
    exists l1, l2. split; auto. split; auto. rewrite combine_repeat in F. clear - F. revert ds F. induction l1 as [|x l IH]; cbn; intros ds F; inversion F; subst; constructor; auto.
  - intros (l & rest & -> & <- & F). apply de_tuple_done. exists l, rest. split; auto. rewrite repeat_length, combine_repeat. split; auto. clear - F. induction F; cbn; constructor; auto.
Qed.

Lemma de_array_refuses t n v e : proper t -> uniq v ->
  (de_array t n v = Fail e <->
   (~ arrayv v /\ e = EDeserialization (lit "Can't deserialize " ++ v_display v ++ lit " to Array"))
   \/ exists l what, v = VArr l /\ called_array n what /\ refuses_each what 0 (repeat t n) l e).
Proof.
  intros P U.
  assert (Mr : repeat (de t) n = map (fun t => de t) (repeat t n)) by (clear; induction n; cbn; congruence).
  assert (C : called_array n (expecting_array n)).
  { destruct n; [constructor|]. apply (CaSome (S n)); [discriminate | apply print_int_canonical]. }
  assert (C' : forall what, called_array n what -> what = expecting_array n).
  { intros what H. destruct H as [|n s N Cs]; [reflexivity|]. unfold expecting_array. rewrite (canonical_print _ _ Cs). destruct n; congruence. }
  destruct v as [| | | | | | | |l|]; unfold de_array.
  9:{ assert (Ul : forall x, In x l -> uniq x) by (inversion U as [? X| |]; subst; [destruct X | auto]).
      assert (Pt : forall u, In u (repeat t n) -> proper u) by (intros u Hu; apply repeat_spec in Hu; subst; exact P).
      rewrite Mr, (each_refuses (repeat t n) Pt (fun u Hu => de_refuses u (Pt u Hu)) (expecting_array n) 0 l e Ul). split.
      - intros H. right. eauto.
      - intros [[N _]|(l' & what & [= <-] & K & H)]; [destruct N; eexists; reflexivity|]. now rewrite (C' _ K) in H. }
  all: split; [intros H; left; split; [intros (l & X); discriminate X | unfold de_kind_fail, de_fail in H; injection H as <-; reflexivity]
              | intros [[_ ->]|(l & what & X & _)]; [reflexivity | discriminate X]].
Qed.

Lemma array_survives t l : round_trips t -> (forall d, In d l -> has_type t d) -> (forall d, In d l -> ~ data_wide d) ->
  exists v, ser_array l = Done v /\ forall v', vequiv v v' -> uniq v' -> exists r, de_array t (List.length l) v' = Done r /\ Forall2 data_equiv l r.
Proof.
  intros R H W. set (ts := repeat t (List.length l)).
  assert (Rt : round_trips (TTuple ts)) by (constructor; intros t' Ht; apply repeat_spec in Ht; subst; auto).
  assert (Ht : has_type (TTuple ts) (DTuple l)).
  { constructor. unfold ts. clear - H. induction l; cbn; constructor; auto with datatypes. }
  destruct (round_trip _ Rt _ Ht) as (v & E & _ & S).
  { intros X. inversion X; subst; eapply W; eauto. }
  exists v. split; auto. intros v' Ev U. destruct (S v' Ev U) as (d' & D & _ & Q). cbn [de] in D. destruct v' as [| | | | | | | |lst|]; try discriminate D.
  apply obind_done in D as (r & D & [= <-]). exists r. split.
  - unfold de_array. apply de_tuple_done in D as (l1 & l2 & -> & F & L). apply de_tuple_done. exists l1, l2. split; auto. unfold ts in *. assert (Mr : forall n, map (fun t => de t) (repeat t n) = repeat (de t) n) by (induction n; cbn; congruence). rewrite Mr in F, L. rewrite repeat_length in *. split; auto.
  - inversion Q as [? X| | | | | | | |]; subst; [destruct X | assumption].
Qed.

(** ** Two named parts *)
Definition not_option (t : ty) : Prop := is_option t = false.
Lemma two_part_proper a b ta tb : a <> b -> aproper (two_part a b ta tb).
Proof.
  intros N. apply ApStruct.
  - cbn. constructor; [intros [X|[]]; congruence | repeat constructor; intros []].
  - intros f g k [<-|[<-|[]]] [<-|[<-|[]]] [[X|[]] _] [[Y|[]] _]; cbn in *; congruence.
  - intros f [<-|[<-|[]]]; constructor.
Qed.
Lemma two_known {A} n (t : A) k : known (Field n [] Required t) k <-> k = n.
Proof. unfold known. cbn. split; [intros [[X|[]] _]; auto | intros ->; split; [auto | discriminate]]. Qed.
Lemma two_part_iff a b ta tb v d : a <> b -> not_option ta -> not_option tb -> uniq v ->
  (de_attr (two_part a b ta tb) v = Done d <->
   exists x y da db, exactly v [(a, x); (b, y)] /\ de ta x = Done da /\ de tb y = Done db /\ d = DStruct [(a, da); (b, db)]).
Proof.
  intros N Na Nb U. etransitivity; [apply (attr_ok _ (two_part_proper a b ta tb N) v U)|]. split.
  - intros H. inversion H as [| | | | | |deny fs m l D1 D2 F]; subst. pose proof (proj1 (uniq_map _) U) as [ND _].
    inversion F as [|f1 [n1 d1] fs1 l1 [E1 C1] F1]; subst. inversion F1 as [|f2 [n2 d2] fs2 l2 [E2 C2] F2]; subst. inversion F2; subst. cbn [fst snd f_name f_type f_presence] in *. subst n1 n2.
    assert (G : forall n t dd, not_option t ->
      (exists k x, known (Field n [] Required (APlain t)) k /\ holds (VMap m) k x /\ areads (APlain t) x dd) \/ Required = Skipped dd \/
      (unmentioned (VMap m) (Field n [] Required (APlain t)) /\ Required = Defaulted dd) \/
      (unmentioned (VMap m) (Field n [] Required (APlain t)) /\ Required = Required /\ optional (APlain t) /\ dd = DNone) ->
      exists x, In (n, x) m /\ de t x = Done dd).
    { intros n t dd No [(k & x & K & (m' & [= <-] & Hx) & R)|[X|[[_ X]|(_ & _ & O & _)]]]; try discriminate X.
      - apply two_known in K. subst k. inversion R; subst. eauto.
      - destruct O as [(? & X)|(t0 & X)]; [discriminate X|]. injection X as ->. discriminate No. }
    destruct (G a ta d1 Na C1) as (x & Hx & Rx). destruct (G b tb d2 Nb C2) as (y & Hy & Ry). exists x, y, d1, d2. split; [|auto].
    exists m. split; auto. split; auto. intros k z. cbn [In]. split.
    + intros Hz. assert (Hk : In k (map fst m)) by (apply (in_map fst) in Hz; exact Hz). destruct (D1 _ _ eq_refl Hk) as (f & [<-|[<-|[]]] & Kf); apply two_known in Kf; subst k.
      * left. f_equal. apply (In_mget a) in Hx; auto. apply (In_mget a) in Hz; auto. congruence.
      * right; left. f_equal. apply (In_mget b) in Hy; auto. apply (In_mget b) in Hz; auto. congruence.
    + intros [[= <- <-]|[[= <- <-]|[]]]; auto.
  - intros (x & y & da & db & (m & -> & ND & Ex) & Rx & Ry & ->). apply ArStruct.
    + intros _ k _ Hk. apply in_map_iff in Hk as ([k' z] & <- & Hz). apply Ex in Hz as [[= <- <-]|[[= <- <-]|[]]]; eexists; (split; [|apply two_known; reflexivity]); cbn; auto.
    + intros f k k' [<-|[<-|[]]] K1 K2 _ _; apply two_known in K1; apply two_known in K2; congruence.
    + constructor; [|constructor; [|constructor]]; cbn [fst snd f_name f_type f_presence]; (split; [reflexivity|left]).
      * exists a, x. split; [now apply two_known|]. split; [exists m; split; auto; apply Ex; left; auto | now constructor].
      * exists b, y. split; [now apply two_known|]. split; [exists m; split; auto; apply Ex; right; left; auto | now constructor].
Qed.

(** ** Times *)
Lemma amounts_unique d total : amounts_to d total <-> d = (total / nanos_per_sec, total mod nanos_per_sec).
Proof.
  unfold amounts_to, nanos_per_sec. destruct d as [s n]. cbn [fst snd]. split.
  - intros [H ->]. f_equal; [rewrite Z.div_add_l by lia; rewrite (Z.div_small n) by lia; lia|]. rewrite Z.add_comm, Z.mod_add by lia. symmetry; apply Z.mod_small; lia.
  - intros [= -> ->]. split; [apply Z.mod_pos_bound; lia|]. rewrite Z.mul_comm. apply Z.div_mod. lia.
Qed.
Lemma two_numbers_iff a b what v d : a <> b -> wf v ->
  (de_two_numbers a b what v = Done d <-> exists s n, two_numbers v a b s n /\ amounts_to d (s * 1000000000 + n) /\ fits U64 (fst d)).
Proof.
  intros N W. pose proof (wf_uniq _ W) as U. unfold de_two_numbers. split.
  - intros H. apply obind_done in H as (x & H & E). apply two_part_iff in H as (vx & vy & da & db & Ex & Rx & Ry & ->); auto; try reflexivity.
    cbn [de de_int] in Rx, Ry. apply obind_done in Rx as (s & Rs & [= <-]). apply obind_done in Ry as (n & Rn & [= <-]). apply of_result_ok in Rs. apply of_result_ok in Rn.
    unfold duration_new in E. destruct (in_range U64 (s + n / nanos_per_sec)) eqn:R; [|discriminate]. injection E as <-. exists s, n. split; [exists vx, vy; auto|]. split.
    + apply amounts_unique. unfold nanos_per_sec. rewrite Z.div_add_l by lia. f_equal. rewrite Z.add_comm, Z.mod_add by lia. reflexivity.
    + cbn [fst]. now apply in_range_fits.
  - intros (s & n & (x & y & Ex & Rx & Ry) & A & F). apply amounts_unique in A. subst d. cbn [fst] in F.
    rewrite (proj2 (two_part_iff a b (TInt U64) (TInt U32) v (DStruct [(a, DInt U64 s); (b, DInt U32 n)]) N eq_refl eq_refl U)).
    + cbn [obind]. unfold duration_new. unfold nanos_per_sec in *. rewrite Z.div_add_l in F by lia. apply in_range_fits in F. rewrite F. rewrite Z.div_add_l by lia. f_equal. f_equal. rewrite (Z.add_comm (s * 1000000000)), Z.mod_add by lia. reflexivity.
    + exists x, y, (DInt U64 s), (DInt U32 n). split; auto. cbn [de de_int]. rewrite Rx, Ry. auto.
Qed.
Lemma two_numbers_new a b what v s n : a <> b -> wf v -> two_numbers v a b s n -> de_two_numbers a b what v = duration_new what s n.
Proof.
  intros N W (x & y & Ex & Rx & Ry). pose proof (wf_uniq _ W) as U. unfold de_two_numbers.
  rewrite (proj2 (two_part_iff a b (TInt U64) (TInt U32) v (DStruct [(a, DInt U64 s); (b, DInt U32 n)]) N eq_refl eq_refl U)); [reflexivity|].
  exists x, y, (DInt U64 s), (DInt U32 n). split; auto. cbn [de de_int]. rewrite Rx, Ry. auto.
Qed.
Lemma two_numbers_survive a b what d : a <> b -> is_text a = true -> is_text b = true -> fits U64 (fst d) -> 0 <= snd d < 1000000000 ->
  exists v, ser (DStruct [(a, DInt U64 (fst d)); (b, DInt U32 (snd d))]) = Done v /\ forall v', vequiv v v' -> uniq v' -> de_two_numbers a b what v' = Done d.
Proof.
  intros N Ta Tb F1 F2. exists (VMap [(a, VUInt (fst d)); (b, VUInt (snd d))]). split.
  { apply (ser_fields_done ser [(a, DInt U64 (fst d)); (b, DInt U32 (snd d))] [] [(a, VUInt (fst d)); (b, VUInt (snd d))]); [repeat constructor |].
    cbn. constructor; [intros [X|[]]; congruence | repeat constructor; intros []]. }
  intros v' E U. apply vequiv_map_l in E as (m & -> & V1 & V2).
  assert (B1 : fits U32 (snd d)) by (unfold fits; cbn; lia). assert (B2 : fits U64 (snd d)) by (unfold fits; cbn; lia).
  pose proof (proj1 (uniq_map _) U) as [ND _].
  assert (W : wf (VMap m)).
  { apply wf_map. split; auto. intros k y Hy. destruct (V2 k y Hy) as (x & [[= <- <-]|[[= <- <-]|[]]] & Ey); apply vequiv_scalar_l in Ey; try exact I; subst y; (split; [assumption|]); cbn; now apply in_range_fits. }
  apply (two_numbers_iff a b what (VMap m) d N W). exists (fst d), (snd d). split; [|split; [split; [lia | reflexivity] | exact F1]].
  exists (VUInt (fst d)), (VUInt (snd d)). split.
  - exists m. split; auto. split; auto. intros k y. split.
    + intros Hy. destruct (V2 k y Hy) as (x & [[= <- <-]|[[= <- <-]|[]]] & Ey); apply vequiv_scalar_l in Ey; try exact I; subst y; cbn; auto.
    + intros [[= <- <-]|[[= <- <-]|[]]].
      * destruct (V1 a _ (or_introl eq_refl)) as (z & Hz & Ez). apply vequiv_scalar_l in Ez; [|exact I]. subst z. exact Hz.
      * destruct (V1 b _ (or_intror (or_introl eq_refl))) as (z & Hz & Ez). apply vequiv_scalar_l in Ez; [|exact I]. subst z. exact Hz.
  - split; [apply (from_into_int U64); auto | apply (from_into_int_cross U64 U32); auto].
Qed.
