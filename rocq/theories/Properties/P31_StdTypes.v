(** C107, C108: adjacently tagged enums; types of the standard library. *)
From Coq Require Import ZArith Bool String Lia.
From Coq Require Import List.
Import ListNotations.
From Verif.Model Require Import Text Num Flt Value Convert Serde Buffered Attributes Adjacent StdTypes.
From Verif.Spec Require Import Spec Numerals SerdeSpec ReadSpec BufferedSpec AttrSpec StdSpec.
From Verif.Proofs Require Import Basics Conversions SerProofs DeProofs RoundTrip Loaded BufferedProofs BufferedTrips BufferedTripsMore ReadAs Attrs AdjacentProofs StdProofs.
Local Open Scope Z_scope.

(** ** C107: adjacently tagged enums *)
Theorem C107_written_exactly : forall tag content d, tag <> content ->
  (forall v, ser_adjacent tag content d = Done v -> exists n o, beside_tag d n o /\
     exactly v ((tag, VStr n) :: match o with Some x => [(content, x)] | None => [] end))
  /\ forall n o, beside_tag d n o -> exists v, ser_adjacent tag content d = Done v.
Proof.
  intros tag content d T.
  assert (G : forall n o v, adjacent_fields tag content n o = Done v -> exists o', match o with None => o' = None | Some y => exists x, y = Done x /\ o' = Some x end /\
     exactly v ((tag, VStr n) :: match o' with Some x => [(content, x)] | None => [] end)).
  { intros n o v H. apply adjacent_fields_done in H; auto. destruct o as [y|].
    - destruct H as (x & -> & ->). exists (Some x). split; eauto. eexists; split; [reflexivity|]. split; [|tauto]. cbn. constructor; [intros [X|[]]; congruence | repeat constructor; intros []].
    - subst v. exists None. split; auto. eexists; split; [reflexivity|]. split; [|tauto]. cbn. repeat constructor; intros []. }
  split.
  - intros v H. destruct d; try discriminate H; cbn [ser_adjacent] in H; apply G in H as (o & O & X).
    + subst o. eexists _, _; split; [constructor|exact X].
    + destruct O as (x & Ex & ->). eexists _, _; split; [constructor; exact Ex|exact X].
    + destruct O as (x & Ex & ->). eexists _, _; split; [constructor; exact Ex|exact X].
    + destruct O as (x & Ex & ->). eexists _, _; split; [constructor; exact Ex|exact X].
  - intros n o B. destruct B as [n|n d x E|n l x E|n fs x E]; cbn [ser_adjacent]; eexists; apply adjacent_fields_done; eauto.
Qed.
Print Assumptions C107_written_exactly.

(** Refuted: "what can be written can be read".  Nothing is ever read. *)
Theorem C107_never_read_refuted : forall tag content v d, tag <> content -> uniq v -> de_adjacent tag content v <> Done d.
Proof. intros tag content v d T U. now apply adjacent_never_done. Qed.
Print Assumptions C107_never_read_refuted.

Theorem C107_panics_exactly : forall tag content v, tag <> content -> uniq v ->
  (de_adjacent tag content v = Panic <->
   exists m1 x m2, v = VMap (m1 ++ (tag, x) :: m2) /\ forall y, In (content, y) m1 -> ~ has_wide y).
Proof.
  intros tag content v T U. split.
  - intros H. destruct (adjacent_cases tag content v T U) as [(_ & E)|[(? & ? & ? & e & _ & _ & _ & E)|[(? & _ & _ & _ & E)|(m1 & x & m2 & -> & N & E)]]]; try (rewrite E in H; discriminate H). eauto.
  - intros (m1 & x & m2 & -> & N). pose proof (proj1 (uniq_map _) U) as [ND _].
    destruct (adjacent_cases tag content _ T U) as [(Nm & _)|[(m3 & y & m4 & e & E & Nt & B & _)|[(m & [= <-] & Nt & _)|(m3 & y & m4 & _ & _ & E)]]]; auto.
    + destruct Nm. eexists; reflexivity.
    + exfalso. injection E as E. assert (In (content, y) m1) as Hy.
      { clear - E Nt T. revert m3 E Nt. induction m1 as [|p m1 IH]; intros [|q m3] E Nt; cbn in E.
        - injection E as E _. congruence.
        - injection E as <- _. cbn in Nt. tauto.
        - injection E as -> _. left; reflexivity.
        - injection E as -> E. right. apply (IH m3 E). cbn in Nt. tauto. }
      apply N in Hy. destruct (proj2 (buffer_done y)) as (c & Hc); auto. congruence.
    + exfalso. apply Nt. rewrite map_app. apply in_or_app. right; left; reflexivity.
Qed.
Print Assumptions C107_panics_exactly.

Theorem C107_refuses_exactly : forall tag content v e, tag <> content -> uniq v ->
  (de_adjacent tag content v = Fail e <->
   (~ mapv v /\ e = EDeserialization (lit "Can't deserialize " ++ v_display v ++ lit " to " ++ lit "Map"))
   \/ (exists m1 x m2, v = VMap (m1 ++ (content, x) :: m2) /\ ~ In tag (map fst m1) /\ first_wide x e)
   \/ (exists m, v = VMap m /\ ~ In tag (map fst m) /\ (forall x, In (content, x) m -> ~ has_wide x) /\ e = EDeserialization (lit "missing field `" ++ tag ++ lit "`"))).
Proof.
  intros tag content v e T U.
  assert (W : forall x e', first_wide x e' -> has_wide x).
  { intros x e' F. induction F; try constructor; econstructor; try eassumption; apply in_or_app; right; left; reflexivity. }
  assert (Two : forall (m1 : vmap) x m2 m3 y m4, NoDup (map fst (m1 ++ (content, x) :: m2)) -> m1 ++ (content, x) :: m2 = m3 ++ (content, y) :: m4 -> x = y).
  { intros m1 x m2 m3 y m4 ND E. assert (Hy : In (content, y) (m1 ++ (content, x) :: m2)) by (rewrite E; apply in_or_app; right; left; reflexivity).
    assert (Hx : In (content, x) (m1 ++ (content, x) :: m2)) by (apply in_or_app; right; left; reflexivity).
    apply (In_mget content) in Hy; auto. apply (In_mget content) in Hx; auto. congruence. }
  split.
  - intros H. destruct (adjacent_cases tag content v T U) as [(N & E)|[(m1 & x & m2 & e' & -> & Nt & B & E)|[(m & -> & Nt & Nw & E)|(m1 & x & m2 & -> & N & E)]]].
    + left. split; auto. rewrite E in H. unfold de_kind_fail, de_fail in H. congruence.
    + right; left. assert (e' = e) as -> by congruence. exists m1, x, m2. split; auto. split; auto. now apply buffer_fails.
    + right; right. exists m. rewrite E in H. unfold de_fail in H. split; [reflexivity|]. split; auto. split; auto. congruence.
    + rewrite E in H. discriminate H.
  - intros [(N & ->)|[(m1 & x & m2 & -> & Nt & F)|(m & -> & Nt & Nw & ->)]].
    + destruct v; try reflexivity. destruct N. eexists; reflexivity.
    + pose proof (proj1 (uniq_map _) U) as [ND _].
      destruct (adjacent_cases tag content _ T U) as [(Nm & _)|[(m3 & y & m4 & e' & [= Em] & _ & B & E)|[(m & [= <-] & _ & Nw & _)|(m3 & y & m4 & [= Em] & Nw & _)]]].
      * destruct Nm. eexists; reflexivity.
      * assert (x = y) as <- by (eapply Two; eauto). rewrite E. f_equal. apply buffer_fails in F. congruence.
      * exfalso. apply (Nw x); [apply in_or_app; right; left; reflexivity | eauto].
      * exfalso. apply (Nw x); [|eauto]. clear - Em Nt T. revert m3 Em. induction m1 as [|p m1 IH]; intros [|q m3] Em; cbn in Em.
        -- injection Em as Em _ _. congruence.
        -- injection Em as <- _. left; reflexivity.
        -- injection Em as Em _. subst p. cbn in Nt. tauto.
        -- injection Em as Em' Em. right. apply IH; auto. cbn in Nt. tauto.
    + destruct (adjacent_cases tag content _ T U) as [(Nm & _)|[(m3 & y & m4 & e' & [= ->] & _ & B & _)|[(m' & _ & _ & _ & E)|(m3 & y & m4 & [= ->] & _ & _)]]]; auto.
      * destruct Nm. eexists; reflexivity.
      * exfalso. apply buffer_fails in B. apply (Nw y); [apply in_or_app; right; left; reflexivity | eauto].
      * exfalso. apply Nt. rewrite map_app. apply in_or_app. right; left; reflexivity.
Qed.
Print Assumptions C107_refuses_exactly.

(** Reading back what was written panics, always; in whatever order the maps
    list their entries. *)
Theorem C107_reading_back_panics : forall tag content d v v', tag <> content ->
  ser_adjacent tag content d = Done v -> vequiv v v' -> uniq v' -> de_adjacent tag content v' = Panic.
Proof.
  intros tag content d v v' T E Ev U. apply C107_panics_exactly; auto.
  assert (Nw : ~ has_wide v).
  { intros W. destruct (proj1 (C107_written_exactly tag content d T) v E) as (n & o & B & (m & -> & _ & M)). inversion W as [| | |? k x Hx Wx]; subst. apply M in Hx. destruct Hx as [[= <- <-]|Hx]; [inversion Wx|].
    destruct B as [n|n d x' Ex|n l x' Ex|n fs x' Ex]; [destruct Hx| | |]; destruct Hx as [[= <- <-]|[]]; exact (ser_narrow _ _ Ex Wx). }
  pose proof (narrow_equiv v v' Nw Ev) as Nw'. destruct (proj1 (C107_written_exactly tag content d T) v E) as (n & o & B & (m & -> & _ & M)).
  apply vequiv_map_l in Ev as (m' & -> & V1 & _). destruct (V1 tag (VStr n) (proj2 (M _ _) (or_introl eq_refl))) as (z & Hz & _).
  apply in_split in Hz as (m1 & m2 & ->). exists m1, z, m2. split; auto. intros y Hy Wy. apply Nw'. econstructor; [|exact Wy]. apply in_or_app; left; exact Hy.
Qed.
Print Assumptions C107_reading_back_panics.

(** Two configurations with the same entries in another order may be treated
    differently: an error one time, a panic the other. *)
Theorem C107_order_decides_between_error_and_panic_refuted : exists tag content v v', tag <> content /\ uniq v /\ uniq v' /\ vequiv v v' /\
  (exists e, de_adjacent tag content v = Fail e) /\ de_adjacent tag content v' = Panic.
Proof.
  exists (lit "t"), (lit "c"), (VMap [(lit "c", VULong 7); (lit "t", VStr (lit "A"))]), (VMap [(lit "t", VStr (lit "A")); (lit "c", VULong 7)]).
  split; [discriminate|]. split; [apply uniq_map; split; [repeat constructor; cbn; intuition discriminate|]; intros k x [[= <- <-]|[[= <- <-]|[]]]; constructor; exact I|].
  split; [apply uniq_map; split; [repeat constructor; cbn; intuition discriminate|]; intros k x [[= <- <-]|[[= <- <-]|[]]]; constructor; exact I|].
  split.
  { apply EqvMap; intros k x [[= <- <-]|[[= <- <-]|[]]]; eexists; (split; [cbn; eauto|apply vequiv_refl]). }
  split; [eexists; reflexivity | reflexivity].
Qed.
Print Assumptions C107_order_decides_between_error_and_panic_refuted.

Example C107_example : lit "type" <> lit "value"
  /\ beside_tag (DTupleVariant (lit "Pair") [DInt U8 1; DInt U8 2]) (lit "Pair") (Some (VArr [VUInt 1; VUInt 2]))
  /\ ser_adjacent (lit "type") (lit "value") (DTupleVariant (lit "Pair") [DInt U8 1; DInt U8 2]) = Done (VMap [(lit "type", VStr (lit "Pair")); (lit "value", VArr [VUInt 1; VUInt 2])])
  /\ ser_adjacent (lit "type") (lit "value") (DUnitVariant (lit "Off")) = Done (VMap [(lit "type", VStr (lit "Off"))])
  /\ de_adjacent (lit "type") (lit "value") (VMap [(lit "x", VNone); (lit "type", VStr (lit "Off"))]) = Panic
  /\ de_adjacent (lit "type") (lit "value") (VMap [(lit "value", VUInt 1)]) = Fail (EDeserialization (lit "missing field `type`"))
  /\ de_adjacent (lit "type") (lit "value") (VStr (lit "Off")) = Fail (EDeserialization (lit "Can't deserialize Off to Map")).
Proof. repeat split; try discriminate. now constructor. Qed.

(** ** C108: types of the standard library *)
(** A set is read from what a Vec of its members is read from, and holds each
    element once. *)
Theorem C108_sets_read_like_vectors : forall t v, key_type t ->
  (forall l, de_set t v = Done l -> exists r, de (TSeq t) v = Done (DSeq r) /\ lists_set l r)
  /\ (forall r, de (TSeq t) v = Done (DSeq r) -> exists l, de_set t v = Done l)
  /\ (forall e, de_set t v = Fail e <-> de (TSeq t) v = Fail e)
  /\ de_set t v <> Panic.
Proof.
  intros t v K. split; [intros l; now apply de_set_iff|]. split; [intros r; apply de_set_done|]. split; [intros e; apply de_set_fail | now apply de_set_no_panic].
Qed.
Print Assumptions C108_sets_read_like_vectors.

Theorem C108_sets_come_back : forall t l, key_type t -> (forall d, In d l -> has_type t d) -> NoDup l ->
  exists v, ser_set l = Done v /\ forall v', vequiv v v' -> uniq v' -> exists l', de_set t v' = Done l' /\ lists_set l' l.
Proof. exact set_survives. Qed.
Print Assumptions C108_sets_come_back.

(** An array of n elements is read from an array of at least n; the others are
    not looked at. *)
Theorem C108_arrays_read_exactly : forall t n v ds, de_array t n v = Done ds <->
  exists l rest, v = VArr (l ++ rest) /\ List.length l = n /\ Forall2 (fun x d => de t x = Done d) l ds.
Proof. exact de_array_iff. Qed.
Print Assumptions C108_arrays_read_exactly.
Theorem C108_arrays_refused_exactly : forall t n v e, proper t -> uniq v ->
  (de_array t n v = Fail e <->
   (~ arrayv v /\ e = EDeserialization (lit "Can't deserialize " ++ v_display v ++ lit " to Array"))
   \/ exists l what, v = VArr l /\ called_array n what /\ refuses_each what 0 (repeat t n) l e).
Proof. exact de_array_refuses. Qed.
Print Assumptions C108_arrays_refused_exactly.
Theorem C108_arrays_come_back : forall t l, round_trips t -> (forall d, In d l -> has_type t d) -> (forall d, In d l -> ~ data_wide d) ->
  exists v, ser_array l = Done v /\ forall v', vequiv v v' -> uniq v' -> exists r, de_array t (List.length l) v' = Done r /\ Forall2 data_equiv l r.
Proof. exact array_survives. Qed.
Print Assumptions C108_arrays_come_back.

Theorem C108_nonzero_read_exactly : forall t v z, de_nonzero t v = Done z <-> ~ wide t /\ z <> 0 /\ into_int t v = Ok z.
Proof.
  intros t v z. unfold de_nonzero. cbn [de]. split.
  - intros H. apply obind_done in H as (d & H & E). unfold de_int in H.
    assert (X : ~ wide t /\ exists y, into_int t v = Ok y /\ d = DInt t y).
    { destruct t; try discriminate H; (split; [intros []|]); apply obind_done in H as (y & Hy & [= <-]); apply of_result_ok in Hy; eauto. }
    destruct X as (W & y & Hy & ->). destruct (y =? 0) eqn:Z0; [discriminate E|]. injection E as <-. apply Z.eqb_neq in Z0. auto.
  - intros (W & N & H). apply Z.eqb_neq in N. destruct t; try (destruct W; exact I); cbn [de_int]; rewrite H; cbn; rewrite N; reflexivity.
Qed.
Print Assumptions C108_nonzero_read_exactly.
Theorem C108_nonzero_comes_back : forall t z, ~ wide t -> fits t z -> z <> 0 -> exists v, ser_nonzero t z = Done v /\ de_nonzero t v = Done z.
Proof.
  intros t z W F N. exists (from_int t z). split; [destruct t; try (destruct W; exact I); reflexivity|]. apply C108_nonzero_read_exactly. split; auto. split; auto. now apply from_into_int.
Qed.
Print Assumptions C108_nonzero_comes_back.

(** A Duration is read from a map with the keys secs and nanos and no other,
    holding something that converts to u64 and to u32; nanoseconds of more than
    a second are carried over; an overflow is an error. *)
Theorem C108_duration_read_exactly : forall v d, wf v ->
  (de_duration v = Done d <-> exists s n, two_numbers v (lit "secs") (lit "nanos") s n /\ amounts_to d (s * 1000000000 + n) /\ fits U64 (fst d)).
Proof. intros v d W. apply two_numbers_iff; auto. discriminate. Qed.
Print Assumptions C108_duration_read_exactly.
Theorem C108_duration_comes_back : forall d, fits U64 (fst d) -> 0 <= snd d < 1000000000 ->
  exists v, ser_duration d = Done v /\ forall v', vequiv v v' -> uniq v' -> de_duration v' = Done d.
Proof. intros d F1 F2. apply two_numbers_survive; auto; discriminate. Qed.
Print Assumptions C108_duration_comes_back.

(** A SystemTime (nanoseconds since the epoch). *)
Theorem C108_time_read_exactly : forall v t, wf v ->
  (de_system_time v = Done t <-> exists s n, two_numbers v (lit "secs_since_epoch") (lit "nanos_since_epoch") s n /\
     t = s * 1000000000 + n /\ t < 2 ^ 63 * 1000000000).
Proof.
  intros v t W. unfold de_system_time. split.
  - intros H. apply obind_done in H as (d & H & E). apply two_numbers_iff in H as (s & n & T & A & F); auto; [|discriminate].
    destruct (in_range I64 (fst d)) eqn:R; [|discriminate E]. injection E as <-. apply in_range_fits in R. unfold fits in R. cbn in R. destruct A as [B A].
    exists s, n. split; auto. unfold nanos_per_sec. split; lia.
  - intros (s & n & T & -> & L). set (d := ((s * 1000000000 + n) / 1000000000, (s * 1000000000 + n) mod 1000000000)).
    assert (A : amounts_to d (s * 1000000000 + n)) by (apply amounts_unique; reflexivity).
    assert (P : 0 <= s /\ 0 <= n).
    { destruct T as (x & y & (m & -> & _ & M) & X & Y). apply into_int_fits in X; [|apply wf_map in W as [_ W]; apply (W (lit "secs_since_epoch")), M; left; reflexivity].
      apply into_int_fits in Y; [|apply wf_map in W as [_ W]; apply (W (lit "nanos_since_epoch")), M; right; left; reflexivity]. unfold fits in X, Y. cbn in X, Y. lia. }
    destruct A as [B A]. assert (F : 0 <= fst d < 2 ^ 63) by lia.
    rewrite (proj2 (two_numbers_iff (lit "secs_since_epoch") (lit "nanos_since_epoch") (lit "SystemTime epoch offset") v d ltac:(discriminate) W)).
    + cbn [obind]. assert (R : in_range I64 (fst d) = true) by (apply in_range_fits; unfold fits; cbn; lia). rewrite R. f_equal. unfold nanos_per_sec. lia.
    + exists s, n. split; auto. split; [split; auto|]. unfold fits; cbn; lia.
Qed.
Print Assumptions C108_time_read_exactly.
Theorem C108_time_comes_back : forall t, 0 <= t < 2 ^ 63 * 1000000000 ->
  exists v, ser_system_time t = Done v /\ forall v', vequiv v v' -> uniq v' -> de_system_time v' = Done t.
Proof.
  intros t H. unfold ser_system_time, de_system_time. destruct (t <? 0) eqn:N; [apply Z.ltb_lt in N; lia|].
  pose proof (Z.mod_pos_bound t nanos_per_sec ltac:(unfold nanos_per_sec; lia)) as B. pose proof (Z.div_mod t nanos_per_sec ltac:(unfold nanos_per_sec; lia)) as Q.
  unfold nanos_per_sec in *. set (s := t / 1000000000) in *. set (n := t mod 1000000000) in *.
  destruct (two_numbers_survive (lit "secs_since_epoch") (lit "nanos_since_epoch") (lit "SystemTime epoch offset") (s, n)) as (v & E & S); auto; try discriminate.
  - unfold fits; cbn; lia.
  - exists v. split; [exact E|]. intros v' Ev U. rewrite (S v' Ev U). cbn [obind fst snd]. assert (R : in_range I64 s = true) by (apply in_range_fits; unfold fits; cbn; lia). rewrite R. f_equal. lia.
Qed.
Print Assumptions C108_time_comes_back.
(** The errors of numbers that are too large. *)
Theorem C108_overflows_say_so : forall v s n, wf v ->
  (two_numbers v (lit "secs") (lit "nanos") s n -> 2 ^ 64 * 1000000000 <= s * 1000000000 + n ->
     de_duration v = Fail (EDeserialization (lit "overflow deserializing Duration")))
  /\ (two_numbers v (lit "secs_since_epoch") (lit "nanos_since_epoch") s n ->
       (2 ^ 64 * 1000000000 <= s * 1000000000 + n ->
          de_system_time v = Fail (EDeserialization (lit "overflow deserializing SystemTime epoch offset")))
       /\ (2 ^ 63 * 1000000000 <= s * 1000000000 + n < 2 ^ 64 * 1000000000 ->
          de_system_time v = Fail (EDeserialization (lit "overflow deserializing SystemTime")))).
Proof.
  intros v s n W.
  assert (Q : s * 1000000000 + n = (s + n / 1000000000) * 1000000000 + n mod 1000000000).
  { pose proof (Z.div_mod n 1000000000 ltac:(lia)). lia. }
  pose proof (Z.mod_pos_bound n 1000000000 ltac:(lia)) as B.
  assert (R : forall a b what, a <> b -> two_numbers v a b s n -> 2 ^ 64 * 1000000000 <= s * 1000000000 + n ->
     de_two_numbers a b what v = Fail (EDeserialization (lit "overflow deserializing " ++ what))).
  { intros a b what N T L. rewrite (two_numbers_new a b what v s n N W T). unfold duration_new, nanos_per_sec.
    destruct (in_range U64 (s + n / 1000000000)) eqn:F; [|reflexivity]. apply in_range_fits in F. unfold fits in F. cbn in F. lia. }
  split; [intros T L; unfold de_duration; rewrite R by (auto; discriminate); reflexivity|].
  intros T. split; intros L; unfold de_system_time.
  - rewrite R by (auto; discriminate). reflexivity.
  - rewrite (two_numbers_new (lit "secs_since_epoch") (lit "nanos_since_epoch") (lit "SystemTime epoch offset") v s n ltac:(discriminate) W T). unfold duration_new, nanos_per_sec.
    destruct (in_range U64 (s + n / 1000000000)) eqn:F.
    + cbn [obind fst snd]. destruct (in_range I64 (s + n / 1000000000)) eqn:G; [|reflexivity]. apply in_range_fits in G. unfold fits in G. cbn in G. lia.
    + exfalso. apply Bool.not_true_iff_false in F. apply F. apply in_range_fits. unfold fits. cbn. lia.
Qed.
Print Assumptions C108_overflows_say_so.
(** Times before the epoch cannot be written. *)
Theorem C108_times_before_the_epoch_are_refused : forall t, (t < 0 <-> exists e, ser_system_time t = Fail e)
  /\ forall e, ser_system_time t = Fail e -> e = ESerialization (lit "SystemTime must be later than UNIX_EPOCH").
Proof.
  intros t. unfold ser_system_time. destruct (t <? 0) eqn:N.
  - apply Z.ltb_lt in N. split; [split; eauto|]. intros e [= <-]. reflexivity.
  - apply Z.ltb_ge in N. assert (X : forall e, ser (DStruct [(lit "secs_since_epoch", DInt U64 (t / nanos_per_sec)); (lit "nanos_since_epoch", DInt U32 (t mod nanos_per_sec))]) <> Fail e)
      by (intros e; cbn [ser ser_fields new_map fold_left]; discriminate).
    split; [split; [lia|]; intros (e & H)|intros e H]; destruct (X e H).
Qed.
Print Assumptions C108_times_before_the_epoch_are_refused.

(** A range. *)
Theorem C108_range_read_exactly : forall t v a b, is_option t = false -> uniq v ->
  (de_range t v = Done (a, b) <-> exists x y, exactly v [(lit "start", x); (lit "end", y)] /\ de t x = Done a /\ de t y = Done b).
Proof.
  intros t v a b O U. unfold de_range. split.
  - intros H. apply obind_done in H as (d & H & E). apply two_part_iff in H as (x & y & da & db & Ex & Rx & Ry & ->); auto; [|discriminate]. injection E as <- <-. eauto.
  - intros (x & y & Ex & Rx & Ry). rewrite (proj2 (two_part_iff (lit "start") (lit "end") t t v (DStruct [(lit "start", a); (lit "end", b)]) ltac:(discriminate) O O U)); [reflexivity|]. exists x, y, a, b. auto.
Qed.
Print Assumptions C108_range_read_exactly.
Theorem C108_range_comes_back : forall t a b, round_trips t -> is_option t = false -> has_type t a -> has_type t b -> ~ data_wide a -> ~ data_wide b ->
  exists v, ser_range (a, b) = Done v /\ forall v', vequiv v v' -> uniq v' -> exists a' b', de_range t v' = Done (a', b') /\ data_equiv a a' /\ data_equiv b b'.
Proof.
  intros t a b R O Ha Hb Wa Wb. destruct (round_trip t R a Ha Wa) as (x & Ex & _ & Sx). destruct (round_trip t R b Hb Wb) as (y & Ey & _ & Sy).
  exists (VMap [(lit "start", x); (lit "end", y)]). split.
  { apply (ser_fields_done ser [(lit "start", a); (lit "end", b)] [] [(lit "start", x); (lit "end", y)]); [repeat constructor; assumption|].
    repeat constructor; cbn; intuition discriminate. }
  intros v' Ev U. apply vequiv_map_l in Ev as (m & -> & V1 & V2). pose proof (proj1 (uniq_map _) U) as [ND Um].
  destruct (V1 (lit "start") x (or_introl eq_refl)) as (x' & Hx & Qx). destruct (V1 (lit "end") y (or_intror (or_introl eq_refl))) as (y' & Hy & Qy).
  destruct (Sx x' Qx (Um _ _ Hx)) as (a' & Da & _ & Ea). destruct (Sy y' Qy (Um _ _ Hy)) as (b' & Db & _ & Eb).
  exists a', b'. split; [|auto]. apply C108_range_read_exactly; auto. exists x', y'. split; auto. exists m. split; auto. split; auto. intros k z. split.
  - intros Hz. destruct (V2 k z Hz) as (q & [Q|[Q|[]]] & _).
    + assert (k = lit "start") as -> by congruence. left. f_equal. apply (In_mget (lit "start")) in Hx; auto. apply (In_mget (lit "start")) in Hz; auto. congruence.
    + assert (k = lit "end") as -> by congruence. right; left. f_equal. apply (In_mget (lit "end")) in Hy; auto. apply (In_mget (lit "end")) in Hz; auto. congruence.
  - intros [Q|[Q|[]]]; [assert (k = lit "start" /\ z = x') as [-> ->] by (split; congruence) | assert (k = lit "end" /\ z = y') as [-> ->] by (split; congruence)]; auto.
Qed.
Print Assumptions C108_range_comes_back.

(** Types that are parsed from text. *)
Theorem C108_parsed_types_read_exactly : forall A (parse : str -> option A) v a,
  de_parsed parse v = Done a <-> exists s, into_string v = Ok s /\ parse s = Some a.
Proof.
  intros A parse v a. unfold de_parsed. split.
  - intros H. apply obind_done in H as (s & H & E). apply of_result_ok in H. destruct (parse s) eqn:P; [|discriminate E]. injection E as <-. eauto.
  - intros (s & H & P). rewrite H. cbn. rewrite P. reflexivity.
Qed.
Print Assumptions C108_parsed_types_read_exactly.
Theorem C108_parsed_types_come_back : forall A (parse : str -> option A) print a, parse (print a) = Some a ->
  exists v, ser_printed print a = Done v /\ de_parsed parse v = Done a.
Proof. intros A parse print a P. exists (VStr (print a)). split; [reflexivity|]. apply C108_parsed_types_read_exactly. exists (print a). split; auto. Qed.
Print Assumptions C108_parsed_types_come_back.

(** Borrowed text is refused, always. *)
Theorem C108_borrowed_text_is_never_read : forall v, exists e, de_borrowed_str v = Fail e.
Proof. intros v. unfold de_borrowed_str. destruct (into_string v); cbn; eexists; reflexivity. Qed.
Print Assumptions C108_borrowed_text_is_never_read.

Definition std_duration : value := VMap [(lit "nanos", VUInt 2500000000); (lit "secs", VStr (lit "3"))].
Example C108_example : key_type (TInt U8) /\ de_set (TInt U8) (VArr [VUInt 1; VStr (lit "2"); VStr (lit "1")]) = Done [DInt U8 1; DInt U8 2]
  /\ ser_set [DInt U8 2; DInt U8 1] = Done (VArr [VUInt 2; VUInt 1])
  /\ de_array (TInt U8) 2 (VArr [VUInt 1; VUInt 2; VStr (lit "x")]) = Done [DInt U8 1; DInt U8 2]
  /\ de_array (TInt U8) 2 (VArr [VUInt 1]) = Fail (EDeserialization (lit "invalid length 1, expected an array of length 2"))
  /\ de_nonzero U16 (VStr (lit "80")) = Done 80 /\ (exists e, de_nonzero U16 (VStr (lit "0")) = Fail e)
  /\ wf std_duration /\ de_duration std_duration = Done (5, 500000000)
  /\ ser_duration (5, 500000000) = Done (VMap [(lit "secs", VUInt 5); (lit "nanos", VUInt 500000000)])
  /\ ser_system_time 1500000000 = Done (VMap [(lit "secs_since_epoch", VUInt 1); (lit "nanos_since_epoch", VUInt 500000000)])
  /\ de_system_time (VMap [(lit "secs_since_epoch", VUInt 1); (lit "nanos_since_epoch", VUInt 500000000)]) = Done 1500000000
  /\ de_range (TInt U8) (VMap [(lit "end", VUInt 5); (lit "start", VUInt 2)]) = Done (DInt U8 2, DInt U8 5)
  /\ de_parsed (fun s => parse_int U16 s) (VUInt 80) = Done 80.
Proof.
  split; [constructor; exact (fun x => x)|]. repeat (split; [reflexivity|]). split; [eexists; reflexivity|]. split.
  { apply wf_map. split; [repeat constructor; cbn; intuition discriminate|]. intros k x [[= <- <-]|[[= <- <-]|[]]]; (split; [reflexivity|]); cbn; try reflexivity; exact I. }
  repeat split.
Qed.
