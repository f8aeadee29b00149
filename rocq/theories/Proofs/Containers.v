(** Proofs about the container API of [Value]. *)
From Coq Require Import ZArith List Bool Lia Permutation.
From Coq Require Import Floats.SpecFloat.
Import ListNotations.
From Verif.Model Require Import Text Num Flt Value.
From Verif.Spec Require Import Spec Containers.
From Verif.Proofs Require Import Basics.

(** ** set histories *)
Lemma set_calls_map m h : exists m', set_calls (VMap m) h = (VMap m', map (fun _ => Ok tt) h)
  /\ (forall k x, last_binding h k x -> mget k m' = Some x)
  /\ (forall k, ~ In k (map fst h) -> mget k m' = mget k m)
  /\ (NoDup (map fst m) -> NoDup (map fst m'))
  /\ (forall k, In k (map fst m') <-> In k (map fst m) \/ In k (map fst h)).
Proof.
  revert m; induction h as [|[k0 x0] t IH]; intros m; cbn [set_calls].
  - exists m; cbn; repeat split; auto; try tauto.
    intros k x (b & a & E & _); destruct b; discriminate.
  - cbn [v_set]. destruct (IH (minsert k0 x0 m)) as (m' & E & A & B & C & D).
    rewrite E. exists m'. split; [reflexivity|]. split; [|split; [|split]].
    + intros k x (b & a & Eh & Na). destruct b as [|e b]; cbn in Eh.
      * injection Eh as -> -> ->. rewrite (B k Na). apply mget_minsert_eq.
      * injection Eh as _ ->. apply A. exists b, a; split; auto.
    + intros k Nk; cbn in Nk. rewrite B by tauto. apply mget_minsert_neq. intros ->; tauto.
    + intros ND; apply C, minsert_nodup, ND.
    + intros k; rewrite D, in_minsert_keys; cbn. split; intros H; intuition.
Qed.

Lemma set_history m h v rs : set_calls (VMap m) h = (v, rs) ->
  mapv v /\ (forall r, In r rs -> r = Ok tt) /\ length rs = length h
  /\ (forall k x, last_binding h k x -> v_get v k = x)
  /\ (forall k, ~ In k (map fst h) -> v_get v k = v_get (VMap m) k).
Proof.
  intros E. destruct (set_calls_map m h) as (m' & E' & A & B & _). rewrite E in E'; injection E' as -> ->.
  split; [eexists; reflexivity|]. split; [|split; [|split]].
  - intros r Hr; apply in_map_iff in Hr as (? & <- & _); reflexivity.
  - apply map_length.
  - intros k x H; cbn; now rewrite (A k x H).
  - intros k H; cbn; now rewrite (B k H).
Qed.

Lemma set_history_new h v rs : set_calls new_map h = (v, rs) ->
  (forall r, In r rs -> r = Ok tt) /\ length rs = length h
  /\ (forall k x, last_binding h k x -> v_get v k = x)
  /\ (forall k, ~ In k (map fst h) -> v_get v k = VNone)
  /\ v_len v = length (nodup str_eq_dec (map fst h)).
Proof.
  intros E. destruct (set_history [] h v rs E) as (_ & A & B & C & D).
  split; [auto|]. split; [auto|]. split; [auto|]. split; [intros k H; now rewrite (D k H)|].
  destruct (set_calls_map [] h) as (m' & E' & _ & _ & ND & K).
  unfold new_map in E; rewrite E in E'; injection E' as -> _. cbn [v_len].
  rewrite <- (map_length fst m').
  apply Permutation_length, NoDup_Permutation.
  - apply ND; constructor.
  - apply NoDup_nodup.
  - intros k; rewrite K, nodup_In; cbn; tauto.
Qed.

Lemma set_other v k k' x v' r : v_set v k x = (v', r) -> k' <> k -> v_get v' k' = v_get v k'.
Proof.
  destruct v; cbn; intros E; injection E as <- <-; auto.
  intros N; cbn; now rewrite mget_minsert_neq.
Qed.

(** Keys ever set are exactly the keys found. *)
Lemma last_binding_exists {A} (h : list (str * A)) k : In k (map fst h) -> exists x, last_binding h k x.
Proof.
  induction h as [|[k0 x0] t IH]; cbn; [tauto|].
  intros H. destruct (in_dec str_eq_dec k (map fst t)) as [Hin|Hn].
  - destruct (IH Hin) as (x & b & a & -> & N). exists x, ((k0, x0) :: b), a; auto.
  - destruct H as [->|H]; [|tauto]. exists x0, [], t; auto.
Qed.

(** ** push histories *)
Lemma push_calls_arr l h : push_calls (VArr l) h = (VArr (l ++ h), map (fun _ => Ok tt) h).
Proof.
  revert l; induction h as [|x t IH]; intros l; cbn [push_calls v_push].
  - now rewrite app_nil_r.
  - rewrite IH. cbn [map]. now rewrite <- app_assoc.
Qed.

Lemma next_calls_arr l n i :
  next_calls {| it_value := VArr l; it_index := i |} n = map (nth_error l) (seq i n).
Proof. revert i; induction n as [|n IH]; intros i; cbn; [auto|]. now rewrite IH. Qed.

Lemma next_calls_other v n i : ~ arrayv v ->
  next_calls {| it_value := v; it_index := i |} n = repeat None n.
Proof.
  intros N; revert i; induction n as [|n IH]; intros i; cbn; [auto|].
  destruct v; cbn; try now rewrite IH. exfalso; apply N; eexists; reflexivity.
Qed.

Lemma push_history l h v rs : push_calls (VArr l) h = (v, rs) ->
  (forall r, In r rs -> r = Ok tt) /\ length rs = length h
  /\ v_len v = (length l + length h)%nat
  /\ (forall i x, nth_error (l ++ h) i = Some x -> v_at v i = x)
  /\ (forall i, (v_len v <= i)%nat -> v_at v i = VNone)
  /\ (forall n, next_calls (v_iter v) n = map (nth_error (l ++ h)) (seq 0 n)).
Proof.
  rewrite push_calls_arr; intros E; injection E as <- <-. cbn [v_len v_at v_iter].
  split; [|split; [|split; [|split; [|split]]]].
  - intros r Hr; apply in_map_iff in Hr as (? & <- & _); reflexivity.
  - apply map_length.
  - apply app_length.
  - intros i x ->; auto.
  - intros i H. apply nth_error_None in H as ->; auto.
  - intros n; apply next_calls_arr.
Qed.

(** ** Wrong kinds *)
Lemma set_nonmap v k x : ~ mapv v -> v_set v k x = (v, Err EMapOnly).
Proof. destruct v; cbn; auto. intros H; exfalso; apply H; eexists; reflexivity. Qed.
Lemma push_nonarray v x : ~ arrayv v -> v_push v x = (v, Err EArrayOnly).
Proof. destruct v; cbn; auto. intros H; exfalso; apply H; eexists; reflexivity. Qed.
Lemma get_nonmap v k : ~ mapv v -> v_get v k = VNone.
Proof. destruct v; cbn; auto. intros H; exfalso; apply H; eexists; reflexivity. Qed.
Lemma at_nonarray v i : ~ arrayv v -> v_at v i = VNone.
Proof. destruct v; cbn; auto. intros H; exfalso; apply H; eexists; reflexivity. Qed.
Lemma len_scalar v : scalarv v ->
  v_len v = match v with VStr s => length (utf8_encode s) | _ => 0%nat end.
Proof. destruct v; cbn; tauto. Qed.

(** ** Macros *)
Lemma value_map_loop_ok m kvs :
  value_map_loop (VMap m) kvs = Done (fst (set_calls (VMap m) kvs)).
Proof.
  revert m; induction kvs as [|[k v] t IH]; intros m; cbn; [auto|].
  rewrite IH. now destruct (set_calls (VMap (minsert k v m)) t).
Qed.
Lemma value_map_spec kvs : exists v, value_map_macro kvs = Done v /\ mapv v
  /\ (forall k x, last_binding kvs k x -> v_get v k = x)
  /\ (forall k, ~ In k (map fst kvs) -> lacks v k)
  /\ (forall k x, last_binding kvs k x <-> holds v k x)
  /\ v_len v = length (nodup str_eq_dec (map fst kvs)).
Proof.
  unfold value_map_macro, new_map. rewrite value_map_loop_ok.
  destruct (set_calls (VMap []) kvs) as [v rs] eqn:E.
  destruct (set_history_new kvs v rs E) as (_ & _ & A & B & C).
  destruct (set_calls_map [] kvs) as (m' & E' & A' & B' & ND & K). rewrite E in E'; injection E' as -> _.
  assert (ND' : NoDup (map fst m')) by (apply ND; constructor).
  exists (VMap m'). split; [auto|]. split; [eexists; reflexivity|]. split; [auto|].
  split; [|split; auto].
  - intros k H. apply lacks_mget. rewrite B'; auto.
  - intros k x; split.
    + intros H; apply holds_mget; auto.
    + intros H. apply (holds_mget _ _ _ ND') in H.
      destruct (in_dec str_eq_dec k (map fst kvs)) as [Hin|Hn].
      * destruct (last_binding_exists _ _ Hin) as (y & Hy).
        rewrite (A' _ _ Hy) in H; injection H as ->; auto.
      * rewrite (B' k Hn) in H; discriminate.
Qed.
Lemma value_vec_loop_ok l vs : value_vec_loop (VArr l) vs = Done (VArr (l ++ vs)).
Proof.
  revert l; induction vs as [|v t IH]; intros l; cbn.
  - now rewrite app_nil_r.
  - now rewrite IH, <- app_assoc.
Qed.

(** ** [==] *)
(** Equal floats are identical, or two zeros. *)
Lemma SFcompare_eq_inv f g : SFcompare f g = Some Eq ->
  (f = g /\ f <> S754_nan) \/ (exists s s', f = S754_zero s /\ g = S754_zero s').
Proof.
  destruct f as [s|s| |s m e], g as [s'|s'| |s' m' e']; cbn; try discriminate; try (destruct s; discriminate);
    try (destruct s'; discriminate); eauto.
  - destruct s, s'; try discriminate; left; split; congruence.
  - intros H; left. split; [|discriminate]. destruct s, s'; try discriminate;
    destruct (e ?= e')%Z eqn:Ee; try discriminate; apply Z.compare_eq in Ee; subst;
    change (Pos.compare_cont Eq m m') with (m ?= m')%positive in *;
    destruct (m ?= m')%positive eqn:Em; cbn; try discriminate; apply Pos.compare_eq in Em; subst; auto.
Qed.
Lemma SFcompare_refl f : f <> S754_nan -> SFcompare f f = Some Eq.
Proof.
  destruct f as [s|s| |s m e]; cbn; try tauto.
  - destruct s; auto.
  - intros _. rewrite Z.compare_refl. change (Pos.compare_cont Eq m m) with (m ?= m)%positive. rewrite Pos.compare_refl. now destruct s.
Qed.
Lemma SFcompare_eq_sym f g : SFcompare f g = Some Eq -> SFcompare g f = Some Eq.
Proof.
  intros H. destruct (SFcompare_eq_inv _ _ H) as [[-> N]|(s & s' & -> & ->)]; auto.
Qed.
Lemma SFcompare_eq_trans f g h :
  SFcompare f g = Some Eq -> SFcompare g h = Some Eq -> SFcompare f h = Some Eq.
Proof.
  intros H1 H2. destruct (SFcompare_eq_inv _ _ H1) as [[-> _]|(s & s' & -> & ->)]; auto.
Qed.
Lemma f64_eqb_iff f g : f64_eqb f g = true <-> SFcompare f g = Some Eq.
Proof.
  unfold f64_eqb, SFeqb. destruct (SFcompare f g) as [[]|]; split; congruence.
Qed.

Lemma v_eqb_arr l r : v_eqb (VArr l) (VArr r) = true <-> Forall2 (fun a b => v_eqb a b = true) l r.
Proof.
  cbn. revert r; induction l as [|x l IH]; intros [|y r]; split; intros H; try discriminate;
    try (inversion H; fail); try constructor; auto.
  - apply andb_true_iff in H as [H _]; auto.
  - apply andb_true_iff in H as [_ H]. now apply IH.
  - inversion H; subst. apply andb_true_iff; split; auto. now apply IH.
Qed.
Lemma v_eqb_map m n : v_eqb (VMap m) (VMap n) = true <->
  length m = length n /\ forall k x, In (k, x) m -> exists y, mget k n = Some y /\ v_eqb x y = true.
Proof.
  cbn. rewrite andb_true_iff, Nat.eqb_eq.
  match goal with |- _ /\ ?f m = true <-> _ =>
    enough (E : forall m0, f m0 = true <-> (forall k x, In (k, x) m0 -> exists y, mget k n = Some y /\ v_eqb x y = true))
      by (rewrite E; tauto) end.
  induction m0 as [|[k x] m0 IH]; [split; [intros _ k x []|auto]|].
  rewrite andb_true_iff, IH. split.
  - intros [H1 H2] k' x' [E|H']; [injection E as <- <- | eauto].
    destruct (mget k n); [eauto | discriminate].
  - intros H; split; [|intros; apply H; right; auto].
    destruct (H k x (or_introl eq_refl)) as (y & -> & E); auto.
Qed.

Lemma v_eqb_rust_eq a b : uniq a -> uniq b -> (v_eqb a b = true <-> rust_eq a b).
Proof.
  revert b; induction a as [v S|l IH|m IH] using value_ind'; intros b Ua Ub.
  - destruct v; cbn in S; try tauto; destruct b; cbn; split; intros H; try discriminate;
      try (inversion H; fail).
    + constructor.
    + auto.
    + apply eqb_prop in H; subst; constructor.
    + inversion H; subst; apply eqb_reflx.
    + apply Z.eqb_eq in H; subst; constructor.
    + inversion H; subst; apply Z.eqb_refl.
    + apply Z.eqb_eq in H; subst; constructor.
    + inversion H; subst; apply Z.eqb_refl.
    + apply Z.eqb_eq in H; subst; constructor.
    + inversion H; subst; apply Z.eqb_refl.
    + apply Z.eqb_eq in H; subst; constructor.
    + inversion H; subst; apply Z.eqb_refl.
    + constructor. now apply f64_eqb_iff.
    + inversion H; subst. now apply f64_eqb_iff.
    + apply str_eqb_eq in H; subst; constructor.
    + inversion H; subst; apply str_eqb_refl.
  - destruct b as [| | | | | | | |r|]; try (cbn; split; [discriminate | intros H; inversion H]).
    rewrite v_eqb_arr. rewrite uniq_arr in Ua, Ub. split; intros H.
    + constructor. revert IH Ua Ub. induction H; intros; constructor.
      * apply IH; try (left; reflexivity); auto; [apply Ua | apply Ub]; left; auto.
      * apply IHForall2; intros; [apply IH | apply Ua | apply Ub]; try right; auto.
    + inversion H as [| | | | | | | |? ? F|]; subst. clear H. revert IH Ua Ub.
      induction F; intros; constructor.
      * apply IH; try (left; reflexivity); auto; [apply Ua | apply Ub]; left; auto.
      * apply IHF; intros; [apply IH | apply Ua | apply Ub]; try right; auto.
  - destruct b as [| | | | | | | | |n]; try (cbn; split; [discriminate | intros H; inversion H]).
    rewrite v_eqb_map. rewrite uniq_map in Ua, Ub. destruct Ua as [Dm Um], Ub as [Dn Un].
    split.
    + intros [Hl H].
      assert (F : forall k x, In (k, x) m -> exists y, In (k, y) n /\ rust_eq x y).
      { intros k x Hx. destruct (H k x Hx) as (y & Ey & E). apply mget_In in Ey.
        exists y; split; auto. apply (IH k x Hx); eauto. }
      constructor; auto. intros k y Hy.
      assert (I : incl (map fst n) (map fst m)).
      { apply NoDup_length_incl; auto. rewrite !map_length; lia.
        intros k' Hk'. apply in_map_iff in Hk' as ([k2 x2] & <- & Hx2).
        destruct (F _ _ Hx2) as (y2 & Hy2 & _). cbn. change k2 with (fst (k2, y2)); apply in_map, Hy2. }
      assert (Hk : In k (map fst m)) by (apply I; change k with (fst (k, y)); apply in_map, Hy).
      apply in_map_iff in Hk as ([k2 x2] & E & Hx2); cbn in E; subst k2.
      destruct (F _ _ Hx2) as (y2 & Hy2 & R). exists x2; split; auto.
      apply (In_mget _ _ _ Dn) in Hy, Hy2. rewrite Hy in Hy2; injection Hy2 as ->; auto.
    + intros H; inversion H as [| | | | | | | | |? ? H1 H2]; subst. split.
      * rewrite <- (map_length fst m), <- (map_length fst n).
        apply Permutation_length, NoDup_Permutation; auto.
        intros k; split; intros Hk; apply in_map_iff in Hk as ([k2 x2] & E & Hx2); cbn in E; subst k2.
        -- destruct (H1 _ _ Hx2) as (y & Hy & _); change k with (fst (k, y)); apply in_map, Hy.
        -- destruct (H2 _ _ Hx2) as (y & Hy & _); change k with (fst (k, y)); apply in_map, Hy.
      * intros k x Hx. destruct (H1 _ _ Hx) as (y & Hy & R). exists y; split; [now apply In_mget|].
        apply (IH k x Hx); eauto.
Qed.

Lemma rust_eq_sym a b : rust_eq a b -> rust_eq b a.
Proof.
  revert b; induction a as [v S|l IH|m IH] using value_ind'; intros b H.
  - inversion H; subst; cbn in S; try tauto. constructor. now apply SFcompare_eq_sym.
  - inversion H; subst; constructor. eapply Forall2_sym_strong; [|eassumption]; auto.
  - inversion H as [| | | | | | | | |? n H1 H2]; subst; constructor; intros k x Hx.
    + destruct (H2 k x Hx) as (y & Hy & E); exists y; split; eauto.
    + destruct (H1 k x Hx) as (y & Hy & E); exists y; split; eauto.
Qed.
Lemma rust_eq_trans a b c : rust_eq a b -> rust_eq b c -> rust_eq a c.
Proof.
  revert b c; induction a as [v S|l IH|m IH] using value_ind'; intros b c H1 H2.
  - inversion H1; subst; cbn in S; try tauto; inversion H2; subst; constructor.
    eapply SFcompare_eq_trans; eauto.
  - inversion H1 as [| | | | | | | |? r F1|]; subst. inversion H2 as [| | | | | | | |? s F2|]; subst.
    constructor. clear H1 H2. revert s F2; induction F1; intros s F2; inversion F2; subst; constructor.
    + eapply IH; [left; reflexivity | |]; eassumption.
    + apply IHF1; auto. intros; eapply IH; [right|..]; eassumption.
  - inversion H1 as [| | | | | | | | |? n A1 A2]; subst. inversion H2 as [| | | | | | | | |? n' B1 B2]; subst.
    constructor; intros k x Hx.
    + destruct (A1 k x Hx) as (y & Hy & E1); destruct (B1 k y Hy) as (z & Hz & E2); exists z; split; eauto.
    + destruct (B2 k x Hx) as (y & Hy & E1); destruct (A2 k y Hy) as (z & Hz & E2); exists z; split; eauto.
Qed.
Lemma rust_eq_vequiv_r a b b' : vequiv b b' -> rust_eq a b -> rust_eq a b'.
Proof.
  revert b b'; induction a as [v S|l IH|m IH] using value_ind'; intros b b' Hb H.
  - inversion H; subst; cbn in S; try tauto;
      (apply vequiv_scalar_l in Hb; [subst; auto | exact I]).
  - inversion H as [| | | | | | | |? r F1|]; subst. apply vequiv_arr_l in Hb as (s & -> & F2).
    constructor. clear H. revert s F2; induction F1; intros s F2; inversion F2; subst; constructor.
    + eapply IH; [left; reflexivity | |]; eassumption.
    + apply IHF1; auto. intros; eapply IH; [right|..]; eassumption.
  - inversion H as [| | | | | | | | |? n A1 A2]; subst. apply vequiv_map_l in Hb as (n' & -> & B1 & B2).
    constructor; intros k x Hx.
    + destruct (A1 k x Hx) as (y & Hy & E1); destruct (B1 k y Hy) as (z & Hz & E2); exists z; split; eauto.
    + destruct (B2 k x Hx) as (y & Hy & E1); destruct (A2 k y Hy) as (z & Hz & E2); exists z; split; eauto.
Qed.
Lemma rust_eq_vequiv a a' b b' : vequiv a a' -> vequiv b b' -> (rust_eq a b <-> rust_eq a' b').
Proof.
  intros Ha Hb; split; intros H.
  - eapply rust_eq_vequiv_r; [exact Hb|]. apply rust_eq_sym. eapply rust_eq_vequiv_r; [exact Ha|]. now apply rust_eq_sym.
  - eapply rust_eq_vequiv_r; [apply vequiv_sym, Hb|]. apply rust_eq_sym.
    eapply rust_eq_vequiv_r; [apply vequiv_sym, Ha|]. now apply rust_eq_sym.
Qed.
Lemma v_eqb_vequiv a a' b b' : uniq a -> uniq a' -> uniq b -> uniq b' ->
  vequiv a a' -> vequiv b b' -> v_eqb a b = v_eqb a' b'.
Proof.
  intros U1 U2 U3 U4 Ha Hb. apply eq_true_iff_eq.
  rewrite (v_eqb_rust_eq a b), (v_eqb_rust_eq a' b'); auto. now apply rust_eq_vequiv.
Qed.
Lemma v_eqb_sym a b : uniq a -> uniq b -> v_eqb a b = v_eqb b a.
Proof.
  intros U1 U2. apply eq_true_iff_eq.
  rewrite (v_eqb_rust_eq a b), (v_eqb_rust_eq b a); auto; split; apply rust_eq_sym.
Qed.
Lemma v_eqb_trans a b c : uniq a -> uniq b -> uniq c ->
  v_eqb a b = true -> v_eqb b c = true -> v_eqb a c = true.
Proof.
  intros U1 U2 U3. rewrite !v_eqb_rust_eq; auto. apply rust_eq_trans.
Qed.

Lemma rust_eq_refl_nan v : uniq v -> (rust_eq v v <-> ~ has_nan v).
Proof.
  induction v as [v S|l IH|m IH] using value_ind'; intros U; split.
  - intros H N; inversion N; subst; cbn in S; try tauto. inversion H; discriminate.
  - intros N; destruct v; cbn in S; try tauto; constructor. apply SFcompare_refl. intros ->; apply N; constructor.
  - intros H N; inversion N as [|? x Hx Nx|]; subst. inversion H as [| | | | | | | |? r F|]; subst.
    rewrite uniq_arr in U.
    assert (R : rust_eq x x).
    { clear - Hx F. remember l as r eqn:E in F at 2. assert (F' : Forall2 eq l r) by (subst; clear; induction l; constructor; auto).
      clear E. revert Hx; induction F; intros Hx; [destruct Hx|]. inversion F'; subst. destruct Hx as [->|Hx]; auto. }
    apply (IH x Hx) in R; auto.
  - intros N; constructor. rewrite uniq_arr in U.
    assert (forall x, In x l -> rust_eq x x).
    { intros x Hx; apply IH; auto. intros Nx; apply N; econstructor; eauto. }
    clear - H. induction l; constructor; [apply H; left; auto | apply IHl; intros; apply H; right; auto].
  - intros H N; inversion N as [| |? k x Hx Nx]; subst. inversion H as [| | | | | | | | |? n A1 A2]; subst.
    apply uniq_map in U as [D U]. destruct (A1 k x Hx) as (y & Hy & R).
    pose proof (In_mget _ _ _ D Hx) as E1. pose proof (In_mget _ _ _ D Hy) as E2. rewrite E1 in E2; injection E2 as <-.
    apply (IH k x Hx) in R; eauto.
  - intros N. apply uniq_map in U as [D U].
    constructor; intros k x Hx; exists x; split; auto; apply (IH k x Hx); eauto; intros Nx; apply N; econstructor; eauto.
Qed.
Lemma v_eqb_refl_nan v : uniq v -> (v_eqb v v = true <-> ~ has_nan v).
Proof. intros U. rewrite v_eqb_rust_eq; auto. now apply rust_eq_refl_nan. Qed.

(** ** Nested reads *)
Lemma get_holds v k x : uniq v -> holds v k x -> v_get v k = x.
Proof.
  intros U (m & -> & H). apply uniq_map in U as [D _]. cbn. now rewrite (In_mget _ _ _ D H).
Qed.
Lemma get_lacks v k : lacks v k -> v_get v k = VNone.
Proof.
  intros L. destruct v; auto. apply lacks_mget in L. cbn. now rewrite L.
Qed.
Lemma get_path_none p : get_path VNone p = VNone.
Proof. induction p; cbn; auto. Qed.
Lemma get_path_at v p x : uniq v -> at_path v p x -> get_path v p = x.
Proof.
  intros U H; induction H as [v|v k y p x H1 H2 IH]; cbn; auto.
  rewrite (get_holds _ _ _ U H1). apply IH. eapply holds_uniq; eauto.
Qed.
Lemma get_path_nothing v p : uniq v -> (forall x, ~ at_path v p x) -> get_path v p = VNone.
Proof.
  revert v; induction p as [|k p IH]; intros v U H; cbn.
  - exfalso; apply (H v); constructor.
  - destruct (holds_or_lacks v k) as [[y Hy]|L].
    + rewrite (get_holds _ _ _ U Hy). apply IH; [eapply holds_uniq; eauto|].
      intros x Hx; apply (H x). econstructor; eauto.
    + rewrite (get_lacks _ _ L). apply get_path_none.
Qed.

(** ** Display *)
Lemma join_separated sep l : separated sep l (join_with sep l).
Proof.
  induction l as [|x [|y t] IH]; [constructor | constructor |].
  change (join_with sep (x :: y :: t)) with (x ++ sep ++ join_with sep (y :: t)). constructor; auto.
Qed.
