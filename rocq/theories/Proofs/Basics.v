(** Basic lemmas: strings, association lists, values, extensional equality. *)
From Coq Require Import ZArith List Bool Lia Permutation.
Import ListNotations.
From Verif.Model Require Import Text Num Flt Value.
From Verif.Spec Require Import Spec.
Open Scope Z_scope.

(** ** Strings *)
Lemma str_eqb_spec a b : reflect (a = b) (str_eqb a b).
Proof. unfold str_eqb; destruct (str_eq_dec a b); constructor; assumption. Qed.
Lemma str_eqb_refl a : str_eqb a a = true.
Proof. destruct (str_eqb_spec a a); congruence. Qed.
Lemma str_eqb_eq a b : str_eqb a b = true <-> a = b.
Proof. destruct (str_eqb_spec a b); split; congruence. Qed.
Lemma str_eqb_neq a b : str_eqb a b = false <-> a <> b.
Proof. destruct (str_eqb_spec a b); split; congruence. Qed.
Lemma str_eqb_sym a b : str_eqb a b = str_eqb b a.
Proof. destruct (str_eqb_spec a b), (str_eqb_spec b a); congruence. Qed.

(** ** Association lists *)
Section Assoc.
Context {V : Type}.
Implicit Types m : list (str * V).

Lemma mget_In k x m : mget k m = Some x -> In (k, x) m.
Proof.
  induction m as [|[k' v'] t IH]; cbn; [discriminate|].
  destruct (str_eqb_spec k k'); intros H; [left; congruence | right; auto].
Qed.

Lemma mget_None k m : mget k m = None <-> ~ In k (map fst m).
Proof.
  induction m as [|[k' v'] t IH]; cbn; [tauto|].
  destruct (str_eqb_spec k k') as [->|N].
  - split; [discriminate | intros H; exfalso; auto].
  - rewrite IH; split; intros H; [intros [E|E]; congruence || auto | auto].
Qed.

Lemma mget_None_In k m : mget k m = None <-> forall x, ~ In (k, x) m.
Proof.
  rewrite mget_None; split; intros H.
  - intros x Hx; apply H; change k with (fst (k, x)); apply in_map, Hx.
  - intros Hk; apply in_map_iff in Hk as [[k' x] [E Hx]]; cbn in E; subst; apply (H x), Hx.
Qed.

Lemma In_mget k x m : NoDup (map fst m) -> In (k, x) m -> mget k m = Some x.
Proof.
  induction m as [|[k' v'] t IH]; cbn; [tauto|].
  intros ND H; inversion ND as [|? ? Hn ND']; subst.
  destruct (str_eqb_spec k k') as [->|N].
  - destruct H as [H|H]; [congruence|].
    exfalso; apply Hn; change k' with (fst (k', x)); apply in_map, H.
  - destruct H as [H|H]; [congruence|auto].
Qed.

Lemma mget_iff k x m : NoDup (map fst m) -> mget k m = Some x <-> In (k, x) m.
Proof. intros ND; split; [apply mget_In | apply In_mget, ND]. Qed.

Lemma mget_some_key k m : In k (map fst m) -> exists x, mget k m = Some x.
Proof.
  intros H; destruct (mget k m) eqn:E; [eauto|].
  apply mget_None in E; contradiction.
Qed.

Lemma mget_minsert_eq k x m : mget k (minsert k x m) = Some x.
Proof.
  induction m as [|[k' v'] t IH]; cbn; [now rewrite str_eqb_refl|].
  destruct (str_eqb k k') eqn:E; cbn; rewrite E; auto.
Qed.

Lemma mget_minsert_neq k k' x m : k <> k' -> mget k (minsert k' x m) = mget k m.
Proof.
  intros N; induction m as [|[k2 v2] t IH]; cbn.
  - destruct (str_eqb_spec k k'); congruence.
  - destruct (str_eqb_spec k' k2) as [->|N2]; cbn.
    + destruct (str_eqb_spec k k2); congruence.
    + destruct (str_eqb k k2); auto.
Qed.

Lemma mget_minsert k k' x m :
  mget k (minsert k' x m) = if str_eqb k k' then Some x else mget k m.
Proof.
  destruct (str_eqb_spec k k') as [->|N]; [apply mget_minsert_eq | now apply mget_minsert_neq].
Qed.

Lemma minsert_keys_old k x m : In k (map fst m) -> map fst (minsert k x m) = map fst m.
Proof.
  induction m as [|[k' v'] t IH]; cbn; [tauto|].
  destruct (str_eqb_spec k k') as [->|N]; cbn; [reflexivity|].
  intros [H|H]; [congruence|]; now rewrite IH.
Qed.

Lemma minsert_keys_new k x m : ~ In k (map fst m) -> minsert k x m = m ++ [(k, x)].
Proof.
  induction m as [|[k' v'] t IH]; cbn; [reflexivity|].
  intros H; destruct (str_eqb_spec k k') as [->|N]; [exfalso; auto|].
  rewrite IH; auto.
Qed.

Lemma in_minsert_keys k k' x m : In k (map fst (minsert k' x m)) <-> k = k' \/ In k (map fst m).
Proof.
  induction m as [|[k2 v2] t IH]; cbn; [intuition|].
  destruct (str_eqb_spec k' k2) as [->|N]; cbn; [intuition|]. rewrite IH; intuition.
Qed.

Lemma minsert_nodup k x m : NoDup (map fst m) -> NoDup (map fst (minsert k x m)).
Proof.
  induction m as [|[k' v'] t IH]; cbn; intros H.
  - constructor; [tauto | constructor].
  - inversion H as [|? ? Hn ND]; subst.
    destruct (str_eqb_spec k k') as [->|N]; cbn; [assumption|].
    constructor; [| auto].
    rewrite in_minsert_keys; intuition congruence.
Qed.

Lemma minsert_length k x m :
  length (minsert k x m) = if mhas k m then length m else S (length m).
Proof.
  unfold mhas; induction m as [|[k' v'] t IH]; cbn; [reflexivity|].
  destruct (str_eqb k k'); cbn; [reflexivity|]. rewrite IH; now destruct (mget k t).
Qed.

Lemma mhas_true k m : mhas k m = true <-> In k (map fst m).
Proof.
  unfold mhas; destruct (mget k m) eqn:E.
  - split; [intros _|auto]. apply mget_In in E. change k with (fst (k, v)); apply in_map, E.
  - apply mget_None in E; split; [discriminate | tauto].
Qed.

Lemma In_minsert k x k' x' m : In (k, x) (minsert k' x' m) -> (k = k' /\ x = x') \/ In (k, x) m.
Proof.
  induction m as [|[k2 v2] t IH]; cbn.
  - intros [H|[]]; left; split; congruence.
  - destruct (str_eqb_spec k' k2) as [->|N]; cbn; intros [H|H]; [left; split; congruence | auto | auto |].
    destruct (IH H); auto.
Qed.
End Assoc.

(** Key lookup only depends on the entry set when keys are unique. *)
Lemma mget_perm {V} (m n : list (str * V)) k :
  NoDup (map fst m) -> Permutation m n -> mget k m = mget k n.
Proof.
  intros ND P.
  assert (ND' : NoDup (map fst n)) by (eapply Permutation_NoDup; [apply Permutation_map, P | exact ND]).
  destruct (mget k m) eqn:E; symmetry.
  - apply In_mget; auto. eapply Permutation_in; [exact P | apply mget_In, E].
  - apply mget_None. apply mget_None in E. intros H; apply E.
    eapply Permutation_in; [apply Permutation_map, Permutation_sym, P | exact H].
Qed.

(** ** Induction on values *)
Section ValueInd.
Variable P : value -> Prop.
Hypothesis Hscalar : forall v, scalarv v -> P v.
Hypothesis Harr : forall l, (forall x, In x l -> P x) -> P (VArr l).
Hypothesis Hmap : forall m, (forall k x, In (k, x) m -> P x) -> P (VMap m).

Fixpoint value_ind' (v : value) : P v.
Proof.
  destruct v as [| | | | | | | |l|m]; try (apply Hscalar; exact I).
  - apply Harr. induction l as [|a l IH]; intros x H; [destruct H|].
    destruct H as [<-|H]; [apply value_ind' | apply IH, H].
  - apply Hmap. induction m as [|[k0 a] m IH]; intros k x H; [destruct H|].
    destruct H as [E|H]; [| apply (IH k x H)].
    exact (eq_ind a P (value_ind' a) x (f_equal snd E)).
Defined.
End ValueInd.

Lemma value_cases v : scalarv v \/ (exists l, v = VArr l) \/ (exists m, v = VMap m).
Proof. destruct v; cbn; eauto. Qed.

Lemma mapv_dec v : mapv v \/ ~ mapv v.
Proof. destruct v; try (right; intros [m E]; discriminate). left; eexists; reflexivity. Qed.

Lemma is_map_iff v : is_map v = true <-> mapv v.
Proof. unfold mapv; destruct v; cbn; split; try discriminate; try (intros [m' E]; discriminate); eauto. Qed.
Lemma is_map_false v : is_map v = false <-> ~ mapv v.
Proof. rewrite <- is_map_iff; destruct (is_map v); split; congruence. Qed.

(** ** [wf] unfolded *)
Lemma wf_arr l : wf (VArr l) <-> (forall x, In x l -> wf x).
Proof.
  cbn; induction l as [|a l IH]; cbn; [intuition|].
  rewrite IH; split; [intros [H1 H2] x [<-|H]; auto | intros H; split; auto].
Qed.
Lemma wf_map m : wf (VMap m) <->
  NoDup (map fst m) /\ (forall k x, In (k, x) m -> is_text k = true /\ wf x).
Proof.
  cbn; unfold mkeys.
  enough (E : (fix go (m : list (str * value)) : Prop :=
                 match m with
                 | [] => True
                 | (k, x) :: t => is_text k = true /\ wf x /\ go t
                 end) m <-> (forall k x, In (k, x) m -> is_text k = true /\ wf x)) by (rewrite E; tauto).
  induction m as [|[k a] m IH]; cbn; [split; [intros _ k x [] | auto]|].
  rewrite IH; split.
  - intros (H1 & H2 & H3) k' x [E|H]; [injection E as <- <-; auto | eauto].
  - intros H; split; [apply (H k a); auto|]; split; [apply (H k a); auto|].
    intros k' x' H'; eapply H; eauto.
Qed.

Lemma wf_uniq v : wf v -> uniq v.
Proof.
  induction v as [v S|l IH|m IH] using value_ind'; intros W.
  - now constructor.
  - constructor; intros x Hx; apply IH; auto. now apply (proj1 (wf_arr l) W).
  - apply wf_map in W as [ND W]. apply UMap; auto.
    intros k x Hx; eapply IH; eauto. eapply W; eauto.
Qed.

Lemma uniq_arr l : uniq (VArr l) <-> (forall x, In x l -> uniq x).
Proof. split; [intros H; inversion H; subst; [cbn in *; tauto | auto] | apply UArr]. Qed.
Lemma uniq_map m : uniq (VMap m) <-> NoDup (map fst m) /\ (forall k x, In (k, x) m -> uniq x).
Proof.
  split; [intros H; inversion H; subst; [cbn in *; tauto | auto] | intros []; now apply UMap].
Qed.

(** ** Equivalence *)
Lemma vequiv_refl v : vequiv v v.
Proof.
  induction v as [v S|l IH|m IH] using value_ind'.
  - now constructor.
  - apply EqvArr. induction l; constructor; [apply IH; left; auto | apply IHl; intros; apply IH; right; auto].
  - apply EqvMap; intros k x H; exists x; eauto.
Qed.

Lemma Forall2_sym_strong {A} (R : A -> A -> Prop) l r :
  (forall x, In x l -> forall y, R x y -> R y x) -> Forall2 R l r -> Forall2 R r l.
Proof.
  intros H F; induction F; constructor; [apply H; [left|]; auto | apply IHF; intros; apply H; [right|]; auto].
Qed.

Lemma vequiv_scalar_l v w : scalarv v -> vequiv v w -> w = v.
Proof. intros S H; inversion H; subst; cbn in *; tauto. Qed.
Lemma vequiv_scalar_r v w : scalarv w -> vequiv v w -> v = w.
Proof. intros S H; inversion H; subst; cbn in *; tauto. Qed.
Lemma vequiv_arr_l l w : vequiv (VArr l) w -> exists r, w = VArr r /\ Forall2 vequiv l r.
Proof. intros H; inversion H; subst; cbn in *; [tauto | eauto]. Qed.
Lemma vequiv_map_l m w : vequiv (VMap m) w -> exists n, w = VMap n /\
  (forall k x, In (k, x) m -> exists y, In (k, y) n /\ vequiv x y) /\
  (forall k y, In (k, y) n -> exists x, In (k, x) m /\ vequiv x y).
Proof. intros H; inversion H; subst; cbn in *; [tauto | eauto]. Qed.

Lemma vequiv_sym a b : vequiv a b -> vequiv b a.
Proof.
  revert b; induction a as [v S|l IH|m IH] using value_ind'; intros b H.
  - apply vequiv_scalar_l in H; auto; subst. now apply EqvScalar.
  - apply vequiv_arr_l in H as (r & -> & F). apply EqvArr.
    eapply Forall2_sym_strong; [|eassumption]. auto.
  - apply vequiv_map_l in H as (n & -> & H1 & H2). apply EqvMap; intros k x Hx.
    + destruct (H2 k x Hx) as (y & Hy & E); exists y; split; eauto.
    + destruct (H1 k x Hx) as (y & Hy & E); exists y; split; eauto.
Qed.

Lemma vequiv_trans a b c : vequiv a b -> vequiv b c -> vequiv a c.
Proof.
  revert b c; induction a as [v S|l IH|m IH] using value_ind'; intros b c H1 H2.
  - apply vequiv_scalar_l in H1; auto; subst. auto.
  - apply vequiv_arr_l in H1 as (r & -> & F1). apply vequiv_arr_l in H2 as (s & -> & F2).
    apply EqvArr. revert s F2; induction F1 as [|x y l r E F IHF]; intros s F2; inversion F2; subst; constructor.
    + eapply IH; [left; reflexivity | |]; eassumption.
    + apply IHF; auto. intros; eapply IH; [right|..]; eassumption.
  - apply vequiv_map_l in H1 as (n & -> & A1 & A2). apply vequiv_map_l in H2 as (n' & -> & B1 & B2).
    apply EqvMap; intros k x Hx.
    + destruct (A1 k x Hx) as (y & Hy & E1); destruct (B1 k y Hy) as (z & Hz & E2); exists z; split; eauto.
    + destruct (B2 k x Hx) as (y & Hy & E1); destruct (A2 k y Hy) as (z & Hz & E2); exists z; split; eauto.
Qed.

Lemma vequiv_mapv a b : vequiv a b -> mapv a -> mapv b.
Proof. intros H [m ->]. apply vequiv_map_l in H as (n & -> & _). eexists; reflexivity. Qed.

(** Lookup form, for unique keys. *)
Definition opt_rel {A} (R : A -> A -> Prop) (a b : option A) : Prop :=
  match a, b with
  | Some x, Some y => R x y
  | None, None => True
  | _, _ => False
  end.

Lemma vequiv_map_lookup m n : NoDup (map fst m) -> NoDup (map fst n) ->
  (vequiv (VMap m) (VMap n) <-> forall k, opt_rel vequiv (mget k m) (mget k n)).
Proof.
  intros Dm Dn; split.
  - intros H k; apply vequiv_map_l in H as (n' & E & H1 & H2); injection E as <-.
    destruct (mget k m) eqn:Em; cbn.
    + apply mget_In in Em. destruct (H1 _ _ Em) as (y & Hy & E).
      rewrite (In_mget k y n); auto.
    + destruct (mget k n) eqn:En; auto.
      apply mget_In in En. destruct (H2 _ _ En) as (y & Hy & E).
      rewrite (In_mget k y m) in Em; auto; discriminate.
  - intros H; apply EqvMap; intros k x Hx.
    + specialize (H k). rewrite (In_mget k x m) in H; auto.
      destruct (mget k n) eqn:E; cbn in H; [|tauto]. apply mget_In in E; eauto.
    + specialize (H k). rewrite (In_mget k x n) in H; auto.
      destruct (mget k m) eqn:E; cbn in H; [|tauto]. apply mget_In in E; eauto.
Qed.

Lemma mget_lookup_vequiv m n k : uniq (VMap m) -> uniq (VMap n) ->
  vequiv (VMap m) (VMap n) -> opt_rel vequiv (mget k m) (mget k n).
Proof. intros [Dm _]%uniq_map [Dn _]%uniq_map H; now apply vequiv_map_lookup. Qed.

(** Permuting entries does not change a map. *)
Lemma vequiv_perm m n : Permutation m n -> vequiv (VMap m) (VMap n).
Proof.
  intros P; apply EqvMap; intros k x H; exists x; split; try apply vequiv_refl.
  - eapply Permutation_in; eassumption.
  - eapply Permutation_in; [apply Permutation_sym|]; eassumption.
Qed.

(** ** holds / at_path *)
Lemma holds_map m k x : holds (VMap m) k x <-> In (k, x) m.
Proof.
  split; [intros (n & E & H); injection E as <-; auto | intros H; exists m; auto].
Qed.
Lemma holds_mapv v k x : holds v k x -> mapv v.
Proof. intros (m & -> & _); eexists; reflexivity. Qed.
Lemma holds_mget m k x : NoDup (map fst m) -> holds (VMap m) k x <-> mget k m = Some x.
Proof. intros D; rewrite holds_map, mget_iff; tauto. Qed.
Lemma holds_fun v k x y : uniq v -> holds v k x -> holds v k y -> x = y.
Proof.
  intros U (m & -> & H) (n & E & H'); injection E as <-.
  apply uniq_map in U as [D _].
  apply (In_mget _ _ _ D) in H; apply (In_mget _ _ _ D) in H'; congruence.
Qed.
Lemma holds_uniq v k x : uniq v -> holds v k x -> uniq x.
Proof. intros U (m & -> & H). apply uniq_map in U as [_ U]; eauto. Qed.
Lemma lacks_mget m k : lacks (VMap m) k <-> mget k m = None.
Proof.
  rewrite mget_None_In; unfold lacks; split; intros H x Hx; apply (H x).
  - exists m; auto.
  - apply holds_map, Hx.
Qed.
Lemma lacks_nonmap v k : ~ mapv v -> lacks v k.
Proof. intros N x H; apply N; eapply holds_mapv; eauto. Qed.
Lemma holds_or_lacks v k : (exists x, holds v k x) \/ lacks v k.
Proof.
  destruct v as [| | | | | | | | |m]; try (right; intros x (n & E & _); discriminate).
  destruct (mget k m) eqn:E; [left | right; now apply lacks_mget].
  apply mget_In in E; eexists; exists m; eauto.
Qed.

Lemma at_path_nil v x : at_path v [] x <-> x = v.
Proof. split; [inversion 1; auto | intros ->; constructor]. Qed.
Lemma at_path_cons v k p x : at_path v (k :: p) x <-> exists y, holds v k y /\ at_path y p x.
Proof. split; [inversion 1; subst; eauto | intros (y & H1 & H2); econstructor; eauto]. Qed.
Lemma at_path_app v p q x : at_path v (p ++ q) x <-> exists y, at_path v p y /\ at_path y q x.
Proof.
  revert v; induction p as [|k p IH]; intros v; cbn [app].
  - split; [intros H; exists v; split; [constructor | auto] |].
    intros (y & H1 & H2); apply at_path_nil in H1; subst; auto.
  - rewrite at_path_cons; split.
    + intros (y & H1 & H2); apply IH in H2 as (z & H2 & H3). exists z; split; auto. apply at_path_cons; eauto.
    + intros (y & H1 & H2). apply at_path_cons in H1 as (z & H1 & H3). exists z; split; auto. apply IH; eauto.
Qed.
Lemma at_path_fun v p x y : uniq v -> at_path v p x -> at_path v p y -> x = y.
Proof.
  revert v; induction p as [|k p IH]; intros v U H1 H2.
  - apply at_path_nil in H1, H2; congruence.
  - apply at_path_cons in H1 as (a & Ha & H1). apply at_path_cons in H2 as (b & Hb & H2).
    pose proof (holds_fun _ _ _ _ U Ha Hb); subst. apply (IH b); auto. eapply holds_uniq; eauto.
Qed.
Lemma at_path_uniq v p x : uniq v -> at_path v p x -> uniq x.
Proof.
  revert v; induction p as [|k p IH]; intros v U H.
  - apply at_path_nil in H; congruence.
  - apply at_path_cons in H as (a & Ha & H). eauto using holds_uniq.
Qed.

Lemma sees_fun v p r r' : uniq v -> sees v p r -> sees v p r' -> r = r'.
Proof.
  intros U H1 H2; inversion H1; subst; inversion H2; subst; try reflexivity;
  try (match goal with
       | A : at_path v p ?x, B : at_path v p ?y |- _ =>
           tryif constr_eq x y then fail else (pose proof (at_path_fun _ _ _ _ U A B); subst) end);
  try tauto; try congruence; exfalso; match goal with N : forall x, ~ at_path v p x |- _ => eapply N; eassumption end.
Qed.

(** Two well-keyed Values in which every path sees the same are the same. *)
Lemma sees_vequiv a b : uniq a -> uniq b -> mapv a -> mapv b ->
  (forall p r, sees a p r -> sees b p r) -> vequiv a b.
Proof.
  revert b; induction a as [v S|l IH|m IH] using value_ind'; intros b Ua Ub [m0 Ea] [n Eb] H; subst;
    try discriminate; [cbn in S; tauto|].
  assert (SUB : forall k x, In (k, x) m -> exists y, In (k, y) n /\ vequiv x y).
  { intros k x Hx.
    assert (Px : at_path (VMap m) [k] x) by (apply at_path_cons; exists x; split; [now apply holds_map | constructor]).
    destruct (mapv_dec x) as [Mx|Mx].
    - pose proof (H [k] Node (SeesNode _ _ _ Px Mx)) as S. inversion S as [|? ? y Py My|]; subst.
      apply at_path_cons in Py as (y' & Hy & E). apply at_path_nil in E; subst y'.
      rewrite holds_map in Hy. exists y; split; auto.
      apply (IH k x Hx); auto.
      + apply uniq_map in Ua as [_ Ua]; eauto.
      + apply uniq_map in Ub as [_ Ub]; eauto.
      + intros p r Hr.
        assert (S' : sees (VMap m) (k :: p) r).
        { inversion Hr as [? ? z Pz Nz|? ? z Pz Mz|? ? N]; subst.
          - apply SeesLeaf; auto. apply at_path_cons; exists x; split; auto; now apply holds_map.
          - eapply SeesNode; eauto. apply at_path_cons; exists x; split; eauto; now apply holds_map.
          - apply SeesNothing; intros z Pz. apply at_path_cons in Pz as (x' & Hx' & Pz).
            pose proof (holds_fun _ _ _ _ Ua Hx' (proj2 (holds_map m k x) Hx)); subst. eapply N; eauto. }
        apply H in S'. inversion S' as [? ? z Pz Nz|? ? z Pz Mz|? ? N]; subst.
        * apply at_path_cons in Pz as (y' & Hy' & Pz).
          pose proof (holds_fun _ _ _ _ Ub Hy' (proj2 (holds_map n k y) Hy)); subst. now apply SeesLeaf.
        * apply at_path_cons in Pz as (y' & Hy' & Pz).
          pose proof (holds_fun _ _ _ _ Ub Hy' (proj2 (holds_map n k y) Hy)); subst. eapply SeesNode; eauto.
        * apply SeesNothing; intros z Pz; eapply N. apply at_path_cons; exists y; split; eauto; now apply holds_map.
    - pose proof (H [k] (Leaf x) (SeesLeaf _ _ _ Px Mx)) as S. inversion S as [? ? y Py My| |]; subst.
      apply at_path_cons in Py as (y' & Hy & E). apply at_path_nil in E; subst.
      rewrite holds_map in Hy; eauto using vequiv_refl. }
  apply EqvMap; auto.
  intros k y Hy.
  destruct (mget k m) as [x|] eqn:E.
  - apply mget_In in E. destruct (SUB k x E) as (y' & Hy' & V).
    pose proof (holds_fun _ _ _ _ Ub (proj2 (holds_map n k y) Hy) (proj2 (holds_map n k y') Hy')); subst; eauto.
  - exfalso.
    assert (S : sees (VMap m) [k] Nothing).
    { apply SeesNothing; intros z Pz. apply at_path_cons in Pz as (x' & Hx' & _).
      apply lacks_mget in E. eapply E; eauto. }
    apply H in S. inversion S as [| |? ? N]; subst. apply (N y). apply at_path_cons; exists y; split; [now apply holds_map | constructor].
Qed.

Lemma NoDup_snoc {A} (l : list A) x : NoDup l -> ~ In x l -> NoDup (l ++ [x]).
Proof.
  intros D N. eapply Permutation_NoDup; [apply Permutation_cons_append|]. now constructor.
Qed.
