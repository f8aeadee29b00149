(** When layers can be exchanged. *)
From Coq Require Import ZArith Bool Permutation.
From Coq Require Import List.
Import ListNotations.
From Verif.Model Require Import Text Value Merge World Layers Config.
From Verif.Spec Require Import Spec MergeSpec ConfigSpec AgreeSpec.
From Verif.Proofs Require Import Basics Merge MergeMore ConfigBuild.

Lemma agree_deep a b k x y : agree a b -> holds a k x -> holds b k y -> agree x y.
Proof. intros H Hx Hy p u v A B. apply (H (k :: p)); econstructor; eauto. Qed.
Lemma agree_sym a b : agree a b -> agree b a.
Proof.
  intros H p x y A B. destruct (H p y x B A) as [[? ?]|E]; [left; auto | right; now apply vequiv_sym].
Qed.
Lemma agree_here a b k x y : agree a b -> holds a k x -> holds b k y -> (mapv x /\ mapv y) \/ vequiv x y.
Proof. intros H Hx Hy. apply (H [k]); econstructor; eauto; constructor. Qed.

Lemma uniq_empty : uniq (VMap []).
Proof. apply UMap; [constructor | intros ? ? []]. Qed.

Lemma combine_none_l o : combine None o = o.
Proof. destruct o; reflexivity. Qed.

(** Two agreeing maps can be merged into anything in either order. *)
Lemma agree_swap b : forall a c, uniq a -> uniq b -> uniq c -> agree a b ->
  mapv a -> mapv b ->
  vequiv (v_merge (v_merge c a) b) (v_merge (v_merge c b) a).
Proof.
  induction b as [v S|l IH|n IH] using value_ind'; intros a c Ua Ub Uc G [m ->] [n' En]; subst; try discriminate; [cbn in S; tauto|].
  injection En as <-. destruct (mapv_dec c) as [[o ->]|Nc].
  2:{ rewrite (v_merge_noop c (VMap m)) by tauto. rewrite !(v_merge_noop c (VMap n)) by tauto.
      rewrite v_merge_noop by tauto. apply vequiv_refl. }
  rewrite !v_merge_maps.
  assert (Um := Ua); assert (Un := Ub); assert (Uo := Uc).
  apply uniq_map in Ua as [Dm Vm]. apply uniq_map in Ub as [Dn Vn]. apply uniq_map in Uc as [Do Vo].
  apply vequiv_map_lookup; repeat apply merge_loop_nodup; auto.
  intros k. rewrite !merge_loop_get by (repeat apply merge_loop_nodup; auto).
  destruct (mget k n) as [y|] eqn:En; [|apply opt_rel_refl].
  destruct (mget k m) as [x|] eqn:Em; [|exact (opt_rel_refl (combine (mget k o) (Some y)))].
  assert (Hx : holds (VMap m) k x) by now apply holds_mget.
  assert (Hy : holds (VMap n) k y) by now apply holds_mget.
  pose proof (mget_In _ _ _ Em) as Ix. pose proof (mget_In _ _ _ En) as Iy.
  assert (Ux : uniq x) by eauto. assert (Uy : uniq y) by eauto.
  assert (C0 : forall c0, uniq c0 -> mapv x -> mapv y -> vequiv (v_merge (v_merge c0 x) y) (v_merge (v_merge c0 y) x)).
  { intros c0 U0 Mx My. apply (IH k); auto. eapply agree_deep; eauto. }
  destruct (mapv_dec x) as [Mx|Nx]; destruct (mapv_dec y) as [My|Ny].
  - assert (C1 : vequiv (v_merge x y) (v_merge y x)).
    { pose proof (C0 (VMap []) uniq_empty Mx My) as C1. now rewrite !v_merge_empty_l_eq in C1 by auto. }
    destruct (mget k o) as [z|] eqn:Eo; [destruct (mapv_dec z) as [Mz|Nz]|].
    + rewrite !combine_maps by (auto; now apply v_merge_mapv). cbn. apply C0; auto. apply mget_In in Eo; eauto.
    + rewrite (combine_right (Some z) x), (combine_right (Some z) y) by (intros ? E; injection E as <-; tauto).
      now rewrite !combine_maps by auto.
    + rewrite !combine_none_l. now rewrite !combine_maps by auto.
  - destruct (agree_here _ _ _ _ _ G Hx Hy) as [[? ?]|E]; [tauto|]. exfalso; apply Ny. eapply vequiv_mapv; eauto.
  - destruct (agree_here _ _ _ _ _ G Hx Hy) as [[? ?]|E]; [tauto|]. exfalso; apply Nx.
    apply vequiv_sym in E. eapply vequiv_mapv; eauto.
  - destruct (agree_here _ _ _ _ _ G Hx Hy) as [[? ?]|E]; [tauto|].
    rewrite (combine_right _ y), (combine_right _ x) by (intros ? ?; tauto). cbn. now apply vequiv_sym.
Qed.

(** The value at a path after merging b last, where b has something and the two
    are not both maps. *)
Lemma last_wins c b p y : uniq c -> uniq b -> mapv c -> mapv b -> at_path b p y ->
  (forall z, at_path c p z -> ~ (mapv z /\ mapv y)) -> at_path (v_merge c b) p y.
Proof. intros Uc Ub Mc Mb B N. apply merge_at_path; auto. Qed.

Lemma swap_agree a b c : uniq a -> uniq b -> uniq c -> mapv a -> mapv b -> mapv c ->
  vequiv (v_merge (v_merge c a) b) (v_merge (v_merge c b) a) -> agree a b.
Proof.
  intros Ua Ub Uc Ma Mb Mc E p x y A B.
  assert (Uca : uniq (v_merge c a)) by now apply v_merge_uniq.
  assert (Ucb : uniq (v_merge c b)) by now apply v_merge_uniq.
  assert (Mca : mapv (v_merge c a)) by now apply v_merge_mapv.
  assert (Mcb : mapv (v_merge c b)) by now apply v_merge_mapv.
  destruct (mapv_dec x) as [Mx|Nx]; destruct (mapv_dec y) as [My|Ny]; [left; auto | exfalso | exfalso | right].
  - (* x map, y not *)
    assert (P1 : at_path (v_merge (v_merge c a) b) p y) by (apply last_wins; auto; tauto).
    assert (P2 : at_path (v_merge c b) p y) by (apply last_wins; auto; tauto).
    assert (P3 : at_path (v_merge (v_merge c b) a) p x).
    { apply last_wins; auto. intros z Z [Mz _]. rewrite (at_path_fun _ _ _ _ Ucb Z P2) in Mz. tauto. }
    destruct (at_path_vequiv _ _ _ _ E P1) as (y' & P4 & V).
    rewrite (at_path_fun _ _ _ _ (v_merge_uniq _ _ Ucb Ua) P4 P3) in V. apply Ny. apply vequiv_sym in V. eapply vequiv_mapv; eauto.
  - assert (P1 : at_path (v_merge (v_merge c b) a) p x) by (apply last_wins; auto; tauto).
    assert (P2 : at_path (v_merge c a) p x) by (apply last_wins; auto; tauto).
    assert (P3 : at_path (v_merge (v_merge c a) b) p y).
    { apply last_wins; auto. intros z Z [Mz _]. rewrite (at_path_fun _ _ _ _ Uca Z P2) in Mz. tauto. }
    destruct (at_path_vequiv _ _ _ _ E P3) as (x' & P4 & V).
    rewrite (at_path_fun _ _ _ _ (v_merge_uniq _ _ Ucb Ua) P4 P1) in V. apply Nx. eapply vequiv_mapv; eauto.
  - assert (P1 : at_path (v_merge (v_merge c a) b) p y) by (apply last_wins; auto; tauto).
    assert (P2 : at_path (v_merge (v_merge c b) a) p x) by (apply last_wins; auto; tauto).
    destruct (at_path_vequiv _ _ _ _ E P1) as (x' & P4 & V).
    rewrite (at_path_fun _ _ _ _ (v_merge_uniq _ _ Ucb Ua) P4 P2) in V. now apply vequiv_sym.
Qed.

Lemma merge_commutes_iff a b : uniq a -> uniq b -> mapv a -> mapv b ->
  (vequiv (v_merge a b) (v_merge b a) <-> agree a b).
Proof.
  intros Ua Ub Ma Mb. rewrite <- (v_merge_empty_l_eq a) at 1 by auto. rewrite <- (v_merge_empty_l_eq b) at 2 by auto.
  split; [apply swap_agree; auto using uniq_empty; eexists; reflexivity | intros G; apply agree_swap; auto using uniq_empty].
Qed.
Lemma merges_commute_iff a b c : uniq a -> uniq b -> uniq c -> mapv a -> mapv b -> mapv c ->
  (vequiv (v_merge (v_merge c a) b) (v_merge (v_merge c b) a) <-> agree a b).
Proof. intros; split; [apply swap_agree; auto | intros; apply agree_swap; auto]. Qed.

(** ** Builds *)
Lemma requiv_trans {E} (x y z : result value E) : requiv x y -> requiv y z -> requiv x z.
Proof.
  destruct x, y, z; cbn; try tauto; [apply vequiv_trans | congruence].
Qed.

Definition good (w : world) (l : layer) : Prop := forall v, layer_read w l = Ok v -> uniq v.

Lemma build_list_congr w skip ls : (forall l, In l ls -> good w l) -> forall acc acc',
  uniq acc -> uniq acc' -> vequiv acc acc' -> requiv (build_list w skip acc ls) (build_list w skip acc' ls).
Proof.
  induction ls as [|l ls IH]; intros G acc acc' U U' E; cbn [build_list]; [exact E|].
  assert (G' : forall l, In l ls -> good w l) by (intros; apply G; right; auto).
  destruct (layer_read w l) as [v|e] eqn:R.
  - pose proof (G l (or_introl eq_refl) v R). apply IH; auto using v_merge_uniq. apply v_merge_congr; auto using vequiv_refl.
  - destruct skip; [apply IH; auto | cbn; reflexivity].
Qed.

Lemma build_list_uniq w skip ls : (forall l, In l ls -> good w l) -> forall acc v,
  uniq acc -> build_list w skip acc ls = Ok v -> uniq v.
Proof.
  induction ls as [|l ls IH]; intros G acc v U E; cbn [build_list] in E; [congruence|].
  assert (G' : forall l, In l ls -> good w l) by (intros; apply G; right; auto).
  destruct (layer_read w l) as [x|e] eqn:R.
  - pose proof (G l (or_introl eq_refl) x R). eapply IH; [auto | | exact E]. auto using v_merge_uniq.
  - destruct skip; [eapply IH; eauto | discriminate].
Qed.

Lemma build_swap w skip l l' ls acc : (forall x, In x (l :: l' :: ls) -> good w x) -> compatible w l l' -> uniq acc ->
  requiv (build_list w skip acc (l :: l' :: ls)) (build_list w skip acc (l' :: l :: ls)).
Proof.
  intros G [CM CE] U. cbn [build_list].
  assert (G1 := G l (or_introl eq_refl)). assert (G2 := G l' (or_intror (or_introl eq_refl))).
  assert (G' : forall x, In x ls -> good w x) by (intros; apply G; right; right; auto).
  assert (REFL : forall a, uniq a -> requiv (build_list w skip a ls) (build_list w skip a ls))
    by (intros; apply build_list_congr; auto using vequiv_refl).
  destruct (layer_read w l) as [v|e] eqn:R1; destruct (layer_read w l') as [v'|e'] eqn:R2.
  - pose proof (G1 _ R1). pose proof (G2 _ R2). apply build_list_congr; auto using v_merge_uniq.
    destruct (mapv_dec v) as [M|N]; destruct (mapv_dec v') as [M'|N'].
    + apply agree_swap; auto.
    + rewrite (v_merge_noop acc v'), (v_merge_noop (v_merge acc v) v') by tauto. apply vequiv_refl.
    + rewrite (v_merge_noop acc v), (v_merge_noop (v_merge acc v') v) by tauto. apply vequiv_refl.
    + rewrite (v_merge_noop acc v), (v_merge_noop acc v') by tauto. rewrite (v_merge_noop acc v) by tauto. apply vequiv_refl.
  - pose proof (G1 _ R1). destruct skip; [apply REFL; auto using v_merge_uniq | cbn; reflexivity].
  - pose proof (G2 _ R2). destruct skip; [apply REFL; auto using v_merge_uniq | cbn; reflexivity].
  - destruct skip; [now apply REFL | cbn; apply CE; auto].
Qed.

Lemma compatible_sym w l l' : compatible w l l' -> compatible w l' l.
Proof.
  intros [A B]. split; [intros v v' E E' M M'; apply agree_sym; eauto | intros e e' E E'; symmetry; eauto].
Qed.

Lemma build_list_perm w skip ls ls' : Permutation ls ls' -> (forall l, In l ls -> good w l) ->
  (forall l l', In l ls -> In l' ls -> compatible w l l') ->
  forall acc, uniq acc -> requiv (build_list w skip acc ls) (build_list w skip acc ls').
Proof.
  induction 1 as [|l ls ls' P IH|l l' ls|l1 l2 l3 P1 IH1 P2 IH2]; intros G C acc U.
  - cbn. apply vequiv_refl.
  - cbn [build_list]. assert (G' : forall l, In l ls -> good w l) by (intros; apply G; right; auto).
    assert (C' : forall l l', In l ls -> In l' ls -> compatible w l l') by (intros; apply C; right; auto).
    destruct (layer_read w l) as [v|e] eqn:R.
    + apply IH; auto. apply v_merge_uniq; auto. apply (G l); [left|]; auto.
    + destruct skip; [apply IH; auto | cbn; reflexivity].
  - apply build_swap; auto. apply C; [left | right; left]; auto.
  - eapply requiv_trans; [apply IH1; auto|]. apply IH2; auto.
    + intros l I. apply G. eapply Permutation_in; [apply Permutation_sym|]; eauto.
    + intros l l' I I'. apply C; eapply Permutation_in; try (apply Permutation_sym; eassumption); auto.
Qed.

Lemma build_permuted w c c' r r' skip : registered c r -> registered c' r' -> Permutation r r' ->
  (forall n l v, In (n, l) r -> layer_read w l = Ok v -> wf v) ->
  (forall n l n' l', In (n, l) r -> In (n', l') r -> compatible w l l') ->
  requiv (build_value w c skip) (build_value w c' skip).
Proof.
  intros R R' P G C. rewrite (build_value_list w c r skip R), (build_value_list w c' r' skip R').
  apply build_list_perm; [now apply Permutation_map | | | apply uniq_empty].
  - intros l I v E. apply in_map_iff in I as ([n l0] & <- & I). eapply wf_uniq, G; eauto.
  - intros l l' I I'. apply in_map_iff in I as ([n l0] & <- & I). apply in_map_iff in I' as ([n' l0'] & <- & I'). eapply C; eauto.
Qed.

Lemma build_adjacent w c c' r1 n l n' l' r2 skip :
  registered c (r1 ++ (n, l) :: (n', l') :: r2) -> registered c' (r1 ++ (n', l') :: (n, l) :: r2) ->
  (forall m x v, In (m, x) (r1 ++ (n, l) :: (n', l') :: r2) -> layer_read w x = Ok v -> wf v) ->
  compatible w l l' ->
  requiv (build_value w c skip) (build_value w c' skip).
Proof.
  intros R R' G C. rewrite (build_value_list w c _ skip R), (build_value_list w c' _ skip R'), !map_app, !build_list_app.
  cbn [map snd].
  assert (G1 : forall x, In x (map snd r1) -> good w x).
  { intros x I v E. apply in_map_iff in I as ([m y] & <- & I). apply wf_uniq, (G m y v); auto. apply in_or_app; auto. }
  assert (G2 : forall x, In x (l :: l' :: map snd r2) -> good w x).
  { intros x I v E. apply wf_uniq. destruct I as [<-|[<-|I]].
    - apply (G n l v); auto. apply in_or_app; right; left; auto.
    - apply (G n' l' v); auto. apply in_or_app; right; right; left; auto.
    - apply in_map_iff in I as ([m y] & <- & I). apply (G m y v); auto. apply in_or_app; right; right; right; auto. }
  destruct (build_list w skip new_map (map snd r1)) as [acc|e] eqn:E; [|cbn; reflexivity].
  apply build_swap; auto. exact (build_list_uniq w skip (map snd r1) G1 new_map acc uniq_empty E).
Qed.
