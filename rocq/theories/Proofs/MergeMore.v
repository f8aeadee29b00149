(** Consequences of the merge lemmas, packaged for Properties/P04_Merge. *)
From Coq Require Import ZArith List Bool String Lia Permutation.
Import ListNotations.
From Verif.Model Require Import Text Num Flt Value Merge.
From Verif.Spec Require Import Spec MergeSpec.
From Verif.Proofs Require Import Basics Merge.

Lemma merge_key_by_key a b k : uniq a -> uniq b -> mapv a -> mapv b ->
  mapv (v_merge a b)
  /\ (forall x, holds a k x -> lacks b k -> holds (v_merge a b) k x)
  /\ (forall y, lacks a k -> holds b k y -> holds (v_merge a b) k y)
  /\ (forall x y, holds a k x -> holds b k y -> mapv x -> mapv y -> holds (v_merge a b) k (v_merge x y))
  /\ (forall x y, holds a k x -> holds b k y -> ~ (mapv x /\ mapv y) -> holds (v_merge a b) k y)
  /\ (lacks a k -> lacks b k -> lacks (v_merge a b) k).
Proof.
  intros Ua Ub Ma Mb. repeat split.
  - now apply v_merge_mapv.
  - intros; now apply merge_only_a.
  - intros; now apply merge_only_b.
  - intros; now apply (merge_both a b k x y).
  - intros; now apply (merge_both a b k x y).
  - intros; now apply merge_no_other.
Qed.

Lemma at_path_prefix_mapv v p x k q y : uniq v -> at_path v p x -> at_path v (p ++ k :: q) y -> mapv x.
Proof.
  intros U A B. apply at_path_app in B as (x' & A' & B). rewrite (at_path_fun _ _ _ _ U A' A) in B.
  apply at_path_cons in B as (z & H & _). eapply holds_mapv; eauto.
Qed.
Lemma merge_path_consequences a b p : uniq a -> uniq b -> mapv a -> mapv b ->
  (forall x, at_path b p x -> ~ mapv x -> at_path (v_merge a b) p x)
  /\ (forall x k q y, at_path b p x -> ~ mapv x -> ~ at_path (v_merge a b) (p ++ k :: q) y)
  /\ (silent b p -> forall x, at_path (v_merge a b) p x <-> at_path a p x)
  /\ (forall x y, at_path a p x -> at_path b p y -> mapv x -> mapv y -> at_path (v_merge a b) p (v_merge x y))
  /\ (forall y, at_path b p y -> (forall x, at_path a p x -> ~ mapv x) -> at_path (v_merge a b) p y).
Proof.
  intros Ua Ub Ma Mb.
  assert (W : forall x, at_path b p x -> ~ mapv x -> at_path (v_merge a b) p x).
  { intros x B N. apply merge_at_path; auto. right; left; split; auto; tauto. }
  split; [exact W|]. split; [|split; [|split]].
  - intros x k q y B N A. apply N. eapply (at_path_prefix_mapv (v_merge a b)); eauto using v_merge_uniq.
  - intros S x. rewrite merge_at_path by auto. split; [|auto].
    intros [[A _]|[[B _]|(y & z & _ & B & _)]]; auto; exfalso; eapply silent_at; eauto.
  - intros x y A B Mx My. apply merge_at_path; auto. right; right. exists x, y; auto.
  - intros y B N. apply merge_at_path; auto. right; left. split; auto. intros x A [Mx _]. eapply N; eauto.
Qed.

Lemma merge_congr a a' b b' : uniq a -> uniq a' -> uniq b -> uniq b' -> vequiv a a' -> vequiv b b' ->
  vequiv (v_merge a b) (v_merge a' b').
Proof. apply v_merge_congr. Qed.
Lemma any_merge_unique a b r r' : uniq a -> uniq b -> any_merge a b r -> any_merge a b r' ->
  vequiv r r' /\ vequiv r (v_merge a b).
Proof.
  intros Ua Ub H H'. destruct (proj1 any_merge_sound _ _ _ H Ua Ub) as [_ E].
  destruct (proj1 any_merge_sound _ _ _ H' Ua Ub) as [_ E'].
  split; auto. eapply vequiv_trans; [exact E|]. now apply vequiv_sym.
Qed.
Lemma merge_identities a b : uniq a -> uniq b ->
  v_merge a (VMap []) = a
  /\ (mapv b -> vequiv (v_merge (VMap []) b) b)
  /\ vequiv (v_merge a a) a
  /\ vequiv (v_merge (v_merge a b) b) (v_merge a b).
Proof.
  intros Ua Ub. split; [apply v_merge_empty_r|]. split; [|split].
  - intros [m ->]. apply v_merge_empty_l. now apply uniq_map in Ub.
  - now apply v_merge_self.
  - now apply v_merge_twice.
Qed.
Lemma merge_nonmap_noop a b : ~ mapv a \/ ~ mapv b -> v_merge a b = a.
Proof. intros H; apply v_merge_noop; tauto. Qed.
Lemma assoc_kinds_agree a b c :
  uniq a -> uniq b -> uniq c -> mapv a -> mapv b -> mapv c ->
  (forall p x y, at_path a p x -> at_path b p y -> mapv x -> mapv y) ->
  vequiv (v_merge (v_merge a b) c) (v_merge a (v_merge b c)).
Proof.
  intros Ua Ub Uc Ma Mb Mc K. apply assoc_iff; auto.
  intros (p & va & vb & vc & A & B & C & Mva & Nvb & _). apply Nvb. eapply K; eauto.
Qed.
Lemma assoc_refuted : exists a b c,
  wf a /\ wf b /\ wf c /\ mapv a /\ mapv b /\ mapv c /\ shadow_conflict a b c
  /\ v_eqb (v_merge (v_merge a b) c) (v_merge a (v_merge b c)) = false.
Proof.
  exists (VMap [(lit "k", VMap [(lit "x", VInt 1)])]), (VMap [(lit "k", VBool true)]), (VMap [(lit "k", VMap [(lit "y", VInt 2)])]).
  repeat split; try (eexists; reflexivity); try (cbn; repeat constructor; cbn; tauto).
  exists [lit "k"], (VMap [(lit "x", VInt 1)]), (VBool true), (VMap [(lit "y", VInt 2)]).
  repeat split; try (eexists; reflexivity); try (econstructor; [apply holds_map; left; reflexivity | constructor]).
  - intros [? E]; discriminate.
  - apply (adds_here _ _ (lit "x") (VInt 1)); [eexists; reflexivity | apply holds_map; left; reflexivity|].
    apply lacks_mget; reflexivity.
Qed.
Lemma merge_loop_keys rhs : forall lhs k, In k (map fst (merge_loop lhs rhs)) <-> In k (map fst lhs) \/ In k (map fst rhs).
Proof.
  induction rhs as [|[key x] rest IH]; intros lhs k; cbn [merge_loop map fst]; [cbn; tauto|].
  rewrite IH. assert (E : forall l : vmap, In k (map fst l) <-> key = k \/ In k (map fst lhs) -> 
     (In k (map fst l) \/ In k (map fst rest) <-> In k (map fst lhs) \/ In k (key :: map fst rest))) by (cbn; tauto).
  apply E. destruct (mget key lhs); [destruct (_ && _)|]; rewrite in_minsert_keys; intuition congruence.
Qed.
Lemma merge_size m n r : uniq (VMap m) -> uniq (VMap n) -> v_merge (VMap m) (VMap n) = VMap r ->
  (forall k, In k (map fst r) <-> In k (map fst m) \/ In k (map fst n))
  /\ (List.length m <= List.length r <= List.length m + List.length n)%nat.
Proof.
  intros Um Un E. rewrite v_merge_maps in E. injection E as <-.
  split; [intros; apply merge_loop_keys|].
  apply uniq_map in Um as [Dm _]. apply uniq_map in Un as [Dn _].
  pose proof (merge_loop_nodup n m Dm) as Dr.
  rewrite <- (map_length fst m), <- (map_length fst n), <- (map_length fst (merge_loop m n)), <- app_length.
  split; apply NoDup_incl_length; auto; intros k Hk.
  - apply merge_loop_keys; auto.
  - apply merge_loop_keys in Hk. apply in_or_app; auto.
Qed.
