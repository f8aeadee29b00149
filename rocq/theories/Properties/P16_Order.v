(** C88: when the order of layers does not matter. *)
From Coq Require Import ZArith Bool String Permutation.
From Coq Require Import List.
Import ListNotations.
From Verif.Model Require Import Text Num Flt Value Merge Paths Finder World Layers Config.
From Verif.Spec Require Import Spec MergeSpec ConfigSpec AgreeSpec.
From Verif.Proofs Require Import Basics Merge ConfigBuild Utf8 Env Files Commute.

(** Merging two maps in either order gives the same map exactly when the maps
    never say different things at one path. *)
Theorem C88_merge_commutes_iff_the_maps_agree : forall a b, wf a -> wf b -> mapv a -> mapv b ->
  (vequiv (v_merge a b) (v_merge b a) <-> agree a b).
Proof. intros a b A B. apply merge_commutes_iff; auto using wf_uniq. Qed.
Print Assumptions C88_merge_commutes_iff_the_maps_agree.

(** The same on top of anything merged before. *)
Theorem C88_merges_commute_iff_the_maps_agree : forall a b c, wf a -> wf b -> wf c -> mapv a -> mapv b -> mapv c ->
  (vequiv (v_merge (v_merge c a) b) (v_merge (v_merge c b) a) <-> agree a b).
Proof. intros a b c A B D. apply merges_commute_iff; auto using wf_uniq. Qed.
Print Assumptions C88_merges_commute_iff_the_maps_agree.

(** Registering two neighbouring layers the other way round. *)
Theorem C88_neighbours_that_agree_may_be_swapped : forall w c c' r1 n l n' l' r2 skip,
  registered c (r1 ++ (n, l) :: (n', l') :: r2) -> registered c' (r1 ++ (n', l') :: (n, l) :: r2) ->
  (forall m x v, In (m, x) (r1 ++ (n, l) :: (n', l') :: r2) -> layer_read w x = Ok v -> wf v) ->
  compatible w l l' ->
  requiv (build_value w c skip) (build_value w c' skip).
Proof. exact build_adjacent. Qed.
Print Assumptions C88_neighbours_that_agree_may_be_swapped.

(** Layers that agree pairwise may be registered in any order. *)
Theorem C88_agreeing_layers_may_be_registered_in_any_order : forall w c c' r r' skip,
  registered c r -> registered c' r' -> Permutation r r' ->
  (forall n l v, In (n, l) r -> layer_read w l = Ok v -> wf v) ->
  (forall n l n' l', In (n, l) r -> In (n', l') r -> compatible w l l') ->
  requiv (build_value w c skip) (build_value w c' skip).
Proof. exact build_permuted. Qed.
Print Assumptions C88_agreeing_layers_may_be_registered_in_any_order.

(** Two layers that read maps: the order matters exactly when they disagree. *)
Theorem C88_disagreeing_layers_may_not : forall w c c' n l n' l' v v',
  registered c [(n, l); (n', l')] -> registered c' [(n', l'); (n, l)] ->
  layer_read w l = Ok v -> layer_read w l' = Ok v' -> wf v -> wf v' -> mapv v -> mapv v' ->
  (requiv (build_value w c false) (build_value w c' false) <-> agree v v').
Proof.
  intros w c c' n l n' l' v v' R R' E E' W W' M M'.
  rewrite (build_value_list w c _ false R), (build_value_list w c' _ false R'). cbn. rewrite E. cbn. rewrite E'. cbn.
  apply (merges_commute_iff v v' (VMap [])); auto using wf_uniq, uniq_empty. eexists; reflexivity.
Qed.
Print Assumptions C88_disagreeing_layers_may_not.

(** Two layers that set different keys of one section, and one key alike, agree;
    a third that sets one of the keys differently does not. *)
Definition ord_a : value := VMap [(lit "db", VMap [(lit "host", VStr (lit "h")); (lit "ssl", VBool true)])].
Definition ord_b : value := VMap [(lit "db", VMap [(lit "port", VInt 1); (lit "ssl", VBool true)]); (lit "x", VNone)].
Definition ord_c : value := VMap [(lit "db", VMap [(lit "host", VStr (lit "g"))])].
Lemma ord_agree : agree ord_a ord_b.
Proof.
  intros p x y A B. destruct p as [|k p]; [apply at_path_nil in A as ->; apply at_path_nil in B as ->; left; split; eexists; reflexivity|].
  apply at_path_cons in A as (a & (? & Ea & Ia) & A). apply at_path_cons in B as (b & (? & Eb & Ib) & B).
  injection Ea as <-. injection Eb as <-. destruct Ia as [E|[]]; injection E as <- <-.
  destruct Ib as [E|[E|[]]]; [injection E as <-|discriminate E].
  destruct p as [|k p]; [apply at_path_nil in A as ->; apply at_path_nil in B as ->; left; split; eexists; reflexivity|].
  apply at_path_cons in A as (a & (? & Ea & Ia) & A). apply at_path_cons in B as (b & (? & Eb & Ib) & B).
  injection Ea as <-. injection Eb as <-.
  destruct Ia as [E|[E|[]]]; injection E as <- <-; destruct Ib as [E|[E|[]]]; try discriminate E; injection E as <-.
  destruct p as [|k p]; [|apply at_path_cons in A as (? & (? & ? & _) & _); discriminate].
  apply at_path_nil in A as ->; apply at_path_nil in B as ->. right. constructor. exact I.
Qed.
Lemma ord_disagree : ~ agree ord_a ord_c.
Proof.
  intros H. destruct (H [lit "db"; lit "host"] (VStr (lit "h")) (VStr (lit "g"))) as [[[? ?] _]|E];
    [| |discriminate|inversion E].
  all: repeat (econstructor; [eexists; split; [reflexivity | left; reflexivity] |]); constructor.
Qed.
Example C88_example : wf ord_a /\ wf ord_b /\ wf ord_c /\ mapv ord_a /\ mapv ord_b /\ mapv ord_c
  /\ agree ord_a ord_b /\ ~ agree ord_a ord_c.
Proof.
  repeat (split; [first [exact ord_agree | cbn; repeat split; repeat constructor; cbn; intuition discriminate | eexists; reflexivity]|]).
  exact ord_disagree.
Qed.
Definition ord_world : world := 
  {| w_files := fun _ => None; w_target := fun p => p; w_can_read := fun _ => true; w_can_open := fun _ => true; w_room := fun _ => None;
     w_env := []; w_platform := {| pf_base := None; pf_cwd := None |} |}.
Definition ord_config (r : list (str * layer)) : config := {| layers_names := map fst r; layers := r |}.
Definition ord_r : list (str * layer) := [(lit "a", mem_layer_new ord_a); (lit "b", mem_layer_new ord_b); (lit "e", mem_layer_new (VInt 3))].
Example C88_example_layers : registered (ord_config ord_r) ord_r /\ registered (ord_config (rev ord_r)) (rev ord_r)
  /\ Permutation ord_r (rev ord_r)
  /\ (forall n l v, In (n, l) ord_r -> layer_read ord_world l = Ok v -> wf v)
  /\ (forall n l n' l', In (n, l) ord_r -> In (n', l') ord_r -> compatible ord_world l l').
Proof.
  split; [|split; [|split; [|split]]].
  - split; [reflexivity|]. split; [repeat constructor; cbn; intuition discriminate | apply Permutation_refl].
  - split; [reflexivity|]. split; [repeat constructor; cbn; intuition discriminate | apply Permutation_refl].
  - apply Permutation_rev.
  - intros n l v [E|[E|[E|[]]]] L; injection E as <- <-; cbn in L; injection L as <-; apply C88_example || (cbn; split; discriminate).
  - assert (Self : forall v, wf v -> agree v v).
    { intros v W p x y A B. right. rewrite (at_path_fun v p x y); auto using wf_uniq, vequiv_refl. }
    intros n l n' l' I I'; split.
    2:{ intros e e' E. destruct I as [X|[X|[X|[]]]]; injection X as <- <-; discriminate. }
    intros v v' L L' M M'.
    destruct I as [X|[X|[X|[]]]]; injection X as <- <-; cbn in L; injection L as <-;
    destruct I' as [X|[X|[X|[]]]]; injection X as <- <-; cbn in L'; injection L' as <-;
    try (destruct M; discriminate); try (destruct M'; discriminate).
    + apply Self, C88_example.
    + exact ord_agree.
    + exact (agree_sym _ _ ord_agree).
    + apply Self, C88_example.
Qed.
Example C88_example_differs : let r := [(lit "a", mem_layer_new ord_a); (lit "c", mem_layer_new ord_c)] in
  ~ requiv (build_value ord_world (ord_config r) false) (build_value ord_world (ord_config (rev r)) false).
Proof.
  cbv zeta. intros H. apply ord_disagree.
  refine (proj1 (C88_disagreeing_layers_may_not ord_world _ _ (lit "a") (mem_layer_new ord_a) (lit "c") (mem_layer_new ord_c)
    ord_a ord_c _ _ eq_refl eq_refl _ _ _ _) H); try apply C88_example.
  all: split; [reflexivity|]; split; [repeat constructor; cbn; intuition discriminate | apply Permutation_refl].
Qed.
