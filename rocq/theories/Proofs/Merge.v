(** Proofs about [v_merge] (C19-C25). *)
From Coq Require Import ZArith List Bool Lia Permutation.
Import ListNotations.
From Verif.Model Require Import Text Num Flt Value Merge.
From Verif.Spec Require Import Spec MergeSpec.
From Verif.Proofs Require Import Basics.

Fixpoint merge_loop (lhs rhs : vmap) {struct rhs} : vmap :=
  match rhs with
  | [] => lhs
  | (key, x) :: rest =>
    merge_loop (match mget key lhs with
                | Some lhs_value =>
                  if is_map lhs_value && is_map x
                  then minsert key (v_merge lhs_value x) lhs
                  else minsert key x lhs
                | None => minsert key x lhs
                end) rest
  end.
Lemma v_merge_maps m n : v_merge (VMap m) (VMap n) = VMap (merge_loop m n).
Proof. reflexivity. Qed.
Global Opaque v_merge.

(** One key. *)
Definition combine (l r : option value) : option value :=
  match r with
  | None => l
  | Some x => match l with
              | Some y => if is_map y && is_map x then Some (v_merge y x) else Some x
              | None => Some x
              end
  end.

Lemma merge_step_get key x lhs k :
  mget k (match mget key lhs with
          | Some lhs_value =>
            if is_map lhs_value && is_map x
            then minsert key (v_merge lhs_value x) lhs
            else minsert key x lhs
          | None => minsert key x lhs
          end)
  = if str_eqb k key then combine (mget key lhs) (Some x) else mget k lhs.
Proof.
  destruct (mget key lhs) as [y|] eqn:E; cbn [combine].
  - destruct (is_map y && is_map x); rewrite mget_minsert; reflexivity.
  - rewrite mget_minsert; reflexivity.
Qed.
Lemma merge_loop_get rhs : forall lhs k, NoDup (map fst rhs) ->
  mget k (merge_loop lhs rhs) = combine (mget k lhs) (mget k rhs).
Proof.
  induction rhs as [|[key x] rest IH]; intros lhs k ND; cbn [merge_loop mget]; [reflexivity|].
  inversion ND as [|? ? Hn ND']; subst. rewrite IH by auto. rewrite merge_step_get.
  destruct (str_eqb_spec k key) as [->|N]; [|reflexivity].
  cbn in Hn. rewrite (proj2 (mget_None key rest) Hn). reflexivity.
Qed.
Lemma merge_step_nodup key x lhs : NoDup (map fst lhs) ->
  NoDup (map fst (match mget key lhs with
          | Some lhs_value =>
            if is_map lhs_value && is_map x
            then minsert key (v_merge lhs_value x) lhs
            else minsert key x lhs
          | None => minsert key x lhs
          end)).
Proof.
  intros ND. destruct (mget key lhs); [destruct (_ && _)|]; now apply minsert_nodup.
Qed.
Lemma merge_loop_nodup rhs : forall lhs, NoDup (map fst lhs) -> NoDup (map fst (merge_loop lhs rhs)).
Proof.
  induction rhs as [|[key x] rest IH]; intros lhs ND; cbn [merge_loop]; auto.
  apply IH. now apply merge_step_nodup.
Qed.

Lemma v_merge_noop a b : ~ (mapv a /\ mapv b) -> v_merge a b = a.
Proof.
  intros H. destruct a; try (destruct b; reflexivity). destruct b; try reflexivity.
  exfalso; apply H; split; eexists; reflexivity.
Qed.
Lemma v_merge_mapv a b : mapv a -> mapv (v_merge a b).
Proof.
  intros [m ->]. destruct (mapv_dec b) as [[n ->]|N].
  - rewrite v_merge_maps; eexists; reflexivity.
  - rewrite v_merge_noop; [eexists; reflexivity | tauto].
Qed.
Lemma v_merge_mapv_iff a b : mapv (v_merge a b) <-> mapv a.
Proof.
  split; [|apply v_merge_mapv]. intros H. destruct (mapv_dec a) as [|N]; auto.
  rewrite v_merge_noop in H; tauto.
Qed.

(** [In]-preservation, for [uniq] and [wf]. *)
Lemma merge_loop_In (P : str -> value -> Prop) rhs : (forall k x, In (k, x) rhs -> P k x) ->
  (forall k x y, In (k, x) rhs -> mapv y -> mapv x -> P k y -> P k (v_merge y x)) ->
  forall lhs, (forall k x, In (k, x) lhs -> P k x) -> forall k x, In (k, x) (merge_loop lhs rhs) -> P k x.
Proof.
  induction rhs as [|[key x] rest IH]; intros Hr Hm lhs Hl; cbn [merge_loop]; auto.
  apply IH.
  - intros; apply Hr; right; auto.
  - intros; eapply Hm; eauto; right; eauto.
  - intros k' x' Hin. destruct (mget key lhs) as [y|] eqn:E; [destruct (is_map y && is_map x) eqn:B|];
      apply In_minsert in Hin as [[-> ->]|Hin]; auto; try (apply Hr; left; reflexivity).
    apply andb_true_iff in B as [By Bx]. apply is_map_iff in By, Bx.
    apply Hm; auto; [left; reflexivity |]. apply Hl. now apply mget_In.
Qed.

Lemma v_merge_uniq b : forall a, uniq a -> uniq b -> uniq (v_merge a b).
Proof.
  induction b as [v S|l IH|n IH] using value_ind'; intros a Ua Ub;
    try (rewrite v_merge_noop; [assumption | intros [_ [? E]]; subst; cbn in *; try tauto; discriminate]).
  destruct (mapv_dec a) as [[m ->]|N]; [|rewrite v_merge_noop; tauto].
  rewrite v_merge_maps. apply uniq_map in Ua as [Dm Um]. apply uniq_map in Ub as [Dn Un].
  apply uniq_map. split; [now apply merge_loop_nodup|].
  eapply (merge_loop_In (fun _ x => uniq x)); eauto.
Qed.
Lemma v_merge_wf b : forall a, wf a -> wf b -> wf (v_merge a b).
Proof.
  induction b as [v S|l IH|n IH] using value_ind'; intros a Ua Ub;
    try (rewrite v_merge_noop; [assumption | intros [_ [? E]]; subst; cbn in *; try tauto; discriminate]).
  destruct (mapv_dec a) as [[m ->]|N]; [|rewrite v_merge_noop; tauto].
  rewrite v_merge_maps. apply wf_map in Ua as [Dm Um]. apply wf_map in Ub as [Dn Un].
  apply wf_map. split; [now apply merge_loop_nodup|].
  eapply (merge_loop_In (fun k x => is_text k = true /\ wf x)); eauto.
  intros k x y Hin My Mx [T W]. split; auto. eapply IH; eauto. apply (Un _ _ Hin).
Qed.

(** ** Key-wise specification *)
Lemma combine_maps y x : mapv y -> mapv x -> combine (Some y) (Some x) = Some (v_merge y x).
Proof. intros Hy Hx. apply is_map_iff in Hy, Hx. cbn. now rewrite Hy, Hx. Qed.
Lemma combine_right l x : (forall y, l = Some y -> ~ (mapv y /\ mapv x)) -> combine l (Some x) = Some x.
Proof.
  intros H. destruct l as [y|]; cbn; auto. destruct (is_map y && is_map x) eqn:B; auto.
  apply andb_true_iff in B as [B1 B2]. apply is_map_iff in B1, B2. exfalso; eapply H; eauto.
Qed.

Lemma merge_holds a b k x : uniq a -> uniq b -> mapv a -> mapv b ->
  (holds (v_merge a b) k x <->
     (lacks b k /\ holds a k x)
     \/ (holds b k x /\ forall y, holds a k y -> ~ (mapv y /\ mapv x))
     \/ (exists y z, holds a k y /\ holds b k z /\ mapv y /\ mapv z /\ x = v_merge y z)).
Proof.
  intros Ua Ub [m ->] [n ->].
  apply uniq_map in Ua as [Dm Um]. apply uniq_map in Ub as [Dn Un].
  rewrite v_merge_maps. rewrite holds_mget by (now apply merge_loop_nodup).
  rewrite merge_loop_get by auto. rewrite lacks_mget, !holds_mget by auto.
  destruct (mget k n) as [z|] eqn:En.
  - destruct (mget k m) as [y|] eqn:Em.
    + destruct (mapv_dec y) as [My|Ny]; [destruct (mapv_dec z) as [Mz|Nz]|].
      * rewrite combine_maps by auto. split.
        -- intros E; injection E as <-. right; right. exists y, z. rewrite !holds_mget by auto. auto.
        -- intros [[E _]|[[E H]|(y' & z' & Hy & Hz & _ & _ & ->)]].
           ++ discriminate.
           ++ injection E as ->. exfalso; apply (H y); [now rewrite holds_mget|auto].
           ++ rewrite holds_mget in Hy, Hz by auto. congruence.
      * rewrite combine_right by (intros ? E; injection E as ->; tauto). split.
        -- intros E; right; left. split; auto. injection E as ->. tauto.
        -- intros [[E _]|[[E H]|(y' & z' & Hy & Hz & _ & Mz & ->)]]; auto; [discriminate|].
           rewrite holds_mget in Hz by auto. congruence.
      * rewrite combine_right by (intros ? E; injection E as ->; tauto). split.
        -- intros E; right; left. split; auto. intros y' Hy'. rewrite holds_mget in Hy' by auto.
           assert (y' = y) by congruence; subst; tauto.
        -- intros [[E _]|[[E H]|(y' & z' & Hy & Hz & My & _ & ->)]]; auto; [discriminate|].
           rewrite holds_mget in Hy by auto. congruence.
    + rewrite combine_right by discriminate. split.
      * intros E; right; left; split; auto. intros y Hy. rewrite holds_mget in Hy by auto. congruence.
      * intros [[E _]|[[E H]|(y' & z' & Hy & Hz & My & _ & ->)]]; auto; [discriminate|].
        rewrite holds_mget in Hy by auto. congruence.
  - cbn [combine]. split; [auto|].
    intros [[_ E]|[[E H]|(y' & z' & Hy & Hz & My & _ & ->)]]; auto; [discriminate|].
    rewrite holds_mget in Hz by auto. congruence.
Qed.

Lemma merge_only_a a b k x : uniq a -> uniq b -> mapv a -> mapv b ->
  holds a k x -> lacks b k -> holds (v_merge a b) k x.
Proof. intros. apply merge_holds; auto. Qed.
Lemma merge_only_b a b k x : uniq a -> uniq b -> mapv a -> mapv b ->
  holds b k x -> lacks a k -> holds (v_merge a b) k x.
Proof. intros ? ? ? ? H L. apply merge_holds; auto. right; left. split; auto. intros y Hy; now apply L in Hy. Qed.
Lemma merge_both a b k x y : uniq a -> uniq b -> mapv a -> mapv b ->
  holds a k x -> holds b k y ->
  (mapv x -> mapv y -> holds (v_merge a b) k (v_merge x y))
  /\ (~ (mapv x /\ mapv y) -> holds (v_merge a b) k y).
Proof.
  intros Ua Ub Ma Mb Hx Hy. split; intros; apply merge_holds; auto.
  - right; right. exists x, y; auto.
  - right; left. split; auto. intros x' Hx'. now rewrite (holds_fun _ _ _ _ Ua Hx' Hx).
Qed.
Lemma merge_no_other a b k : mapv a -> mapv b -> uniq a -> uniq b ->
  (lacks (v_merge a b) k <-> lacks a k /\ lacks b k).
Proof.
  intros Ma Mb Ua Ub. split.
  - intros L. destruct (holds_or_lacks b k) as [[y Hy]|Lb].
    + exfalso. destruct (holds_or_lacks a k) as [[x Hx]|La].
      * destruct (merge_both a b k x y Ua Ub Ma Mb Hx Hy) as [A B].
        destruct (mapv_dec x) as [Mx|Nx]; [destruct (mapv_dec y) as [My|Ny]|].
        -- eapply L, A; auto.
        -- eapply L, B; tauto.
        -- eapply L, B; tauto.
      * eapply L, merge_only_b; eauto.
    + split; auto. intros x Hx. eapply L, merge_only_a; eauto.
  - intros [La Lb] x H. apply merge_holds in H; auto.
    destruct H as [[_ H]|[[H _]|(y & z & H & _)]]; [eapply La|eapply Lb|eapply La]; eauto.
Qed.

(** ** Paths *)
Lemma lacks_holds v k x : lacks v k -> holds v k x -> False.
Proof. intros H; apply H. Qed.
Lemma silent_cons b k p : mapv b -> (silent b (k :: p) <-> lacks b k \/ exists y, holds b k y /\ silent y p).
Proof.
  intros Mb. split.
  - intros (p1 & k' & p2 & m & E & H & M & L). destruct p1 as [|k1 p1]; cbn in E; injection E as <- ->.
    + apply at_path_nil in H as ->. auto.
    + apply at_path_cons in H as (y & Hy & H). right. exists y; split; auto. exists p1, k', p2, m; auto.
  - intros [L|(y & Hy & p1 & k' & p2 & m & -> & H & M & L)].
    + exists [], k, p, b. repeat split; auto. constructor.
    + exists (k :: p1), k', p2, m. repeat split; auto. econstructor; eauto.
Qed.
Lemma silent_nil b : ~ silent b [].
Proof. intros (p1 & k & p2 & m & E & _). destruct p1; discriminate. Qed.
Lemma silent_at b p x : uniq b -> silent b p -> at_path b p x -> False.
Proof.
  intros U (p1 & k & p2 & m & -> & H & M & L) A.
  apply at_path_app in A as (y & A & B). rewrite (at_path_fun _ _ _ _ U A H) in B.
  apply at_path_cons in B as (z & Hz & _). eapply L; eauto.
Qed.

Lemma merge_at_path p : forall a b x, uniq a -> uniq b -> mapv a -> mapv b ->
  (at_path (v_merge a b) p x <->
     (at_path a p x /\ silent b p)
     \/ (at_path b p x /\ forall y, at_path a p y -> ~ (mapv y /\ mapv x))
     \/ (exists y z, at_path a p y /\ at_path b p z /\ mapv y /\ mapv z /\ x = v_merge y z)).
Proof.
  induction p as [|k p IH]; intros a b x Ua Ub Ma Mb.
  - rewrite at_path_nil. split.
    + intros ->. right; right. exists a, b. repeat split; auto; constructor.
    + intros [[_ H]|[[H N]|(y & z & H1 & H2 & _ & _ & ->)]].
      * now apply silent_nil in H.
      * apply at_path_nil in H; subst. exfalso; apply (N a); [constructor | auto].
      * apply at_path_nil in H1, H2; congruence.
  - rewrite at_path_cons. rewrite silent_cons by auto. split.
    + intros (w & H & Hw). apply merge_holds in H; auto.
      destruct H as [[L H]|[[H N]|(y & z & H1 & H2 & My & Mz & ->)]].
      * left. split; [econstructor; eauto | auto].
      * destruct (mapv_dec w) as [Mw|Nw].
        -- right; left. split; [econstructor; eauto|]. intros y Hy [My _].
           apply at_path_cons in Hy as (u & Hu & Hy). specialize (N u Hu).
           destruct p as [|k' p'].
           ++ apply at_path_nil in Hy; subst. tauto.
           ++ apply at_path_cons in Hy as (t & Ht & _). apply N; split; auto. eapply holds_mapv; eauto.
        -- destruct p as [|k' p'].
           ++ apply at_path_nil in Hw; subst. right; left. split; [econstructor; eauto; constructor|]. tauto.
           ++ apply at_path_cons in Hw as (t & Ht & _). exfalso; apply Nw. eapply holds_mapv; eauto.
      * apply IH in Hw; eauto using holds_uniq.
        destruct Hw as [[A S]|[[B N]|(u & v & A & B & Mu & Mv & ->)]].
        -- left. split; [econstructor; eauto | right; eauto].
        -- right; left. split; [econstructor; eauto|]. intros u Hu.
           apply at_path_cons in Hu as (y' & Hy' & Hu). rewrite (holds_fun _ _ _ _ Ua Hy' H1) in Hu. auto.
        -- right; right. exists u, v. repeat split; auto; econstructor; eauto.
    + intros [[A S]|[[B N]|(u & v & A & B & Mu & Mv & ->)]].
      * apply at_path_cons in A as (y & Hy & A).
        destruct S as [L|(z & Hz & S)].
        -- exists y; split; auto. now apply merge_only_a.
        -- assert (Mz : mapv z) by (destruct S as (p1 & k' & p2 & m & -> & H & M & L); destruct p1;
             [apply at_path_nil in H; congruence | apply at_path_cons in H as (? & ? & _); eapply holds_mapv; eauto]).
           assert (My : mapv y).
           { destruct p as [|k' p']; [now apply silent_nil in S|].
             apply at_path_cons in A as (? & ? & _). eapply holds_mapv; eauto. }
           exists (v_merge y z). split; [now apply (merge_both a b k y z)|].
           apply IH; eauto using holds_uniq.
      * apply at_path_cons in B as (z & Hz & B).
        destruct (holds_or_lacks a k) as [[y Hy]|La].
        -- destruct (mapv_dec y) as [My|Ny]; [destruct (mapv_dec z) as [Mz|Nz]|].
           ++ exists (v_merge y z). split; [now apply (merge_both a b k y z)|].
              apply IH; eauto using holds_uniq. right; left. split; auto.
              intros u Hu. apply N. econstructor; eauto.
           ++ exists z. split; auto. apply (merge_both a b k y z); tauto.
           ++ exists z. split; auto. apply (merge_both a b k y z); tauto.
        -- exists z; split; auto. now apply merge_only_b.
      * apply at_path_cons in A as (y & Hy & A). apply at_path_cons in B as (z & Hz & B).
        assert (My : mapv y) by (destruct p; [apply at_path_nil in A; congruence | apply at_path_cons in A as (? & ? & _); eapply holds_mapv; eauto]).
        assert (Mz : mapv z) by (destruct p; [apply at_path_nil in B; congruence | apply at_path_cons in B as (? & ? & _); eapply holds_mapv; eauto]).
        exists (v_merge y z). split; [now apply (merge_both a b k y z)|].
        apply IH; eauto using holds_uniq. right; right. exists u, v; auto.
Qed.

(** ** Congruence *)
Lemma vequiv_nonmap a b : vequiv a b -> ~ mapv a -> ~ mapv b.
Proof. intros H N M. apply N. eapply vequiv_mapv; [apply vequiv_sym|]; eauto. Qed.
Lemma vequiv_is_map a b : vequiv a b -> is_map a = is_map b.
Proof.
  intros H. destruct (is_map a) eqn:E; symmetry.
  - apply is_map_iff in E. apply is_map_iff. eapply vequiv_mapv; eauto.
  - apply is_map_false in E. apply is_map_false. eapply vequiv_nonmap; eauto.
Qed.

Lemma v_merge_congr b : forall a a' b', uniq a -> uniq a' -> uniq b -> uniq b' ->
  vequiv a a' -> vequiv b b' -> vequiv (v_merge a b) (v_merge a' b').
Proof.
  induction b as [v S|l IH|n IH] using value_ind'; intros a a' b' Ua Ua' Ub Ub' Ha Hb;
    try (assert (Nb : ~ mapv b') by (eapply vequiv_nonmap; [eassumption|]; intros [? E]; subst; cbn in *; try tauto; discriminate);
         rewrite !v_merge_noop; [assumption | tauto | intros [_ [? E]]; subst; cbn in *; try tauto; discriminate]).
  destruct (mapv_dec a) as [[m ->]|N].
  2:{ rewrite !v_merge_noop; auto; try tauto. pose proof (vequiv_nonmap _ _ Ha N); tauto. }
  apply vequiv_map_l in Ha as Ha'. destruct Ha' as (m' & -> & _).
  apply vequiv_map_l in Hb as Hb'. destruct Hb' as (n' & -> & _).
  rewrite !v_merge_maps.
  pose proof (mget_lookup_vequiv m m') as Lm. pose proof (mget_lookup_vequiv n n') as Ln.
  assert (Um := Ua); assert (Um' := Ua'); assert (Un := Ub); assert (Un' := Ub').
  apply uniq_map in Ua as [Dm Va]. apply uniq_map in Ua' as [Dm' Va'].
  apply uniq_map in Ub as [Dn Vb]. apply uniq_map in Ub' as [Dn' Vb'].
  apply vequiv_map_lookup; try (now apply merge_loop_nodup).
  intros k. rewrite !merge_loop_get by auto.
  specialize (Lm k Um Um' Ha). specialize (Ln k Un Un' Hb).
  destruct (mget k n) as [z|] eqn:En; destruct (mget k n') as [z'|] eqn:En'; cbn in Ln; try tauto.
  destruct (mget k m) as [y|] eqn:Em; destruct (mget k m') as [y'|] eqn:Em'; cbn in Lm; try tauto; cbn [combine].
  rewrite <- (vequiv_is_map _ _ Lm), <- (vequiv_is_map _ _ Ln).
  destruct (is_map y && is_map z); cbn; auto.
  apply mget_In in Em, Em', En, En'. apply (IH k); eauto.
Qed.

(** ** Identities, idempotence *)
Lemma v_merge_empty_r a : v_merge a (VMap []) = a.
Proof. destruct a; reflexivity. Qed.
Lemma v_merge_empty_l m : NoDup (map fst m) -> vequiv (v_merge (VMap []) (VMap m)) (VMap m).
Proof.
  intros D. rewrite v_merge_maps. apply vequiv_map_lookup; auto.
  - apply merge_loop_nodup; constructor.
  - intros k. rewrite merge_loop_get by auto. cbn. destruct (mget k m); cbn; auto. apply vequiv_refl.
Qed.
Lemma v_merge_self a : uniq a -> vequiv (v_merge a a) a.
Proof.
  induction a as [v S|l IH|n IH] using value_ind'; intros U;
    try (rewrite v_merge_noop; [apply vequiv_refl | intros [_ [? E]]; subst; cbn in *; try tauto; discriminate]).
  rewrite v_merge_maps. apply uniq_map in U as [D U].
  apply vequiv_map_lookup; auto; [now apply merge_loop_nodup|].
  intros k. rewrite merge_loop_get by auto. destruct (mget k n) as [x|] eqn:E; cbn; auto.
  apply mget_In in E. destruct (is_map x); cbn; [eauto | apply vequiv_refl].
Qed.
Lemma v_merge_twice b : forall a, uniq a -> uniq b -> vequiv (v_merge (v_merge a b) b) (v_merge a b).
Proof.
  induction b as [v S|l IH|n IH] using value_ind'; intros a Ua Ub;
    try (rewrite !v_merge_noop; [apply vequiv_refl | |]; intros [_ [? E]]; subst; cbn in *; try tauto; discriminate).
  destruct (mapv_dec a) as [[m ->]|N].
  2:{ rewrite !(v_merge_noop a); try tauto. apply vequiv_refl. }
  rewrite !v_merge_maps. apply uniq_map in Ua as [Dm Um]. apply uniq_map in Ub as [Dn Un].
  apply vequiv_map_lookup; auto; repeat apply merge_loop_nodup; auto.
  intros k. rewrite !merge_loop_get by auto.
  destruct (mget k n) as [x|] eqn:E.
  - destruct (mget k m) as [y|] eqn:F; cbn [combine].
    + destruct (is_map y && is_map x) eqn:B; cbn [combine].
      * apply andb_true_iff in B as [By Bx]. rewrite (proj2 (is_map_iff (v_merge y x))), Bx; [|apply v_merge_mapv; now apply is_map_iff].
        cbn. apply mget_In in E, F. eauto.
      * destruct (is_map x); cbn; [|apply vequiv_refl]. apply v_merge_self. apply mget_In in E. eauto.
    + destruct (is_map x); cbn; [|apply vequiv_refl]. apply v_merge_self. apply mget_In in E. eauto.
  - cbn [combine]. destruct (mget k m); cbn; auto. apply vequiv_refl.
Qed.

(** ** Associativity *)
Lemma at_path_vequiv p : forall v v' x, vequiv v v' -> at_path v p x ->
  exists x', at_path v' p x' /\ vequiv x x'.
Proof.
  induction p as [|k p IH]; intros v v' x E H.
  - apply at_path_nil in H as ->. exists v'; split; [constructor | auto].
  - apply at_path_cons in H as (y & (m & -> & Hy) & H).
    apply vequiv_map_l in E as (n & -> & E1 & _). destruct (E1 _ _ Hy) as (y' & Hy' & E').
    destruct (IH _ _ _ E' H) as (x' & A & B). exists x'; split; auto.
    econstructor; eauto. exists n; auto.
Qed.
Lemma adds_here a c k y : mapv c -> holds a k y -> lacks c k -> adds a c.
Proof. intros M H L. exists [], k, a, c, y. repeat split; auto; constructor. Qed.
Lemma adds_deep a c k y z : holds a k y -> holds c k z -> adds y z -> adds a c.
Proof.
  intros Hy Hz (q & k' & ma & mc & w & A & B & M & H & L).
  exists (k :: q), k', ma, mc, w. repeat split; auto; econstructor; eauto.
Qed.
Lemma adds_merge_differs a c : uniq a -> uniq c -> mapv a -> mapv c -> adds a c -> ~ vequiv (v_merge a c) c.
Proof.
  intros Ua Uc Ma Mc (q & k & ma & mc & y & A & B & M & H & L) E.
  assert (P : at_path (v_merge a c) (q ++ [k]) y).
  { apply merge_at_path; auto. left. split.
    - apply at_path_app. exists ma; split; auto. econstructor; eauto. constructor.
    - exists q, k, [], mc. auto. }
  destruct (at_path_vequiv _ _ _ _ E P) as (y' & P' & _).
  apply at_path_app in P' as (mc' & B' & P'). rewrite (at_path_fun _ _ _ _ Uc B' B) in P'.
  apply at_path_cons in P' as (z & Hz & _). eapply L; eauto.
Qed.
Lemma no_adds_merge c : forall a, uniq a -> uniq c -> mapv a -> mapv c -> ~ adds a c -> vequiv (v_merge a c) c.
Proof.
  induction c as [v S|l IH|n IH] using value_ind'; intros a Ua Uc Ma [n' En] NA; subst; try discriminate; [cbn in S; tauto|].
  injection En as <-. destruct Ma as [m ->]. rewrite v_merge_maps.
  assert (Um := Ua); assert (Un := Uc).
  apply uniq_map in Ua as [Dm Va]. apply uniq_map in Uc as [Dn Vn].
  apply vequiv_map_lookup; auto; [now apply merge_loop_nodup|].
  intros k. rewrite merge_loop_get by auto.
  destruct (mget k m) as [y|] eqn:Em; destruct (mget k n) as [z|] eqn:En; cbn; auto using vequiv_refl.
  - destruct (is_map y && is_map z) eqn:B; cbn; auto using vequiv_refl.
    apply andb_true_iff in B as [By Bz]. apply is_map_iff in By, Bz. apply mget_In in Em, En.
    apply (IH k); eauto. intros A. apply NA. eapply adds_deep; eauto; apply holds_map; eauto.
  - apply NA. apply (adds_here _ _ k y); [eexists; reflexivity | now apply holds_mget | now apply lacks_mget].
Qed.

Lemma opt_rel_refl o : opt_rel vequiv o o.
Proof. destruct o; cbn; auto using vequiv_refl. Qed.
Lemma conflict_deep a b c k x y z : holds a k x -> holds b k y -> holds c k z ->
  shadow_conflict x y z -> shadow_conflict a b c.
Proof.
  intros Hx Hy Hz (p & va & vb & vc & A & B & C & R).
  exists (k :: p), va, vb, vc. repeat split; try apply R; econstructor; eauto.
Qed.
Lemma assoc_no_conflict c : forall a b, uniq a -> uniq b -> uniq c -> mapv a -> mapv b -> mapv c ->
  ~ shadow_conflict a b c ->
  vequiv (v_merge (v_merge a b) c) (v_merge a (v_merge b c)).
Proof.
  induction c as [v S|l IH|o IH] using value_ind'; intros a b Ua Ub Uc [m ->] [n ->] [o' Eo] NC;
    try discriminate; [subst; cbn in S; tauto|].
  injection Eo as <-. rewrite !v_merge_maps.
  assert (Um := Ua); assert (Un := Ub); assert (Uo := Uc).
  apply uniq_map in Ua as [Dm Vm]. apply uniq_map in Ub as [Dn Vn]. apply uniq_map in Uc as [Do Vo].
  apply vequiv_map_lookup; repeat apply merge_loop_nodup; auto.
  intros k. rewrite !merge_loop_get by (repeat apply merge_loop_nodup; auto).
  destruct (mget k o) as [z|] eqn:Eo; [|apply opt_rel_refl].
  destruct (mget k n) as [y|] eqn:En; [|exact (opt_rel_refl (combine (mget k m) (Some z)))].
  destruct (mget k m) as [x|] eqn:Em.
  2:{ cbn [combine]. destruct (is_map y && is_map z) eqn:B; cbn; auto using vequiv_refl. }
  apply mget_In in Em, En, Eo.
  destruct (mapv_dec z) as [Mz|Nz].
  2:{ rewrite (combine_right (combine _ _) z) by tauto. rewrite (combine_right (Some y) z) by (intros ? E; tauto).
      rewrite combine_right by tauto. cbn. apply vequiv_refl. }
  destruct (mapv_dec y) as [My|Ny]; destruct (mapv_dec x) as [Mx|Nx].
  - rewrite combine_maps by auto. rewrite combine_maps by (auto; apply v_merge_mapv; auto).
    rewrite (combine_maps y z) by auto. rewrite combine_maps by (auto; apply v_merge_mapv; auto). cbn.
    apply (IH k); eauto. intros C; apply NC. eapply conflict_deep; try apply holds_map; eauto.
  - rewrite (combine_right (Some x) y) by (intros ? E; injection E as <-; tauto).
    rewrite (combine_maps y z) by auto. rewrite combine_right by (intros ? E; injection E as <-; tauto).
    cbn; apply vequiv_refl.
  - rewrite (combine_right (Some x) y) by (intros ? E; tauto).
    rewrite (combine_right (Some y) z) by (intros ? E; injection E as <-; tauto).
    rewrite combine_maps by auto. cbn. apply vequiv_sym, no_adds_merge; eauto.
    intros A. apply NC. exists [k], x, y, z.
    repeat split; auto; econstructor; try apply holds_map; eauto; constructor.
  - rewrite (combine_right (Some x) y) by (intros ? E; tauto).
    rewrite (combine_right (Some y) z) by (intros ? E; injection E as <-; tauto).
    rewrite combine_right by (intros ? E; injection E as <-; tauto). cbn; apply vequiv_refl.
Qed.
Lemma conflict_no_assoc a b c : uniq a -> uniq b -> uniq c -> mapv a -> mapv b -> mapv c ->
  shadow_conflict a b c ->
  ~ vequiv (v_merge (v_merge a b) c) (v_merge a (v_merge b c)).
Proof.
  intros Ua Ub Uc Ma Mb Mc (p & va & vb & vc & A & B & C & Mva & Nvb & Mvc & AD) E.
  assert (L1 : at_path (v_merge a b) p vb) by (apply merge_at_path; auto; right; left; split; auto; tauto).
  assert (Uab : uniq (v_merge a b)) by now apply v_merge_uniq.
  assert (Ubc : uniq (v_merge b c)) by now apply v_merge_uniq.
  assert (L2 : at_path (v_merge (v_merge a b) c) p vc).
  { apply merge_at_path; auto; [now apply v_merge_mapv|]. right; left. split; auto.
    intros y Hy. rewrite (at_path_fun _ _ _ _ Uab Hy L1); tauto. }
  assert (R1 : at_path (v_merge b c) p vc).
  { apply merge_at_path; auto. right; left. split; auto.
    intros y Hy. rewrite (at_path_fun _ _ _ _ Ub Hy B); tauto. }
  assert (R2 : at_path (v_merge a (v_merge b c)) p (v_merge va vc)).
  { apply merge_at_path; auto; [now apply v_merge_mapv|]. right; right. exists va, vc; auto. }
  destruct (at_path_vequiv _ _ _ _ E L2) as (x & Hx & Ex).
  assert (Ur : uniq (v_merge a (v_merge b c))) by now apply v_merge_uniq.
  rewrite (at_path_fun _ _ _ _ Ur Hx R2) in Ex.
  eapply (adds_merge_differs va vc); eauto using at_path_uniq. now apply vequiv_sym.
Qed.
Lemma assoc_iff a b c : uniq a -> uniq b -> uniq c -> mapv a -> mapv b -> mapv c ->
  (vequiv (v_merge (v_merge a b) c) (v_merge a (v_merge b c)) <-> ~ shadow_conflict a b c).
Proof.
  intros Ua Ub Uc Ma Mb Mc; split; [|now apply assoc_no_conflict].
  intros E C. exact (conflict_no_assoc a b c Ua Ub Uc Ma Mb Mc C E).
Qed.

(** ** The loop with arbitrary orders *)
Lemma split_entry k v (m : vmap) : mget k m = Some v -> exists others,
  Permutation m ((k, v) :: others) /\ forall w, Permutation (minsert k w m) ((k, w) :: others).
Proof.
  induction m as [|[k' v'] t IH]; cbn; [discriminate|].
  destruct (str_eqb_spec k k') as [->|N]; intros H.
  - injection H as ->. exists t. split; auto.
  - destruct (IH H) as (o & P1 & P2). exists ((k', v') :: o). split.
    + rewrite P1. apply perm_swap.
    + intros w. rewrite P2. apply perm_swap.
Qed.
Lemma uniq_perm m m' : Permutation m m' -> uniq (VMap m) -> uniq (VMap m').
Proof.
  intros P [D U]%uniq_map. apply uniq_map. split.
  - eapply Permutation_NoDup; [apply Permutation_map, P | exact D].
  - intros k x H. eapply U. eapply Permutation_in; [apply Permutation_sym|]; eauto.
Qed.
Lemma uniq_cons_swap k v w others : uniq (VMap ((k, v) :: others)) -> uniq w -> uniq (VMap ((k, w) :: others)).
Proof.
  intros [D U]%uniq_map W. apply uniq_map. split; auto. intros k' x [E|H]; [congruence | eapply U; right; eauto].
Qed.
Lemma uniq_cons k x m : ~ In k (map fst m) -> uniq x -> uniq (VMap m) -> uniq (VMap ((k, x) :: m)).
Proof.
  intros N Ux [D U]%uniq_map. apply uniq_map. split; [constructor; auto|].
  intros k' x' [E|H]; [congruence | eauto].
Qed.
Lemma uniq_tail k x m : uniq (VMap ((k, x) :: m)) -> uniq (VMap m) /\ uniq x /\ ~ In k (map fst m).
Proof.
  intros H. apply uniq_map in H as [D U]. cbn in D; inversion D; subst. split; [|split]; auto.
  - apply uniq_map; split; auto. intros; eapply U; right; eauto.
  - eapply U; left; eauto.
Qed.
Lemma vequiv_cons k w w' others : vequiv w w' -> vequiv (VMap ((k, w) :: others)) (VMap ((k, w') :: others)).
Proof.
  intros E. apply EqvMap; intros k' x [H|H]; try (exists x; split; [right; assumption | apply vequiv_refl]).
  - injection H as <- <-. exists w'; split; [left; auto | auto].
  - injection H as <- <-. exists w; split; [left; auto | auto].
Qed.

Lemma any_merge_sound :
  (forall a b r, any_merge a b r -> uniq a -> uniq b -> uniq r /\ vequiv r (v_merge a b))
  /\ (forall m visit r, any_loop m visit r -> uniq (VMap m) -> uniq (VMap visit) ->
        uniq (VMap r) /\ vequiv (VMap r) (v_merge (VMap m) (VMap visit))).
Proof.
  apply (any_merge_loop_ind
    (fun a b r _ => uniq a -> uniq b -> uniq r /\ vequiv r (v_merge a b))
    (fun m visit r _ => uniq (VMap m) -> uniq (VMap visit) ->
        uniq (VMap r) /\ vequiv (VMap r) (v_merge (VMap m) (VMap visit)))).
  - intros a b N Ua Ub. rewrite v_merge_noop by auto. split; auto using vequiv_refl.
  - intros m n visit r P L IH Um Un.
    assert (Uv : uniq (VMap visit)) by (eapply uniq_perm; eauto).
    destruct (IH Um Uv) as [Ur E]. split; auto. eapply vequiv_trans; [exact E|].
    apply v_merge_congr; auto using vequiv_refl. apply vequiv_sym, vequiv_perm, P.
  - intros m m' P Um _. rewrite v_merge_empty_r. split; [eapply uniq_perm; eauto | apply vequiv_sym, vequiv_perm, P].
  - intros m k v x rest w others m' r P Mv Mx M IHw P' L IHr Um Uv.
    apply uniq_tail in Uv as (Urest & Ux & Nk).
    assert (Uo : uniq (VMap ((k, v) :: others))) by (eapply uniq_perm; eauto).
    destruct (uniq_tail _ _ _ Uo) as (_ & Uv & Nko).
    destruct (IHw Uv Ux) as [Uw Ew].
    assert (Um' : uniq (VMap m')) by (eapply uniq_perm; [apply Permutation_sym, P'|]; eapply uniq_cons_swap; eauto).
    destruct (IHr Um' Urest) as [Ur Er]. split; auto. eapply vequiv_trans; [exact Er|].
    assert (G : mget k m = Some v) by (apply In_mget; [now apply uniq_map in Um | eapply Permutation_in; [apply Permutation_sym, P | left; auto]]).
    assert (S : v_merge (VMap m) (VMap ((k, x) :: rest)) = v_merge (VMap (minsert k (v_merge v x) m)) (VMap rest)).
    { rewrite !v_merge_maps. cbn [merge_loop]. rewrite G. apply is_map_iff in Mv, Mx. now rewrite Mv, Mx. }
    rewrite S. destruct (split_entry _ _ _ G) as (o & P1 & P2).
    assert (Ui : uniq (VMap (minsert k (v_merge v x) m))).
    { eapply uniq_perm; [apply Permutation_sym, P2|]. eapply uniq_cons_swap; [eapply uniq_perm; [exact P1|auto]|].
      now apply v_merge_uniq. }
    apply v_merge_congr; auto using vequiv_refl.
    eapply vequiv_trans; [apply vequiv_perm, P'|]. eapply vequiv_trans; [apply vequiv_cons, Ew|].
    apply vequiv_sym. eapply vequiv_trans; [apply vequiv_perm, P2|]. apply vequiv_perm.
    apply perm_skip. apply (Permutation_cons_inv (a := (k, v))). now rewrite <- P, <- P1.
  - intros m k v x rest others m' r P NM P' L IHr Um Uv.
    apply uniq_tail in Uv as (Urest & Ux & Nk).
    assert (Uo : uniq (VMap ((k, v) :: others))) by (eapply uniq_perm; eauto).
    assert (Um' : uniq (VMap m')) by (eapply uniq_perm; [apply Permutation_sym, P'|]; eapply uniq_cons_swap; eauto).
    destruct (IHr Um' Urest) as [Ur Er]. split; auto. eapply vequiv_trans; [exact Er|].
    assert (G : mget k m = Some v) by (apply In_mget; [now apply uniq_map in Um | eapply Permutation_in; [apply Permutation_sym, P | left; auto]]).
    assert (S : v_merge (VMap m) (VMap ((k, x) :: rest)) = v_merge (VMap (minsert k x m)) (VMap rest)).
    { rewrite !v_merge_maps. cbn [merge_loop]. rewrite G. destruct (is_map v && is_map x) eqn:B; auto.
      apply andb_true_iff in B as [Bv Bx]. apply is_map_iff in Bv, Bx. tauto. }
    rewrite S. destruct (split_entry _ _ _ G) as (o & P1 & P2).
    assert (Ui : uniq (VMap (minsert k x m))).
    { eapply uniq_perm; [apply Permutation_sym, P2|]. eapply uniq_cons_swap; [eapply uniq_perm; [exact P1|auto]|auto]. }
    apply v_merge_congr; auto using vequiv_refl.
    eapply vequiv_trans; [apply vequiv_perm, P'|].
    apply vequiv_sym. eapply vequiv_trans; [apply vequiv_perm, P2|]. apply vequiv_perm.
    apply perm_skip. apply (Permutation_cons_inv (a := (k, v))). now rewrite <- P, <- P1.
  - intros m k x rest m' r Nk P' L IHr Um Uv.
    apply uniq_tail in Uv as (Urest & Ux & Nk').
    assert (Um' : uniq (VMap m')) by (eapply uniq_perm; [apply Permutation_sym, P'|]; now apply uniq_cons).
    destruct (IHr Um' Urest) as [Ur Er]. split; auto. eapply vequiv_trans; [exact Er|].
    assert (S : v_merge (VMap m) (VMap ((k, x) :: rest)) = v_merge (VMap (m ++ [(k, x)])) (VMap rest)).
    { rewrite !v_merge_maps. cbn [merge_loop]. rewrite (proj2 (mget_None k m) Nk). now rewrite minsert_keys_new. }
    rewrite S.
    assert (PA : Permutation (m ++ [(k, x)]) ((k, x) :: m)) by (apply Permutation_sym, Permutation_cons_append).
    apply v_merge_congr; auto using vequiv_refl.
    + eapply uniq_perm; [apply Permutation_sym, PA | now apply uniq_cons].
    + apply vequiv_perm. now rewrite P', PA.
Qed.

Lemma any_merge_complete b : forall a, uniq a -> uniq b -> any_merge a b (v_merge a b).
Proof.
  induction b as [v S|l IH|n IH] using value_ind'; intros a Ua Ub;
    try (rewrite v_merge_noop; [constructor|]; intros [_ [? E]]; subst; cbn in *; try tauto; discriminate).
  destruct (mapv_dec a) as [[m ->]|N]; [|rewrite v_merge_noop by tauto; constructor; tauto].
  rewrite v_merge_maps. econstructor; [apply Permutation_refl|].
  revert m Ua; induction n as [|[k x] n IHn]; intros m Um; cbn [merge_loop]; [constructor; auto|].
  apply uniq_tail in Ub as (Un & Ux & Nk).
  assert (IH' : forall k0 x0, In (k0, x0) n -> forall a, uniq a -> uniq x0 -> any_merge a x0 (v_merge a x0))
    by (intros; eapply IH; eauto; right; eauto).
  specialize (IHn IH' Un).
  destruct (mget k m) as [v|] eqn:G.
  - destruct (split_entry _ _ _ G) as (o & P1 & P2).
    assert (Uo : uniq (VMap ((k, v) :: o))) by (eapply uniq_perm; eauto).
    destruct (uniq_tail _ _ _ Uo) as (_ & Uv & _).
    destruct (is_map v && is_map x) eqn:B.
    + apply andb_true_iff in B as [Bv Bx]. apply is_map_iff in Bv, Bx.
      eapply LoopDeep; [exact P1 | auto | auto | apply (IH k x); [left; reflexivity | auto | auto] | exact (P2 _) |].
      apply IHn. eapply uniq_perm; [apply Permutation_sym, P2|]. eapply uniq_cons_swap; eauto. now apply v_merge_uniq.
    + eapply LoopReplace; [exact P1 | | exact (P2 _) |].
      * intros [Mv Mx]. apply is_map_iff in Mv, Mx. rewrite Mv, Mx in B. discriminate.
      * apply IHn. eapply uniq_perm; [apply Permutation_sym, P2|]. eapply uniq_cons_swap; eauto.
  - apply mget_None in G. rewrite minsert_keys_new by auto.
    assert (PA : Permutation (m ++ [(k, x)]) ((k, x) :: m)) by (apply Permutation_sym, Permutation_cons_append).
    eapply LoopAdd; [exact G | exact PA |]. apply IHn.
    eapply uniq_perm; [apply Permutation_sym, PA | now apply uniq_cons].
Qed.

(** ** Reads through the API *)
Lemma v_get_holds v k x : uniq v -> holds v k x -> v_get v k = x.
Proof. intros U (m & -> & H). apply uniq_map in U as [D _]. cbn. now rewrite (In_mget _ _ _ D H). Qed.
Lemma v_get_lacks v k : lacks v k -> v_get v k = VNone.
Proof. destruct v; cbn; auto. intros H. apply lacks_mget in H. now rewrite H. Qed.
