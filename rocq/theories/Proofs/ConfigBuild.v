(** Proofs about [build_value] and the registration of layers (C26-C31). *)
From Coq Require Import ZArith List Bool String Lia Permutation.
Import ListNotations.
From Verif.Model Require Import Text Num Flt Value Merge Paths Finder World Layers Config.
From Verif.Spec Require Import Spec MergeSpec ConfigSpec.
From Verif.Proofs Require Import Basics Merge MergeMore PathLemmas.

(** ** Registration *)
Lemma registered_names c r n : registered c r -> (In n (map fst (layers c)) <-> In n (map fst r)).
Proof.
  intros (_ & _ & P). split; apply Permutation_in; [|apply Permutation_sym]; now apply Permutation_map.
Qed.
Lemma registered_get c r n : registered c r -> mget n (layers c) = mget n r.
Proof.
  intros (E & D & P). symmetry. apply mget_perm; [exact D | now apply Permutation_sym].
Qed.
Lemma registered_new : registered config_new [].
Proof. repeat split; constructor. Qed.
Lemma registered_push c r n l : registered c r ->
  (~ In n (map fst r) -> registered (push_layer c n l) (r ++ [(n, l)]))
  /\ (In n (map fst r) -> push_layer c n l = c).
Proof.
  intros R. unfold push_layer. split; intros H; destruct (mhas n (layers c)) eqn:M.
  - apply mhas_true in M. apply (registered_names c r n R) in M. contradiction.
  - destruct R as (E & D & P). assert (N : ~ In n (map fst (layers c))) by (intros X; apply mhas_true in X; congruence).
    rewrite minsert_keys_new by auto. repeat split; cbn.
    + now rewrite E, map_app.
    + rewrite map_app; cbn. now apply NoDup_snoc.
    + apply Permutation_app; auto.
  - reflexivity.
  - apply (registered_names c r n R), mhas_true in H. congruence.
Qed.

Lemma ext_match_toml p : ext_match_path ExtToml p = true <-> toml_path p.
Proof.
  unfold ext_match_path, toml_path. etransitivity; [|apply extension_iff].
  destruct (extension p) as [x|]; [|split; discriminate]. rewrite str_eqb_eq. split; congruence.
Qed.

Lemma keeps_first_names {A} (h r : list (str * A)) : keeps_first h r ->
  NoDup (map fst r) /\ (forall n, In n (map fst r) <-> In n (map fst h)).
Proof.
  induction 1 as [|h r n l K [D I] N|h r n l K [D I] N].
  - split; [constructor | tauto].
  - split.
    + rewrite map_app; cbn. apply NoDup_snoc; [auto | rewrite I; auto].
    + intros n'. rewrite !map_app, !in_app_iff, I; tauto.
  - split; auto. intros n'. rewrite map_app, in_app_iff, I; cbn. intuition congruence.
Qed.
Lemma keeps_first_total {A} (h : list (str * A)) : exists r, keeps_first h r.
Proof.
  induction h as [|[n l] h IH] using rev_ind; [exists []; constructor|].
  destruct IH as [r K]. destruct (in_dec str_eq_dec n (map fst h)); [exists r | exists (r ++ [(n, l)])]; now constructor.
Qed.
Lemma keeps_first_get {A} (h r : list (str * A)) : keeps_first h r -> forall n l,
  mget n r = Some l <-> exists before after, h = before ++ (n, l) :: after /\ ~ In n (map fst before).
Proof.
  intros K; induction K as [|h r n0 l0 K IH N|h r n0 l0 K IH N]; intros n l.
  - split; [discriminate | intros ([|? ?] & ? & E & _); discriminate].
  - pose proof (keeps_first_names _ _ K) as [D I].
    assert (G : mget n (r ++ [(n0, l0)]) = match mget n r with Some x => Some x | None => if str_eqb n n0 then Some l0 else None end).
    { clear. induction r as [|[k v] r IH]; cbn; auto. destruct (str_eqb n k); auto. }
    rewrite G. destruct (mget n r) as [x|] eqn:E.
    + split.
      * intros H; injection H as ->. destruct (proj1 (IH n l) E) as (b & a & -> & Nb).
        exists b, (a ++ [(n0, l0)]). split; auto. now rewrite <- app_assoc.
      * intros (b & a & Eq & Nb). destruct a as [|y a _] using rev_ind.
        -- apply app_inj_tail in Eq as [-> Eq]. injection Eq as -> ->. exfalso; apply N.
           apply I. apply mget_In in E. change n with (fst (n, x)); now apply in_map.
        -- change (b ++ (n, l) :: a ++ [y]) with (b ++ ((n, l) :: a) ++ [y]) in Eq. rewrite app_assoc in Eq.
           apply app_inj_tail in Eq as [-> Eq]. rewrite <- E. apply (IH n l). eauto.
    + split.
      * destruct (str_eqb_spec n n0) as [->|Ne]; [|discriminate]. intros H; injection H as ->.
        exists h, []. auto.
      * intros (b & a & Eq & Nb). destruct a as [|y a _] using rev_ind.
        -- apply app_inj_tail in Eq as [-> Eq]. injection Eq as -> ->. now rewrite str_eqb_refl.
        -- change (b ++ (n, l) :: a ++ [y]) with (b ++ ((n, l) :: a) ++ [y]) in Eq. rewrite app_assoc in Eq.
           apply app_inj_tail in Eq as [-> Eq]. exfalso. assert (X : mget n r = Some l) by (apply (IH n l); eauto). congruence.
  - rewrite IH. split.
    + intros (b & a & -> & Nb). exists b, (a ++ [(n0, l0)]). split; auto. now rewrite <- app_assoc.
    + intros (b & a & Eq & Nb). destruct a as [|y a _] using rev_ind.
      * apply app_inj_tail in Eq as [-> Eq]. injection Eq as -> ->. contradiction.
      * change (b ++ (n, l) :: a ++ [y]) with (b ++ ((n, l) :: a) ++ [y]) in Eq. rewrite app_assoc in Eq.
        apply app_inj_tail in Eq as [-> Eq]. eauto.
Qed.
Lemma keeps_first_none {A} (h r : list (str * A)) n : keeps_first h r ->
  (mget n r = None <-> ~ In n (map fst h)).
Proof. intros K. rewrite mget_None. now rewrite (proj2 (keeps_first_names _ _ K)). Qed.

Lemma registrations_total tc ops : exists h, registrations tc ops h.
Proof.
  induction ops as [|o ops [h H]] using rev_ind; [eexists; constructor|].
  destruct o; try (eexists; econstructor; eassumption).
  destruct (ext_match_path ExtToml p) eqn:E.
  - eexists; eapply RegFile; eauto. now apply ext_match_toml.
  - eexists; eapply RegFileRefused; eauto. intros X; apply ext_match_toml in X; congruence.
Qed.
Lemma config_run_snoc tc ops o : config_run tc (ops ++ [o]) = config_step tc (config_run tc ops) o.
Proof. unfold config_run. now rewrite fold_left_app. Qed.
Lemma run_registered tc ops h : registrations tc ops h ->
  forall r, keeps_first h r -> registered (config_run tc ops) r.
Proof.
  assert (STEP : forall c h n l r', (forall r, keeps_first h r -> registered c r) ->
    keeps_first (h ++ [(n, l)]) r' -> registered (push_layer c n l) r').
  { intros c h0 n l r' IH K. inversion K as [E|h1 r1 n1 l1 K1 N E|h1 r1 n1 l1 K1 N E].
    - destruct h0; discriminate.
    - apply app_inj_tail in E as [-> E]. injection E as -> ->.
      apply registered_push; [auto|]. now rewrite (proj2 (keeps_first_names _ _ K1)).
    - apply app_inj_tail in E as [-> E]. injection E as -> ->. subst.
      rewrite (proj2 (registered_push c r' n l (IH _ K1))); [auto|].
      now apply (proj2 (keeps_first_names _ _ K1)). }
  induction 1 as [|ops h n l H IH|ops h n p H IH|ops h n v H IH|ops h n p H IH T|ops h n p H IH T]; intros r K;
    try (rewrite config_run_snoc; cbn [config_step]).
  - inversion K as [E|? ? ? ? ? ? E|? ? ? ? ? ? E]; [apply registered_new | |]; destruct h; discriminate.
  - eapply STEP; eauto.
  - eapply STEP; eauto.
  - eapply STEP; eauto.
  - unfold add_file_layer. rewrite (proj2 (ext_match_toml p) T). cbn. eapply STEP; eauto.
  - unfold add_file_layer. destruct (ext_match_path ExtToml p) eqn:E; [apply ext_match_toml in E; contradiction|]. cbn. auto.
Qed.

(** ** The build loop over the ordered list of layers *)
Fixpoint build_list (w : world) (skip : bool) (acc : value) (ls : list layer) : result value bak_error :=
  match ls with
  | [] => Ok acc
  | l :: rest =>
    match layer_read w l with
    | Err e => if skip then build_list w skip acc rest else Err e
    | Ok v => build_list w skip (v_merge acc v) rest
    end
  end.
Lemma build_loop_list w ls skip r : (forall n l, In (n, l) r -> mget n ls = Some l) -> forall acc,
  build_loop w ls skip acc (map fst r) = build_list w skip acc (map snd r).
Proof.
  induction r as [|[n l] r IH]; intros G acc; cbn [build_loop build_list map fst snd]; auto.
  rewrite (G n l) by (left; auto). assert (G' : forall n l, In (n, l) r -> mget n ls = Some l) by (intros; apply G; right; auto).
  destruct (layer_read w l); [apply IH; auto | destruct skip; auto].
Qed.
Lemma build_value_list w c r skip : registered c r ->
  build_value w c skip = build_list w skip new_map (map snd r).
Proof.
  intros R. unfold build_value. pose proof R as (-> & D & _). apply build_loop_list.
  intros n l H. rewrite (registered_get c r n R). now apply In_mget.
Qed.

Lemma build_list_app w skip l1 : forall acc l2, build_list w skip acc (l1 ++ l2)
  = match build_list w skip acc l1 with Ok v => build_list w skip v l2 | Err e => Err e end.
Proof.
  induction l1 as [|l l1 IH]; intros acc l2; cbn; auto.
  destruct (layer_read w l); [apply IH | destruct skip; auto].
Qed.
Lemma build_list_ok w skip ls vs : Forall2 (fun l v => layer_read w l = Ok v) ls vs ->
  forall acc, build_list w skip acc ls = Ok (fold_left v_merge vs acc).
Proof. induction 1 as [|l v ls vs E F IH]; intros acc; cbn; auto. rewrite E. apply IH. Qed.
Lemma build_list_first_error w ls vs l e rest : Forall2 (fun l v => layer_read w l = Ok v) ls vs ->
  layer_read w l = Err e -> forall acc, build_list w false acc (ls ++ l :: rest) = Err e.
Proof. intros F E acc. rewrite build_list_app, (build_list_ok _ _ _ _ F). cbn. now rewrite E. Qed.
Lemma split_first_error w ls :
  (exists vs, Forall2 (fun l v => layer_read w l = Ok v) ls vs)
  \/ (exists l1 l e l2 vs, ls = l1 ++ l :: l2 /\ Forall2 (fun l v => layer_read w l = Ok v) l1 vs /\ layer_read w l = Err e).
Proof.
  induction ls as [|l ls IH]; [left; exists []; constructor|].
  destruct (layer_read w l) as [v|e] eqn:E.
  - destruct IH as [[vs F]|(l1 & l' & e & l2 & vs & -> & F & E')].
    + left; exists (v :: vs); now constructor.
    + right. exists (l :: l1), l', e, l2, (v :: vs). repeat split; auto.
  - right. exists [], l, e, ls, []. repeat split; auto.
Qed.
Lemma build_list_lenient w ls : forall acc, exists v, build_list w true acc ls = Ok v.
Proof. induction ls as [|l ls IH]; intros acc; cbn; eauto. destruct (layer_read w l); auto. Qed.
Lemma build_list_without w r r' : without_failing w r r' -> forall acc,
  build_list w true acc (map snd r) = build_list w false acc (map snd r').
Proof.
  induction 1 as [|nl r r' v E H IH|nl r r' e E H IH]; intros acc; cbn [map build_list]; auto; rewrite E; apply IH.
Qed.
Lemma without_failing_total w r : exists r', without_failing w r r'.
Proof.
  induction r as [|nl r [r' H]]; [exists []; constructor|].
  destruct (layer_read w (snd nl)) eqn:E; eexists; [eapply WfKeep | eapply WfDrop]; eauto.
Qed.

(** ** Resolution *)
Lemma v_merge_empty_l_eq v : uniq v -> mapv v -> v_merge (VMap []) v = v.
Proof.
  intros U [m ->]. rewrite v_merge_maps. f_equal. apply uniq_map in U as [D _].
  enough (H : forall acc, (forall k, In k (map fst m) -> ~ In k (map fst acc)) -> merge_loop acc m = acc ++ m)
    by (apply (H []); cbn; tauto).
  revert D; induction m as [|[k x] m IH]; intros D acc N; cbn [merge_loop]; [now rewrite app_nil_r|].
  inversion D; subst. assert (Nk : ~ In k (map fst acc)) by (apply N; left; auto).
  rewrite (proj2 (mget_None k acc) Nk). rewrite minsert_keys_new by auto.
  rewrite IH; auto; [now rewrite <- app_assoc|].
  intros k' Hk'. rewrite map_app, in_app_iff. cbn. intros [X|[X|[]]]; [eapply N; [right|]; eauto | subst; auto].
Qed.

Definition merge_all (ms : list value) : value := fold_left v_merge ms (VMap []).
Lemma merge_all_snoc ms m : merge_all (ms ++ [m]) = v_merge (merge_all ms) m.
Proof. unfold merge_all. now rewrite fold_left_app. Qed.
Lemma merge_all_uniq ms : (forall v, In v ms -> uniq v) -> uniq (merge_all ms).
Proof.
  induction ms as [|m ms IH] using rev_ind; intros H; [apply UMap; [constructor | intros ? ? []]|].
  rewrite merge_all_snoc. apply v_merge_uniq; [apply IH; intros|]; apply H; apply in_or_app; cbn; auto.
Qed.
Lemma merge_all_mapv ms : mapv (merge_all ms).
Proof.
  induction ms as [|m ms IH] using rev_ind; [eexists; reflexivity|].
  rewrite merge_all_snoc. now apply v_merge_mapv.
Qed.

Lemma defs_snoc k ms m cs : defs k (ms ++ [m]) cs ->
  (exists cs' x, cs = cs' ++ [x] /\ holds m k x /\ defs k ms cs') \/ (lacks m k /\ defs k ms cs).
Proof.
  revert cs; induction ms as [|a ms IH]; intros cs H; cbn [app] in H.
  - inversion H as [|? x ? cs' Hx D|? ? ? L D]; subst; inversion D; subst.
    + left. exists [], x. repeat split; auto; constructor.
    + right. split; auto; constructor.
  - inversion H as [|? x ? cs' Hx D|? ? ? L D]; subst.
    + destruct (IH _ D) as [(cs'' & y & -> & Hy & D')|[L D']].
      * left. exists (x :: cs''), y. repeat split; auto. now constructor.
      * right. split; auto. now constructor.
    + destruct (IH _ D) as [(cs'' & y & -> & Hy & D')|[L' D']].
      * left. exists cs'', y. repeat split; auto. now constructor.
      * right. split; auto. now constructor.
Qed.
Lemma defs_total k ms : exists cs, defs k ms cs.
Proof.
  induction ms as [|m ms [cs D]]; [exists []; constructor|].
  destruct (holds_or_lacks m k) as [[x H]|L]; eexists; [eapply DefsHave | eapply DefsLack]; eauto.
Qed.
Lemma defs_In k ms cs x : defs k ms cs -> In x cs -> exists m, In m ms /\ holds m k x.
Proof.
  induction 1 as [|m y ms cs H D IH|m ms cs L D IH]; intros Hx; [destruct Hx| |].
  - destruct Hx as [<-|Hx]; [exists m; cbn; auto|]. destruct (IH Hx) as (m' & A & B). exists m'; cbn; auto.
  - destruct (IH Hx) as (m' & A & B). exists m'; cbn; auto.
Qed.
Lemma trailing_snoc_map cs z tm : mapv z -> trailing_maps (cs ++ [z]) tm ->
  exists tm', tm = tm' ++ [z] /\ trailing_maps cs tm'.
Proof.
  intros Mz H. inversion H as [ms A|before v ms N A E]; subst.
  - exists cs. split; auto. constructor. intros v Hv; apply A, in_or_app; auto.
  - destruct tm as [|y tm _] using rev_ind.
    + apply app_inj_tail in E as [_ ->]. contradiction.
    + change (before ++ v :: tm ++ [y]) with (before ++ (v :: tm) ++ [y]) in E. rewrite app_assoc in E.
      apply app_inj_tail in E as [<- ->]. exists tm. split; auto. apply TrailCut; auto.
      intros x Hx; apply A, in_or_app; auto.
Qed.
Lemma trailing_nonmap_last cs x tm : ~ mapv x -> trailing_maps (cs ++ [x]) tm -> tm = [].
Proof.
  intros N H. inversion H as [ms A|before v ms N' A E]; subst.
  - exfalso; apply N, A, in_or_app; cbn; auto.
  - destruct tm as [|y tm _] using rev_ind; auto.
    change (before ++ v :: tm ++ [y]) with (before ++ (v :: tm) ++ [y]) in E. rewrite app_assoc in E.
    apply app_inj_tail in E as [_ ->]. exfalso; apply N, A, in_or_app; cbn; auto.
Qed.
Lemma trailing_nil tm : trailing_maps [] tm -> tm = [].
Proof. intros H. inversion H as [|before ? ? ? ? E]; subst; auto. destruct before; discriminate. Qed.
Lemma trailing_total cs : exists tm, trailing_maps cs tm.
Proof.
  induction cs as [|x cs [tm H]] using rev_ind; [exists []; constructor; intros ? []|].
  destruct (mapv_dec x) as [M|N].
  - inversion H as [ms A|before v ms N A E]; subst.
    + exists (tm ++ [x]). constructor. intros v Hv; apply in_app_iff in Hv as [Hv|[<-|[]]]; auto.
    + exists (tm ++ [x]). rewrite <- app_assoc. cbn. apply TrailCut; auto.
      intros v' Hv; apply in_app_iff in Hv as [Hv|[<-|[]]]; auto.
  - exists []. apply (TrailCut cs x []); auto. intros ? [].
Qed.
Lemma trailing_In cs tm x : trailing_maps cs tm -> In x tm -> In x cs /\ mapv x.
Proof.
  intros H Hx. inversion H; subst; split; auto. apply in_or_app; cbn; auto.
Qed.

(** The heart: what key k of the merged maps holds. *)
Lemma merge_all_key ms k : (forall v, In v ms -> mapv v /\ uniq v) -> forall cs, defs k ms cs ->
  (cs = [] -> lacks (merge_all ms) k)
  /\ (forall cs' x, cs = cs' ++ [x] -> ~ mapv x -> holds (merge_all ms) k x)
  /\ (forall cs' x tm, cs = cs' ++ [x] -> mapv x -> trailing_maps cs tm -> holds (merge_all ms) k (merge_all tm)).
Proof.
  induction ms as [|m ms IH] using rev_ind; intros W cs D.
  - inversion D; subst. split; [|split].
    + intros _. now apply lacks_mget.
    + intros [|? ?] ? E; discriminate.
    + intros [|? ?] ? ? E; discriminate.
  - assert (W' : forall v, In v ms -> mapv v /\ uniq v) by (intros; apply W, in_or_app; auto).
    destruct (W m) as [Mm Um]; [apply in_or_app; cbn; auto|].
    assert (Ua : uniq (merge_all ms)) by (apply merge_all_uniq; intros; now apply W').
    pose proof (merge_all_mapv ms) as Ma.
    rewrite merge_all_snoc.
    destruct (defs_snoc _ _ _ _ D) as [(cs0 & z & -> & Hz & D0)|[L D0]].
    + destruct (IH W' _ D0) as (I1 & I2 & I3). split; [|split].
      * intros E. destruct cs0; discriminate.
      * intros cs' x E N. apply app_inj_tail in E as [_ <-].
        apply merge_holds; auto. right; left; split; auto; tauto.
      * intros cs' x tm E Mz T. apply app_inj_tail in E as [_ <-].
        destruct (trailing_snoc_map _ _ _ Mz T) as (tm' & -> & T').
        rewrite merge_all_snoc.
        assert (Uz : uniq z) by exact (holds_uniq _ _ _ Um Hz).
        destruct cs0 as [|y cs1 _] using rev_ind.
        -- apply trailing_nil in T' as ->. rewrite v_merge_empty_l_eq by auto.
           apply merge_only_b; auto.
        -- destruct (mapv_dec y) as [My|Ny].
           ++ specialize (I3 cs1 y tm' eq_refl My T').
              apply (merge_both (merge_all ms) m k (merge_all tm') z); auto. apply merge_all_mapv.
           ++ specialize (I2 cs1 y eq_refl Ny). apply trailing_nonmap_last in T'; auto; subst.
              rewrite v_merge_empty_l_eq by auto.
              apply (merge_both (merge_all ms) m k y z); auto; tauto.
    + destruct (IH W' _ D0) as (I1 & I2 & I3). split; [|split].
      * intros E. apply merge_no_other; auto.
      * intros cs' x E N. apply merge_only_a; auto. eapply I2; eauto.
      * intros cs' x tm E Mx T. apply merge_only_a; auto. eapply I3; eauto.
Qed.

Lemma at_path_cons_holds v k y p x : uniq v -> holds v k y -> (at_path v (k :: p) x <-> at_path y p x).
Proof.
  intros U H. rewrite at_path_cons. split; [|eauto].
  intros (y' & H' & A). now rewrite (holds_fun _ _ _ _ U H' H) in A.
Qed.
Lemma sees_cons v k y p f : uniq v -> holds v k y -> (sees v (k :: p) f <-> sees y p f).
Proof.
  intros U H. assert (E := at_path_cons_holds v k y p).
  split; intros S; inversion S as [? ? x A N|? ? x A M|? ? N]; subst.
  - apply SeesLeaf; auto. now apply E.
  - eapply SeesNode; eauto. now apply E.
  - apply SeesNothing. intros x A. apply (N x). now apply E.
  - apply SeesLeaf; auto. now apply E.
  - eapply SeesNode; eauto. now apply E.
  - apply SeesNothing. intros x A. apply (N x). now apply E in A.
Qed.
Lemma resolves_sees ms p f : resolves ms p f -> (forall v, In v ms -> mapv v /\ uniq v) -> sees (merge_all ms) p f.
Proof.
  induction 1 as [ms|ms k p D|ms k cs x D N|ms k k' p cs x D N|ms k p cs x tm r D M T R IH]; intros W;
    assert (U : uniq (merge_all ms)) by (apply merge_all_uniq; intros; now apply W).
  - eapply SeesNode; [constructor | apply merge_all_mapv].
  - apply SeesNothing. intros x A. apply at_path_cons in A as (y & H & _).
    eapply (proj1 (merge_all_key ms k W _ D)); eauto.
  - apply SeesLeaf; auto. econstructor; [|constructor]. eapply (merge_all_key ms k W _ D); eauto.
  - assert (H : holds (merge_all ms) k x) by (eapply (merge_all_key ms k W _ D); eauto).
    apply (sees_cons _ k x); auto. apply SeesNothing. intros y A. apply at_path_cons in A as (z & Hz & _).
    apply N. eapply holds_mapv; eauto.
  - assert (H : holds (merge_all ms) k (merge_all tm)) by (eapply (merge_all_key ms k W _ D); eauto).
    apply (sees_cons _ k (merge_all tm)); auto. apply IH.
    intros v Hv. destruct (trailing_In _ _ _ T Hv) as [Hc Mv]. split; auto.
    destruct (defs_In _ _ _ _ D Hc) as (m & Hm & Hh). exact (holds_uniq _ _ _ (proj2 (W m Hm)) Hh).
Qed.
Lemma resolves_total p : forall ms, exists f, resolves ms p f.
Proof.
  induction p as [|k p IH]; intros ms; [exists Node; constructor|].
  destruct (defs_total k ms) as [cs D]. destruct cs as [|x cs _] using rev_ind.
  - exists Nothing; now constructor.
  - destruct (mapv_dec x) as [M|N].
    + destruct (trailing_total (cs ++ [x])) as [tm T]. destruct (IH tm) as [f R]. exists f; eapply ResDown; eauto.
    + destruct p as [|k' p']; [exists (Leaf x); eapply ResLeaf | exists Nothing; eapply ResBelowLeaf]; eauto.
Qed.
Lemma sees_iff_resolves ms p f : (forall v, In v ms -> mapv v /\ uniq v) ->
  (sees (merge_all ms) p f <-> resolves ms p f).
Proof.
  intros W. split; [|intros; now apply resolves_sees].
  intros S. destruct (resolves_total p ms) as [f' R]. pose proof (resolves_sees _ _ _ R W) as S'.
  assert (U : uniq (merge_all ms)) by (apply merge_all_uniq; intros; now apply W).
  now rewrite (sees_fun _ _ _ _ U S S').
Qed.

(** Non-maps drop out of the fold. *)
Lemma fold_only_maps vs ms : only_maps vs ms -> forall acc,
  fold_left v_merge vs acc = fold_left v_merge ms acc.
Proof.
  induction 1 as [|v vs ms M O IH|v vs ms N O IH]; intros acc; cbn; auto.
  rewrite v_merge_noop by tauto. apply IH.
Qed.
Lemma only_maps_In vs ms v : only_maps vs ms -> In v ms -> In v vs /\ mapv v.
Proof.
  induction 1 as [|x vs ms M O IH|x vs ms N O IH]; intros H; [destruct H| |].
  - destruct H as [<-|H]; [split; [left; auto | auto]|]. destruct (IH H); split; [right; auto | auto].
  - destruct (IH H); split; [right; auto | auto].
Qed.
Lemma only_maps_total vs : exists ms, only_maps vs ms.
Proof.
  induction vs as [|v vs [ms O]]; [exists []; constructor|].
  destruct (mapv_dec v); eexists; [apply OmMap | apply OmSkip]; eauto.
Qed.

Lemma reads_split w r vs : reads w r (map Ok vs) <-> Forall2 (fun l v => layer_read w l = Ok v) (map snd r) vs.
Proof.
  unfold reads. revert vs; induction r as [|nl r IH]; intros [|v vs]; cbn; split; intros H; try (inversion H; fail); constructor;
    inversion H; subst; auto; now apply IH.
Qed.

(** ** Packaging for Properties/P05_Config *)
Lemma fold_merge_wf vs : forall acc, wf acc -> (forall v, In v vs -> wf v) -> wf (fold_left v_merge vs acc).
Proof.
  induction vs as [|v vs IH]; intros acc Wa W; cbn; auto.
  apply IH; [apply v_merge_wf; auto; apply W; left; auto | intros; apply W; right; auto].
Qed.
Lemma build_resolution w c r vs ms skip :
  registered c r -> reads w r (map Ok vs) -> (forall v, In v vs -> wf v) -> only_maps vs ms ->
  exists v, build_value w c skip = Ok v /\ mapv v /\ wf v /\ forall p f, sees v p f <-> resolves ms p f.
Proof.
  intros R F W O. apply reads_split in F.
  exists (merge_all ms). rewrite (build_value_list w c r skip R), (build_list_ok _ _ _ _ F).
  unfold merge_all. rewrite (fold_only_maps _ _ O).
  split; [reflexivity|]. split; [apply merge_all_mapv|]. split.
  - apply fold_merge_wf; [cbn; repeat constructor|]. intros v Hv. apply W. now apply (only_maps_In _ _ _ O Hv).
  - intros p f. apply sees_iff_resolves. intros v Hv. destruct (only_maps_In _ _ _ O Hv). split; auto. apply wf_uniq; auto.
Qed.
Lemma resolves_fun ms p f g : (forall v, In v ms -> mapv v /\ uniq v) -> resolves ms p f -> resolves ms p g -> f = g.
Proof.
  intros W A B. apply (sees_fun (merge_all ms) p); [apply merge_all_uniq; intros; now apply W| |]; now apply resolves_sees.
Qed.

Lemma build_order_independent w w' c c' r r' vs vs' skip skip' :
  registered c r -> registered c' r' -> reads w r (map Ok vs) -> reads w' r' (map Ok vs') ->
  (forall v, In v vs -> wf v) -> (forall v, In v vs' -> wf v) -> Forall2 vequiv vs vs' ->
  exists v v', build_value w c skip = Ok v /\ build_value w' c' skip' = Ok v' /\ vequiv v v'.
Proof.
  intros R R' F F' W W' E. apply reads_split in F, F'.
  exists (fold_left v_merge vs new_map), (fold_left v_merge vs' new_map).
  rewrite (build_value_list w c r skip R), (build_list_ok _ _ _ _ F).
  rewrite (build_value_list w' c' r' skip' R'), (build_list_ok _ _ _ _ F').
  split; [reflexivity|]. split; [reflexivity|]. clear - W W' E.
  enough (H : forall a a', uniq a -> uniq a' -> vequiv a a' -> vequiv (fold_left v_merge vs a) (fold_left v_merge vs' a')).
  { apply H; try (apply UMap; [constructor | intros ? ? []]). apply vequiv_refl. }
  induction E as [|v v' vs vs' Ev E IH]; intros a a' U U' Ea; cbn; auto.
  assert (W2 : forall x, In x vs -> wf x) by (intros; apply W; right; auto).
  assert (W2' : forall x, In x vs' -> wf x) by (intros; apply W'; right; auto).
  apply (IH W2 W2').
  - apply v_merge_uniq; auto. apply wf_uniq, W; left; auto.
  - apply v_merge_uniq; auto. apply wf_uniq, W'; left; auto.
  - apply v_merge_congr; auto; apply wf_uniq; [apply W | apply W']; left; auto.
Qed.

Lemma registration_history tc ops h r : registrations tc ops h -> keeps_first h r ->
  registered (config_run tc ops) r
  /\ (forall n l, get_layer (config_run tc ops) n = Some l <->
        exists before after, h = before ++ (n, l) :: after /\ ~ In n (map fst before))
  /\ (forall n, get_layer (config_run tc ops) n = None <-> ~ In n (map fst h)).
Proof.
  intros H K. pose proof (run_registered _ _ _ H _ K) as R. split; auto.
  unfold get_layer. split; intros; rewrite (registered_get _ _ _ R).
  - now apply keeps_first_get.
  - now apply keeps_first_none.
Qed.
Lemma history_exists tc ops : exists h r, registrations tc ops h /\ keeps_first h r.
Proof.
  destruct (registrations_total tc ops) as [h H]. destruct (keeps_first_total h) as [r K]. eauto.
Qed.
Lemma readd_is_noop c n l l0 : get_layer c n = Some l0 -> push_layer c n l = c.
Proof. unfold get_layer, push_layer, mhas. intros ->. reflexivity. Qed.

Lemma strict_build w c r : registered c r ->
  ((exists v, build_value w c false = Ok v) <-> forall n l, In (n, l) r -> exists v, layer_read w l = Ok v)
  /\ (forall r1 n l r2 e, r = r1 ++ (n, l) :: r2 ->
        (forall n' l', In (n', l') r1 -> exists v, layer_read w l' = Ok v) -> layer_read w l = Err e ->
        build_value w c false = Err e).
Proof.
  intros R. rewrite (build_value_list w c r false R).
  assert (FX : forall r1 : list (str * layer), (forall n' l', In (n', l') r1 -> exists v, layer_read w l' = Ok v) ->
    exists vs, Forall2 (fun l v => layer_read w l = Ok v) (map snd r1) vs).
  { induction r1 as [|[n' l'] r1 IH]; intros A; [exists []; constructor|].
    destruct (A n' l') as [v Ev]; [left; auto|]. destruct IH as [vs F]; [intros; eapply A; right; eauto|].
    exists (v :: vs); now constructor. }
  split.
  - split.
    + intros [v E] n l Hin. apply in_split in Hin as (r1 & r2 & ->).
      destruct (layer_read w l) as [x|e] eqn:X; [eauto|]. exfalso.
      rewrite map_app in E. cbn [map snd] in E.
      destruct (split_first_error w (map snd r1)) as [[vs F]|(l1 & l' & e' & l2 & vs & El & F & X')].
      * rewrite (build_list_first_error _ _ _ _ _ _ F X) in E. discriminate.
      * rewrite El in E. rewrite <- app_assoc in E. cbn in E.
        rewrite (build_list_first_error _ _ _ _ _ _ F X') in E. discriminate.
    + intros A. destruct (FX r A) as [vs F]. rewrite (build_list_ok _ _ _ _ F). eauto.
  - intros r1 n l r2 e -> A X. rewrite map_app. cbn [map snd].
    destruct (FX r1 A) as [vs F]. eapply build_list_first_error; eauto.
Qed.

Lemma lenient_build w c r r' c' : registered c r -> without_failing w r r' -> registered c' r' ->
  build_value w c true = build_value w c' false
  /\ (exists v, build_value w c true = Ok v)
  /\ (forall v, build_value w c false = Ok v -> build_value w c true = Ok v).
Proof.
  intros R F R'. rewrite (build_value_list w c r true R), (build_value_list w c' r' false R'), (build_value_list w c r false R).
  split; [now apply build_list_without|]. split; [apply build_list_lenient|].
  assert (G : forall ls acc v, build_list w false acc ls = Ok v -> build_list w true acc ls = Ok v).
  { induction ls as [|l ls IH]; intros acc v; cbn; auto. destruct (layer_read w l); [apply IH | discriminate]. }
  apply G.
Qed.
Lemma without_failing_registered w r r' : without_failing w r r' ->
  NoDup (map fst r) -> exists c', registered c' r'.
Proof.
  intros F D. exists {| layers_names := map fst r'; layers := r' |}. repeat split; cbn; auto.
  assert (S : forall n, In n (map fst r') -> In n (map fst r)).
  { clear D. induction F as [|nl r r' v E F IH|nl r r' e E F IH]; cbn; intuition. }
  clear S. induction F as [|nl r r' v E F IH|nl r r' e E F IH]; cbn in *; auto.
  - inversion D; subst. constructor; auto. intros H. apply H1.
    clear - F H. induction F as [|nl' r r' v E F IH|nl' r r' e E F IH]; cbn in *; intuition.
  - inversion D; subst; auto.
Qed.
Lemma skip_layer w c c' r1 n l r2 skip : registered c (r1 ++ (n, l) :: r2) -> registered c' (r1 ++ r2) ->
  (forall acc, mapv acc -> exists v, layer_read w l = Ok v /\ v_merge acc v = acc) ->
  build_value w c skip = build_value w c' skip.
Proof.
  intros R R' H. rewrite (build_value_list w c _ skip R), (build_value_list w c' _ skip R').
  rewrite !map_app. cbn [map snd]. rewrite !build_list_app.
  assert (M : forall ls acc v, mapv acc -> build_list w skip acc ls = Ok v -> mapv v).
  { clear. induction ls as [|l ls IH]; intros acc v M; cbn; [intros E; injection E as <-; auto|].
    destruct (layer_read w l) as [x|e]; [apply IH; now apply v_merge_mapv | destruct skip; [apply IH; auto | discriminate]]. }
  destruct (build_list w skip new_map (map snd r1)) as [acc|e] eqn:E; auto.
  apply M in E; [|eexists; reflexivity]. cbn [build_list].
  destruct (H acc E) as (v & -> & ->). reflexivity.
Qed.
Lemma nonmap_layer w c c' r1 n l r2 v skip : registered c (r1 ++ (n, l) :: r2) -> registered c' (r1 ++ r2) ->
  layer_read w l = Ok v -> ~ mapv v -> build_value w c skip = build_value w c' skip.
Proof.
  intros R R' E N. eapply skip_layer; eauto. intros acc _. exists v. split; auto. apply v_merge_noop; tauto.
Qed.
Lemma missing_file_layer w c c' r1 n h p r2 skip :
  registered c (r1 ++ (n, LFile h p) :: r2) -> registered c' (r1 ++ r2) -> w_fs w p = None ->
  layer_read w (LFile h p) = Ok (VMap []) /\ layer_has_value w (LFile h p) = false
  /\ build_value w c skip = build_value w c' skip.
Proof.
  intros R R' E. assert (X : layer_read w (LFile h p) = Ok (VMap [])) by (cbn; unfold fs_exists; now rewrite E).
  split; auto. split; [cbn; unfold fs_exists; now rewrite E|].
  eapply skip_layer; eauto. intros acc _. exists (VMap []). split; auto. apply v_merge_empty_r.
Qed.
