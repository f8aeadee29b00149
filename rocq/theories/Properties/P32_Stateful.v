(** C109: layers that change things when they are read. *)
From Coq Require Import ZArith Bool Permutation String Lia.
From Coq Require Import List.
Import ListNotations.
From Verif.Model Require Import Text Value Merge Finder World Layers Config Stateful.
From Verif.Spec Require Import Spec ConfigSpec ConcurrentSpec StatefulSpec.
From Verif.Proofs Require Import Basics ConfigBuild StatefulProofs.

Theorem C109_first_registration_wins : forall S (h r : list (str * slayer S)), keeps_first h r -> sregistered (s_run h) r.
Proof. intros S h r. apply s_run_registered. Qed.
Print Assumptions C109_first_registration_wins.

(** [get_layer] gives the layer registered first under the name. *)
Theorem C109_get_layer_gives_the_first_registered : forall S (h r : list (str * slayer S)) n l, keeps_first h r ->
  (s_get (s_run h) n = Some l <-> In (n, l) r).
Proof. intros S h r n l K. apply sregistered_get, s_run_registered, K. Qed.
Print Assumptions C109_get_layer_gives_the_first_registered.

(** A build reads the layers in registration order, each at most once, in the
    states the reads before left; it goes on to the last one unless an answer
    ends it, which then is its result. *)
Theorem C109_layers_are_read_in_turn : forall S (c : sconfig S) r skip s s' res, sregistered c r -> s_build s c skip = (s', res) ->
  exists asked rest xs, r = asked ++ rest /\ asked_in_turn s asked xs s' /\
    ((rest = [] /\ (forall x, In x xs -> ~ ends skip x))
     \/ exists ys x, xs = ys ++ [x] /\ (forall y, In y ys -> ~ ends skip y) /\ ends skip x /\ res = x).
Proof.
  intros S c r skip s s' res R H. rewrite (s_build_is_list c r skip s R) in H. destruct (s_list_spec skip r _ _ _ _ H) as (a & b & xs & E & A & _ & F). exists a, b, xs. auto.
Qed.
Print Assumptions C109_layers_are_read_in_turn.

(** The result is that of layers that hold for ever what was answered. *)
Theorem C109_the_answers_decide : forall S (c : sconfig S) r skip s s' res asked rest xs ys w0 c0 fr, sregistered c r -> s_build s c skip = (s', res) ->
  r = asked ++ rest -> asked_in_turn s asked xs s' ->
  (rest = [] \/ exists x, In x xs /\ ends skip x) ->
  Forall2 same_answer xs ys -> registered c0 fr -> map snd fr = map fixed_layer ys ->
  same_answer res (build_value w0 c0 skip).
Proof.
  intros S c r skip s s' res asked rest xs ys w0 c0 fr R H E A F Sa R0 Fr.
  rewrite (build_value_list w0 c0 fr skip R0), Fr.
  rewrite (s_build_is_list c r skip s R), E in H. clear - H A F Sa.
  assert (G : forall acc, s_list skip acc (map snd (asked ++ rest)) s = (s', res) -> same_answer res (build_list w0 skip acc (map fixed_layer ys))); [|now apply G].
  clear H. revert ys Sa F. induction A as [s|s n l ls x xs s1 s2 E A IH]; intros ys Sa F acc H.
  - inversion Sa; subst. destruct F as [->|(x & [] & _)]. cbn in H. injection H as <-. constructor.
  - inversion Sa as [|? y ? ys' S1 S2]; subst. cbn in H. rewrite E in H. destruct S1 as [v|e]; cbn [map build_list fixed_layer layer_read cl_read].
    + apply IH; auto. destruct F as [->|(x & [<-|Hx] & En)]; eauto. destruct En as [X|(_ & ? & X)]; discriminate X.
    + destruct skip.
      * apply IH; auto. destruct F as [->|(x & [<-|Hx] & En)]; eauto. destruct En as [X|(X & _)]; discriminate X.
      * injection H as <- <-. constructor.
Qed.
Print Assumptions C109_the_answers_decide.

(** A build panics exactly if a layer that is reached does; a lenient build
    never returns an error. *)
Theorem C109_panics_exactly : forall S (c : sconfig S) r skip s, sregistered c r ->
  (snd (s_build s c skip) = Panic <->
   exists asked n l rest xs s1, r = asked ++ (n, l) :: rest /\ asked_in_turn s asked xs s1 /\ (forall x, In x xs -> ~ ends skip x) /\ snd (sl_read l s1) = Panic).
Proof.
  intros S c r skip s R. rewrite (s_build_is_list c r skip s R). split.
  - intros H. destruct (s_list skip new_map (map snd r) s) as [s' res] eqn:E. cbn in H. subst res.
    destruct (s_list_spec skip r _ _ _ _ E) as (a & b & xs & -> & A & C & [[-> F]|(ys & x & -> & F & En & <-)]).
    + exfalso. clear - C F. revert C. generalize new_map. induction xs as [|[v|e|] xs IH]; cbn; intros acc C; [discriminate | | |].
      * apply (IH (fun y Hy => F y (or_intror Hy)) _ C).
      * destruct skip; [|discriminate C]. apply (IH (fun y Hy => F y (or_intror Hy)) _ C).
      * apply (F Panic); [left; auto | left; auto].
    + clear E C En. assert (G : forall s xs s', asked_in_turn s a xs s' -> xs = ys ++ [Panic] -> exists a' n l s1, a = a' ++ [(n, l)] /\ asked_in_turn s a' ys s1 /\ snd (sl_read l s1) = Panic).
      { clear - F. revert ys F. induction a as [|[n l] a IH]; intros ys F s xs s' A E; destruct ys as [|y ys]; cbn in E; subst xs; inversion A as [|? ? ? ? x xs' s1 ? E1 A1]; subst.
        - inversion A1; subst. exists [], n, l, s. rewrite E1. repeat split; constructor.
        - destruct (IH ys (fun z Hz => F z (or_intror Hz)) s1 _ s' A1 eq_refl) as (a' & n' & l' & s2 & -> & A2 & P). exists ((n, l) :: a'), n', l', s2. repeat split; auto. econstructor; eauto. }
      destruct (G _ _ _ A eq_refl) as (a' & n & l & s1 & -> & A' & P). exists a', n, l, b, ys, s1. rewrite <- app_assoc. auto.
  - intros (a & n & l & b & xs & s1 & -> & A & F & P). clear R. generalize new_map. induction A as [s|s m k ls x xs s2 s3 E A IH]; intros acc; cbn [app map snd s_list].
    + destruct (sl_read l s) as [s' x]. cbn in P. subst x. reflexivity.
    + rewrite E. destruct x as [v|e|].
      * apply IH; [|exact P]. intros y Hy. apply F. right. exact Hy.
      * destruct skip; [apply IH; [|exact P]; intros y Hy; apply F; right; exact Hy|]. destruct (F (Fail e)); [left; auto | right; eauto].
      * destruct (F Panic); [left; auto | left; auto].
Qed.
Print Assumptions C109_panics_exactly.
Theorem C109_a_lenient_build_never_fails : forall S (c : sconfig S) r s e, sregistered c r -> snd (s_build s c true) <> Fail e.
Proof.
  intros S c r s e R. rewrite (s_build_is_list c r true s R). generalize new_map. generalize (map snd r) as ls. intros ls; revert s. induction ls as [|l ls IH]; intros s acc; cbn; [discriminate|].
  destruct (sl_read l s) as [s1 [v|e'|]]; auto. discriminate.
Qed.
Print Assumptions C109_a_lenient_build_never_fails.

(** The built-in layers: the same as [build_value], and nothing changes. *)
Theorem C109_built_in_layers : forall c r skip w, registered c r ->
  sregistered (as_sconfig c) (map (fun e => (fst e, as_slayer (snd e))) r) /\
  s_build w (as_sconfig c) skip = (w, match build_value w c skip with Ok v => Done v | Err e => Fail e end).
Proof.
  intros c r skip w R.
  assert (R' : sregistered (as_sconfig c) (map (fun e => (fst e, as_slayer (snd e))) r)).
  { destruct R as (A & B & C). split; [cbn; rewrite A, map_map; reflexivity|]. split; [rewrite map_map; exact B|]. cbn. now apply Permutation_map. }
  split; auto. rewrite (s_build_is_list _ _ skip w R'), (build_value_list w c r skip R), map_map. cbn [snd]. generalize new_map. clear R R'.
  induction r as [|[n l] r IH]; intros acc; cbn; auto. destruct (layer_read w l); [apply IH|]. destruct skip; [apply IH | reflexivity].
Qed.
Print Assumptions C109_built_in_layers.

(** A layer that keeps what is written to it: after a write, every build finds
    the written value in it, as long as reading layers does not change it. *)
Theorem C109_a_written_value_is_found : forall S (c : sconfig S) r n l (held : S -> value) s v s' skip s2 res,
  sregistered c r -> s_get c n = Some l ->
  (forall t, snd (sl_read l t) = Done (held t)) ->
  (forall t u t', sl_write l t u = (t', Done tt) -> held t' = u) ->
  (forall n' l' t t' x, In (n', l') r -> sl_read l' t = (t', x) -> held t' = held t) ->
  sl_write l s v = (s', Done tt) -> s_build s' c skip = (s2, res) ->
  exists asked rest xs, r = asked ++ rest /\ asked_in_turn s' asked xs s2 /\ (rest = [] \/ exists x, In x xs /\ ends skip x)
    /\ forall x, In ((n, l), x) (List.combine asked xs) -> x = Done v.
Proof.
  intros S c r n l held s v s' skip s2 res R G L W Pr E H. rewrite (s_build_is_list c r skip s' R) in H. destruct (s_list_spec skip r _ _ _ _ H) as (a & b & xs & -> & A & _ & F). exists a, b, xs. split; auto. split; auto. split.
  - destruct F as [[-> _]|(ys & x & -> & _ & En & _)]; auto. right. exists x. split; auto. apply in_or_app; right; left; auto.
  - intros x Hx. refine (answers_done v a xs s' s2 held n l _ L (W _ _ _ E) A (n, l) x Hx eq_refl). intros n' l' t t' y Hl. eapply Pr. apply in_or_app; left; exact Hl.
Qed.
Print Assumptions C109_a_written_value_is_found.

(** Refuted: "building twice gives the same".  A layer that counts its reads. *)
Definition counting : slayer Z := {| sl_read := fun n => ((n + 1)%Z, Done (VMap [(lit "n", VInt n)])); sl_write := fun n _ => (n, Done tt) |}.
Definition failing : slayer Z := {| sl_read := fun n => (n, Fail (BLayer LWriteNotSupported)); sl_write := fun n _ => (n, Done tt) |}.
Definition panicking : slayer Z := {| sl_read := fun n => (n, Panic); sl_write := fun n _ => (n, Panic) |}.
Theorem C109_building_twice_gives_the_same_refuted : exists (c : sconfig Z) s s1 s2 v1 v2,
  s_build s c false = (s1, Done v1) /\ s_build s1 c false = (s2, Done v2) /\ ~ vequiv v1 v2.
Proof.
  exists (s_run [(lit "a", counting)]), 0%Z. do 4 eexists. split; [reflexivity|]. split; [reflexivity|]. intros V. inversion V as [? X| |m m' H _]; subst.
  destruct (H (lit "n") (VInt 0) (or_introl eq_refl)) as (y & [Y|[]] & E). assert (y = VInt 1) as -> by congruence. inversion E.
Qed.
Print Assumptions C109_building_twice_gives_the_same_refuted.

(** A failing layer ends a strict build before the layers behind it are read,
    but not a lenient one. *)
Example C109_example :
  keeps_first [(lit "a", counting); (lit "b", failing); (lit "a", panicking); (lit "c", counting)] [(lit "a", counting); (lit "b", failing); (lit "c", counting)]
  /\ s_build 5%Z (s_run [(lit "a", counting); (lit "b", failing); (lit "a", panicking); (lit "c", counting)]) false = (6%Z, Fail (BLayer LWriteNotSupported))
  /\ s_build 5%Z (s_run [(lit "a", counting); (lit "b", failing); (lit "a", panicking); (lit "c", counting)]) true = (7%Z, Done (VMap [(lit "n", VInt 6)]))
  /\ s_build 5%Z (s_run [(lit "a", counting); (lit "p", panicking); (lit "c", counting)]) true = (6%Z, Panic)
  /\ asked_in_turn 5%Z [(lit "a", counting); (lit "b", failing)] [Done (VMap [(lit "n", VInt 5)]); Fail (BLayer LWriteNotSupported)] 6%Z
  /\ ends false (Fail (BLayer LWriteNotSupported)) /\ same_answer (Fail (BLayer LWriteNotSupported)) (Err (BLayer LWriteNotSupported)).
Proof.
  split.
  { apply (KeepNew [(lit "a", counting); (lit "b", failing); (lit "a", panicking)] [(lit "a", counting); (lit "b", failing)]); [|cbn; intuition discriminate].
    apply (KeepOld [(lit "a", counting); (lit "b", failing)]); [|left; reflexivity].
    apply (KeepNew [(lit "a", counting)] [(lit "a", counting)]); [|cbn; intuition discriminate]. apply (KeepNew [] []); [constructor | intros []]. }
  split; [reflexivity|]. split; [reflexivity|]. split; [reflexivity|]. split; [|split; [right; eauto | constructor]].
  econstructor; [reflexivity|]. econstructor; [reflexivity|]. constructor.
Qed.
