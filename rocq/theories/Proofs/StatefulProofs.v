(** C109. *)
From Coq Require Import ZArith Bool Permutation String Lia.
From Coq Require Import List.
Import ListNotations.
From Verif.Model Require Import Text Value Merge Finder World Layers Config Stateful.
From Verif.Spec Require Import Spec ConfigSpec ConcurrentSpec StatefulSpec.
From Verif.Proofs Require Import Basics ConfigBuild.

Section S.
Context {S : Type}.
Implicit Types (c : sconfig S) (r : list (str * slayer S)) (s : S).

Lemma sregistered_new : sregistered (@s_new S) [].
Proof. split; [reflexivity|]. split; constructor. Qed.
Lemma sregistered_nodup c r : sregistered c r -> NoDup (map fst (s_layers c)).
Proof. intros (_ & D & P). eapply Permutation_NoDup; [apply Permutation_map, Permutation_sym, P | exact D]. Qed.
Lemma sregistered_get c r n l : sregistered c r -> (mget n (s_layers c) = Some l <-> In (n, l) r).
Proof.
  intros R. pose proof (sregistered_nodup _ _ R) as D. destruct R as (_ & D' & P). split.
  - intros H. apply mget_In in H. eapply Permutation_in; eauto.
  - intros H. apply In_mget; auto. eapply Permutation_in; [apply Permutation_sym, P | exact H].
Qed.
Lemma sregistered_push c r n l : sregistered c r ->
  (~ In n (map fst r) -> sregistered (s_push c n l) (r ++ [(n, l)])) /\ (In n (map fst r) -> s_push c n l = c).
Proof.
  intros R. assert (M : mhas n (s_layers c) = true <-> In n (map fst r)).
  { unfold mhas. destruct (mget n (s_layers c)) as [x|] eqn:E.
    - apply (sregistered_get _ _ _ _ R) in E. apply (in_map fst) in E. cbn in E. tauto.
    - split; [discriminate|]. intros H. apply in_map_iff in H as ([n' x] & X & H). cbn in X. subst n'. apply (sregistered_get _ _ _ _ R) in H. congruence. }
  unfold s_push. destruct (mhas n (s_layers c)) eqn:E.
  - split; [intros N; destruct N; apply M; reflexivity | reflexivity].
  - split; [|intros H; apply M in H; discriminate]. intros N. destruct R as (A & B & C). split; [cbn; rewrite A, map_app; reflexivity|]. split.
    + rewrite map_app. now apply NoDup_snoc.
    + cbn. rewrite minsert_keys_new. 2:{ intros H. apply N. eapply Permutation_in; [apply Permutation_map; exact C | exact H]. }
      now apply Permutation_app.
Qed.

Lemma s_run_registered h : forall r, keeps_first h r -> sregistered (s_run h) r.
Proof.
  intros r K. unfold s_run. induction K as [|h r n l K IH N|h r n l K IH N].
  - apply sregistered_new.
  - rewrite fold_left_app. cbn. apply (proj1 (sregistered_push _ _ n l IH)). intros X. apply N. apply (proj2 (keeps_first_names _ _ K)). exact X.
  - rewrite fold_left_app. cbn. rewrite (proj2 (sregistered_push _ _ n l IH)); auto. now apply (proj2 (keeps_first_names _ _ K)).
Qed.

(** The loop over the ordered list. *)
Fixpoint s_list (skip : bool) (acc : value) (ls : list (slayer S)) s : S * outcome value bak_error :=
  match ls with
  | [] => (s, Done acc)
  | l :: rest =>
    match sl_read l s with
    | (s', Fail e) => if skip then s_list skip acc rest s' else (s', Fail e)
    | (s', Done v) => s_list skip (v_merge acc v) rest s'
    | (s', Panic) => (s', Panic)
    end
  end.
Lemma s_build_is_list c r skip s : sregistered c r -> s_build s c skip = s_list skip new_map (map snd r) s.
Proof.
  intros R. unfold s_build. pose proof R as (-> & _ & _).
  assert (G : forall n l, In (n, l) r -> mget n (s_layers c) = Some l) by (intros; now apply (sregistered_get _ _ _ _ R)).
  clear R. revert s. generalize new_map as acc. induction r as [|[n l] r IH]; intros acc s; cbn [s_build_loop s_list map fst snd]; auto.
  rewrite (G n l) by (left; auto). destruct (sl_read l s) as [s1 [v|e|]]; auto; [|destruct skip; auto]; apply IH; intros; apply G; right; auto.
Qed.

(** What becomes of a list of answers. *)
Fixpoint collect (skip : bool) (acc : value) (xs : list (outcome value bak_error)) : outcome value bak_error :=
  match xs with
  | [] => Done acc
  | Done v :: xs => collect skip (v_merge acc v) xs
  | Fail e :: xs => if skip then collect skip acc xs else Fail e
  | Panic :: _ => Panic
  end.
Lemma ends_dec skip x : {ends skip x} + {~ ends skip x}.
Proof. unfold ends. destruct x as [v|e|]; [right; intros [X|(_ & ? & X)]; discriminate X | | left; auto]. destruct skip; [right; intros [X|(X & _)]; discriminate X | left; eauto]. Qed.

Lemma s_list_spec skip r : forall acc s s' res, s_list skip acc (map snd r) s = (s', res) ->
  exists asked rest xs, r = asked ++ rest /\ asked_in_turn s asked xs s' /\ res = collect skip acc xs /\
    ((rest = [] /\ forall x, In x xs -> ~ ends skip x) \/ exists ys x, xs = ys ++ [x] /\ (forall y, In y ys -> ~ ends skip y) /\ ends skip x /\ res = x).
Proof.
  induction r as [|[n l] r IH]; intros acc s s' res H; cbn in H.
  { injection H as <- <-. exists [], [], []. split; [reflexivity|]. split; [constructor|]. split; [reflexivity|]. left. split; [reflexivity | intros x []]. }
  destruct (sl_read l s) as [s1 x] eqn:E. destruct (ends_dec skip x) as [En|En].
  - exists [(n, l)], r, [x]. assert (H' : s' = s1 /\ res = x).
    { destruct En as [->|[-> (e & ->)]]; injection H as <- <-; auto. }
    destruct H' as [-> ->]. split; [reflexivity|]. split; [econstructor; [exact E | constructor]|]. split.
    + destruct En as [->|[-> (e & ->)]]; reflexivity.
    + right. exists [], x. split; [reflexivity|]. split; [intros y []|]. auto.
  - assert (N : exists acc', s_list skip acc' (map snd r) s1 = (s', res) /\ forall xs, collect skip acc (x :: xs) = collect skip acc' xs).
    { destruct x as [v|e|]; [eexists; split; [exact H | reflexivity] | | destruct En; left; reflexivity]. destruct skip; [eexists; split; [exact H | reflexivity]|]. destruct En. right; eauto. }
    destruct N as (acc' & H' & C). destruct (IH acc' s1 s' res H') as (asked & rest & xs & -> & A & R & F).
    exists ((n, l) :: asked), rest, (x :: xs). split; [reflexivity|]. split; [econstructor; eauto|]. split; [now rewrite C|].
    destruct F as [[-> F]|(ys & y & -> & F1 & F2 & F3)].
    + left. split; auto. intros y [<-|Hy]; auto.
    + right. exists (x :: ys), y. repeat split; auto. intros z [<-|Hz]; auto.
Qed.

Lemma asked_fun s asked xs s1 : asked_in_turn s asked xs s1 -> forall xs' s2, asked_in_turn s asked xs' s2 -> xs = xs' /\ s1 = s2.
Proof. induction 1 as [|s n l ls x xs s1 s2 E A IH]; intros xs' s3 B; inversion B as [|? ? ? ? x' ? s4 ? E' B']; subst; auto. rewrite E in E'. injection E' as <- <-. destruct (IH _ _ B') as [-> ->]. auto. Qed.

Lemma collect_frozen skip w0 xs : forall ys acc, Forall2 same_answer xs ys ->
  collect skip acc xs = match build_list w0 skip acc (map fixed_layer ys) with Ok v => Done v | Err e => Fail e end.
Proof.
  induction xs as [|x xs IH]; intros ys acc F; inversion F as [|? y ? ys' Sa F']; subst; cbn; auto.
  destruct Sa as [v|e]; cbn; [now apply IH|]. destruct skip; [now apply IH | reflexivity].
Qed.

Lemma answers_done v asked xs s s' (get : S -> value) n l :
  (forall n' l' t t' x, In (n', l') asked -> sl_read l' t = (t', x) -> get t' = get t) ->
  (forall t, snd (sl_read l t) = Done (get t)) -> get s = v ->
  asked_in_turn s asked xs s' -> forall p x, In (p, x) (List.combine asked xs) -> p = (n, l) -> x = Done v.
Proof.
  intros Pr L G A; revert Pr G. induction A as [|s m k ls x xs s1 s2 E A IH]; intros Pr G p y; [intros []|]. cbn [List.combine]. intros [Q|Q].
  - injection Q as <- <-. intros [= -> ->]. specialize (L s). rewrite E in L. cbn in L. congruence.
  - apply IH; auto; [intros; eapply Pr; [right|]; eassumption|]. rewrite <- G. eapply Pr; [left; reflexivity | exact E].
Qed.
End S.
