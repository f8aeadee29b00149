(** Growing a finder. *)
From Coq Require Import ZArith Bool String Lia.
From Coq Require Import List.
Import ListNotations.
From Verif.Model Require Import Text Value Paths Finder.
From Verif.Spec Require Import PathSpec FinderSpec.
From Verif.Proofs Require Import Basics PathLemmas FinderProofs FinderTop FinderMore.
Local Open Scope nat_scope.

Definition mkf (ds : list path) (n : str) (es : list str) : finder := {| ff_folders := ds; ff_name := n; ff_exts := es |}.

Lemma list_prod_app {A B} (a b : list A) (c : list B) : list_prod (a ++ b) c = list_prod a c ++ list_prod b c.
Proof. induction a as [|x a IH]; cbn; auto. now rewrite IH, app_assoc. Qed.
Lemma candidates_app n es a b cs cs' : candidates (mkf a n es) cs -> candidates (mkf b n es) cs' ->
  candidates (mkf (a ++ b) n es) (cs ++ cs').
Proof. unfold candidates. cbn. intros A B. rewrite list_prod_app. now apply Forall2_app. Qed.

Lemma find_first_exists ex f cs allow r : candidates f cs -> complete f ->
  find_first (still ex) f allow = Done r -> fr_exists r = true ->
  exists before c after, cs = before ++ c :: after /\ (forall x, In x before -> ex (fst x) = false)
    /\ ex (fst c) = true /\ r = result_of c 0 true.
Proof.
  intros C F E X. destruct (find_first_still ex f cs C F allow) as [A B].
  destruct (existsb (fun c => ex (fst c)) cs) eqn:Y.
  - assert (S : exists before c after, cs = before ++ c :: after /\ (forall x, In x before -> ex (fst x) = false) /\ ex (fst c) = true).
    { clear - Y. induction cs as [|c cs IH]; [discriminate|]. cbn in Y. destruct (ex (fst c)) eqn:Z.
      - exists [], c, cs. split; auto. split; auto. intros ? [].
      - destruct (IH Y) as (b & d & a & -> & H & G). exists (c :: b), d, a. split; auto. split; auto. intros x [<-|I]; auto. }
    destruct S as (b & c & a & S & H & G). exists b, c, a. split; auto. split; auto. split; auto.
    pose proof (A b c a S H G). congruence.
  - assert (N : forall x, In x cs -> ex (fst x) = false).
    { intros x I. destruct (ex (fst x)) eqn:Z; auto. assert (existsb (fun c => ex (fst c)) cs = true) by (apply existsb_exists; eauto). congruence. }
    destruct (B N) as [B1 B2]. destruct allow; [|congruence].
    destruct cs as [|c cs]; [destruct (candidates_nonempty f [] C F); auto|].
    rewrite (B2 c cs eq_refl) in E. injection E as <-. discriminate.
Qed.
Lemma find_last_exists ex f cs allow r : candidates f cs -> complete f ->
  find_last (still ex) f allow = Done r -> fr_exists r = true ->
  exists before c after, cs = before ++ c :: after /\ (forall x, In x after -> ex (fst x) = false)
    /\ ex (fst c) = true /\ r = result_of c 0 true.
Proof.
  intros C F E X. destruct (find_last_still ex f cs C F allow) as [A B].
  destruct (existsb (fun c => ex (fst c)) cs) eqn:Y.
  - assert (S : exists before c after, cs = before ++ c :: after /\ (forall x, In x after -> ex (fst x) = false) /\ ex (fst c) = true).
    { clear - Y. induction cs as [|c cs IH] using rev_ind; [discriminate|]. rewrite existsb_app in Y. cbn in Y.
      destruct (ex (fst c)) eqn:Z.
      - exists cs, c, []. split; auto. split; auto. intros ? [].
      - rewrite !orb_false_r in Y. destruct (IH Y) as (b & d & a & -> & H & G). exists b, d, (a ++ [c]).
        split; [now rewrite <- app_assoc|]. split; auto. intros x I. apply in_app_or in I as [I|[<-|[]]]; auto. }
    destruct S as (b & c & a & S & H & G). exists b, c, a. split; auto. split; auto. split; auto.
    pose proof (A b c a S H G). congruence.
  - assert (N : forall x, In x cs -> ex (fst x) = false).
    { intros x I. destruct (ex (fst x)) eqn:Z; auto. assert (existsb (fun c => ex (fst c)) cs = true) by (apply existsb_exists; eauto). congruence. }
    destruct (B N) as [B1 B2]. destruct allow; [|congruence].
    destruct (exists_last (candidates_nonempty f cs C F)) as (b & c & ->).
    rewrite (B2 c b eq_refl) in E. injection E as <-. discriminate.
Qed.

(** Folders added behind. *)
Lemma first_grows ex n es ds more allow allow' r : (forall e, In e es -> no_sep e) ->
  find_first (still ex) (mkf ds n es) allow = Done r -> fr_exists r = true ->
  find_first (still ex) (mkf (ds ++ more) n es) allow' = Done r.
Proof.
  intros S E X. destruct (candidates_exist (mkf ds n es) S) as [cs C]. destruct (candidates_exist (mkf more n es) S) as [cs' C'].
  assert (F : complete (mkf ds n es)).
  { split; intros Z; cbn in Z; subst; unfold find_first in E; cbn in E; [discriminate|]. destruct ds; discriminate. }
  destruct (find_first_exists ex _ cs allow r C F E X) as (b & c & a & -> & H & G & ->).
  apply (proj1 (find_first_still ex (mkf (ds ++ more) n es) _ (candidates_app n es ds more _ _ C C')
     (conj (fun Z => proj1 F (proj1 (app_eq_nil _ _ Z))) (proj2 F)) allow') b c (a ++ cs')); auto.
  now rewrite <- app_assoc.
Qed.
Lemma last_grows ex n es ds more allow allow' r : (forall e, In e es -> no_sep e) ->
  find_last (still ex) (mkf ds n es) allow = Done r -> fr_exists r = true ->
  find_last (still ex) (mkf (more ++ ds) n es) allow' = Done r.
Proof.
  intros S E X. destruct (candidates_exist (mkf ds n es) S) as [cs C]. destruct (candidates_exist (mkf more n es) S) as [cs' C'].
  assert (F : complete (mkf ds n es)).
  { split; intros Z; cbn in Z; subst; unfold find_last in E; cbn in E; [discriminate|]. destruct ds; discriminate. }
  destruct (find_last_exists ex _ cs allow r C F E X) as (b & c & a & -> & H & G & ->).
  apply (proj1 (find_last_still ex (mkf (more ++ ds) n es) _ (candidates_app n es more ds _ _ C' C)
     (conj (fun Z => proj1 F (proj2 (app_eq_nil _ _ Z))) (proj2 F)) allow') (cs' ++ b) c a); auto.
  now rewrite <- app_assoc.
Qed.

(** A search looks at nothing but its candidates. *)
Lemma first_flat_congr ex ex' allow cs : (forall c, In c cs -> forall t, ex t (fst c) = ex' t (fst c)) ->
  forall first t, first_flat ex allow cs first t = first_flat ex' allow cs first t.
Proof.
  induction cs as [|c cs IH]; intros H first t; cbn; auto. unfold fr_new.
  assert (G := H c (or_introl eq_refl)). rewrite !G. assert (H' : forall c, In c cs -> forall t, ex t (fst c) = ex' t (fst c)) by (intros; apply H; right; auto).
  destruct (ex' t (fst c)); auto. destruct (allow && _); auto.
Qed.
Lemma last_flat_congr ex ex' allow cs : (forall c, In c cs -> forall t, ex t (fst c) = ex' t (fst c)) ->
  forall st t, last_flat ex allow cs st t = last_flat ex' allow cs st t.
Proof.
  induction cs as [|c cs IH]; intros H st t; cbn; auto. unfold fr_new.
  assert (G := H c (or_introl eq_refl)). rewrite !G. assert (H' : forall c, In c cs -> forall t, ex t (fst c) = ex' t (fst c)) by (intros; apply H; right; auto).
  destruct (ex' t (fst c)); auto. destruct (allow && _); auto.
Qed.
Lemma all_flat_congr ex ex' oc allow cs : (forall c, In c cs -> forall t, ex t (fst c) = ex' t (fst c)) ->
  forall st t, all_flat ex oc allow cs st t = all_flat ex' oc allow cs st t.
Proof.
  induction cs as [|c cs IH]; intros H st t; cbn; auto.
  assert (G := H c (or_introl eq_refl)). rewrite !G. assert (H' : forall c, In c cs -> forall t, ex t (fst c) = ex' t (fst c)) by (intros; apply H; right; auto).
  destruct (allow || ex' t (fst c)); auto. destruct (u16_incr oc (snd st)); auto.
Qed.
Lemma aof_flat_congr ex ex' oc cs : (forall c, In c cs -> forall t, ex t (fst c) = ex' t (fst c)) ->
  forall files first i t, aof_flat ex oc cs files first i t = aof_flat ex' oc cs files first i t.
Proof.
  induction cs as [|c cs IH]; intros H files first i t; cbn; auto.
  assert (G := H c (or_introl eq_refl)). rewrite !G. assert (H' : forall c, In c cs -> forall t, ex t (fst c) = ex' t (fst c)) by (intros; apply H; right; auto).
  destruct (ex' t (fst c)); [destruct (u16_incr oc i); auto | destruct first; auto].
Qed.
Lemma searches_congr ex ex' oc f cs allow : candidates f cs ->
  (forall c, In c cs -> forall t, ex t (fst c) = ex' t (fst c)) ->
  find_first ex f allow = find_first ex' f allow /\ find_last ex f allow = find_last ex' f allow
  /\ find_all ex oc f allow = find_all ex' oc f allow /\ find_all_or_first ex oc f = find_all_or_first ex' oc f.
Proof.
  intros C H. destruct f as [ds n es]. unfold find_first, find_last, find_all, find_all_or_first. cbn.
  rewrite !(first_folders_flat _ allow n es ds cs C), !(last_folders_flat _ allow n es ds cs C),
    !(all_folders_flat _ oc allow n es ds cs C), !(aof_folders_flat _ oc n es ds cs C).
  rewrite (first_flat_congr ex ex' allow cs H), (last_flat_congr ex ex' allow cs H),
    (all_flat_congr ex ex' oc allow cs H), (aof_flat_congr ex ex' oc cs H).
  repeat split; reflexivity.
Qed.

Lemma all_flat_extends ex oc allow cs : forall files i t files' i' t',
  all_flat ex oc allow cs (files, i) t = Done ((files', i'), t') -> exists new, files' = files ++ new.
Proof.
  induction cs as [|c cs IH]; intros files i t files' i' t' E; cbn in E.
  - injection E as -> -> ->. exists []. now rewrite app_nil_r.
  - destruct (allow || ex t (fst c)).
    + destruct (u16_incr oc i); [|discriminate]. destruct (IH _ _ _ _ _ _ E) as [new ->].
      eexists. rewrite <- app_assoc. reflexivity.
    + eapply IH; eauto.
Qed.
Lemma all_grows ex oc n es ds more allow l l' : (forall e, In e es -> no_sep e) ->
  find_all ex oc (mkf ds n es) allow = Done l -> find_all ex oc (mkf (ds ++ more) n es) allow = Done l' ->
  exists new, l' = l ++ new.
Proof.
  intros S E E'. destruct (candidates_exist (mkf ds n es) S) as [cs C]. destruct (candidates_exist (mkf more n es) S) as [cs' C'].
  assert (F : complete (mkf ds n es)).
  { split; intros Z; cbn in Z; subst; unfold find_all in E; cbn in E; [discriminate|]. destruct ds; discriminate. }
  assert (F' : complete (mkf (ds ++ more) n es)) by exact (conj (fun Z => proj1 F (proj1 (app_eq_nil _ _ Z))) (proj2 F)).
  unfold find_all in E, E'. rewrite (validate_complete _ F) in E. rewrite (validate_complete _ F') in E'. cbn in E, E'.
  rewrite (all_folders_flat ex oc allow n es ds cs C) in E.
  rewrite (all_folders_flat ex oc allow n es _ _ (candidates_app n es ds more _ _ C C')), all_flat_app in E'.
  destruct (all_flat ex oc allow cs ([], 0%Z) 0) as [[[files i] t]|e|] eqn:A; [|discriminate..]. cbn in E, E'.
  destruct (all_flat ex oc allow cs' (files, i) t) as [[[files' i'] t']|e|] eqn:A'; [|discriminate..].
  destruct (all_flat_extends _ _ _ _ _ _ _ _ _ _ A') as [new ->]. cbn in E'.
  exists new. destruct files as [|x files]; cbn in E, E'; [discriminate|]. injection E as <-. now injection E' as <-.
Qed.

Lemma candidates_one d n es more cs cs' : candidates (mkf [d] n es) cs -> candidates (mkf [d] n more) cs' ->
  candidates (mkf [d] n (es ++ more)) (cs ++ cs').
Proof.
  unfold candidates. cbn. rewrite !app_nil_r, map_app. intros A B. now apply Forall2_app.
Qed.
Lemma first_grows_ext ex d n es more allow allow' r : (forall e, In e (es ++ more) -> no_sep e) ->
  find_first (still ex) (mkf [d] n es) allow = Done r -> fr_exists r = true ->
  find_first (still ex) (mkf [d] n (es ++ more)) allow' = Done r.
Proof.
  intros S E X. destruct (candidates_exist (mkf [d] n es)) as [cs C]; [intros; apply S, in_or_app; auto|].
  destruct (candidates_exist (mkf [d] n more)) as [cs' C']; [intros; apply S, in_or_app; auto|].
  assert (F : complete (mkf [d] n es)).
  { split; intros Z; cbn in Z; subst; unfold find_first in E; cbn in E; discriminate. }
  destruct (find_first_exists ex _ cs allow r C F E X) as (b & c & a & -> & H & G & ->).
  apply (proj1 (find_first_still ex (mkf [d] n (es ++ more)) _ (candidates_one d n es more _ _ C C')
     (conj (proj1 F) (fun Z => proj2 F (proj1 (app_eq_nil _ _ Z)))) allow') b c (a ++ cs')); auto.
  now rewrite <- app_assoc.
Qed.
