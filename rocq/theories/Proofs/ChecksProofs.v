(** When searches panic and how much they look (C116). *)
From Coq Require Import ZArith Bool String Lia.
From Coq Require Import List.
Import ListNotations.
From Verif.Model Require Import Text Value Paths Finder Checks.
From Verif.Spec Require Import PathSpec FinderSpec.
From Verif.Proofs Require Import Basics PathLemmas FinderProofs FinderTop FinderMore.
Local Open Scope nat_scope.

Lemma sep_dec e : no_sep e \/ ~ no_sep e.
Proof. unfold no_sep. destruct (in_dec Z.eq_dec SEP e); tauto. Qed.
Lemma seps_dec es : (forall e, In e es -> no_sep e) \/ exists good bad rest, es = good ++ bad :: rest /\ ~ no_sep bad /\ forall e, In e good -> no_sep e.
Proof.
  induction es as [|e es [H|(g & b & r & -> & B & G)]].
  - left. intros ? [].
  - destruct (sep_dec e) as [E|E]; [left; intros x [<-|X]; auto | right; exists [], e, es; split; auto; split; auto; intros ? []].
  - right. destruct (sep_dec e) as [E|E].
    + exists (e :: g), b, r. split; auto. split; auto. intros x [<-|X]; auto.
    + exists [], e, (g ++ b :: r). split; auto. split; auto. intros ? [].
Qed.

Section P.
Variable ex : fs_oracle.
Lemma first_exts_bad allow base good bad rest : ~ no_sep bad -> (forall e, In e good -> no_sep e) -> forall first t,
  find_first_exts ex allow base (good ++ bad :: rest) first t =
  match find_first_exts ex allow base good first t with
  | Done (Return r, t') => Done (Return r, t')
  | _ => Panic
  end.
Proof.
  intros B. induction good as [|e good IH]; intros G first t; cbn [app find_first_exts].
  - now rewrite with_extension_sep.
  - destruct (with_extension_total base e) as [p ->]; [apply G; cbn; auto|].
    destruct (ex t p); [reflexivity|]. destruct (allow && _); cbn [fr_new]; apply IH; intros; apply G; cbn; auto.
Qed.
Lemma last_exts_bad allow base exts bad : In bad exts -> ~ no_sep bad -> forall st t, find_last_exts ex allow base exts st t = Panic.
Proof.
  intros I B. induction exts as [|e exts IH]; intros st t; [destruct I|]. cbn [find_last_exts].
  destruct (with_extension base e) as [p|] eqn:E; [|reflexivity].
  destruct I as [<-|I]; [rewrite with_extension_sep in E; [discriminate | auto]|].
  destruct (ex t p); [apply IH; auto|]. destruct (allow && _); apply IH; auto.
Qed.
Lemma all_exts_bad oc allow base exts bad : In bad exts -> ~ no_sep bad -> forall st t, find_all_exts ex oc allow base exts st t = Panic.
Proof.
  intros I B. induction exts as [|e exts IH]; intros st t; [destruct I|]. cbn [find_all_exts].
  destruct (with_extension base e) as [p|] eqn:E; [|reflexivity].
  destruct I as [<-|I]; [rewrite with_extension_sep in E; [discriminate | auto]|].
  destruct (allow || ex t p); [|apply IH; auto]. cbn [fr_new]. destruct (u16_incr oc (snd st)); [apply IH; auto | reflexivity].
Qed.
Lemma aof_exts_bad oc base exts bad : In bad exts -> ~ no_sep bad -> forall files first i t, find_aof_exts ex oc base exts files first i t = Panic.
Proof.
  intros I B. induction exts as [|e exts IH]; intros files first i t; [destruct I|]. cbn [find_aof_exts].
  destruct (with_extension base e) as [p|] eqn:E; [|reflexivity].
  destruct I as [<-|I]; [rewrite with_extension_sep in E; [discriminate | auto]|].
  destruct (ex t p); [cbn [fr_new]; destruct (u16_incr oc i); [apply IH; auto | reflexivity]|]. destruct first; cbn [fr_new]; apply IH; auto.
Qed.
End P.

Lemma incomplete_no_panic ex oc f allow : ~ complete f ->
  find_first ex f allow <> Panic /\ find_last ex f allow <> Panic /\ find_all ex oc f allow <> Panic /\ find_all_or_first ex oc f <> Panic.
Proof.
  intros N. unfold find_first, find_last, find_all, find_all_or_first, finder_validate.
  destruct (ff_folders f) eqn:D; [repeat split; discriminate|]. destruct (ff_exts f) eqn:E; [repeat split; discriminate|].
  exfalso. apply N. split; congruence.
Qed.
Lemma complete_dec f : complete f \/ ~ complete f.
Proof. unfold complete. destruct (ff_folders f), (ff_exts f); (left; split; discriminate) || (right; tauto). Qed.

Lemma first_panics ex f allow : find_first (still ex) f allow = Panic <->
  exists d ds good bad rest, ff_folders f = d :: ds /\ ff_exts f = good ++ bad :: rest /\ ~ no_sep bad
    /\ forall e, In e good -> no_sep e /\ forall p, with_extension (path_join d (ff_name f)) e = Some p -> ex p = false.
Proof.
  destruct (complete_dec f) as [C|C].
  2: { split; [intros H; destruct (proj1 (incomplete_no_panic (still ex) true f allow C) H)|].
       intros (d & ds & g & b & r & D & E & _). exfalso. apply C. split; [congruence|]. rewrite E. destruct g; discriminate. }
  unfold find_first. rewrite (validate_complete f C). cbn [of_result obind]. destruct C as [C1 C2].
  assert (F : forall base good first t, (forall e, In e good -> no_sep e) ->
     (exists r t', find_first_exts (still ex) allow base good first t = Done (Return r, t')
        /\ exists e p, In e good /\ with_extension base e = Some p /\ ex p = true)
     \/ (exists s t', find_first_exts (still ex) allow base good first t = Done (Next s, t')
        /\ forall e p, In e good -> with_extension base e = Some p -> ex p = false)).
  { intros base good. induction good as [|e good IH]; intros first t G; cbn [find_first_exts].
    - right. do 2 eexists. split; [reflexivity|]. intros ? ? [].
    - destruct (with_extension_total base e) as [p Ep]; [apply G; cbn; auto|]. rewrite Ep. change (still ex t p) with (ex p). destruct (ex p) eqn:X.
      + left. do 2 eexists. split; [reflexivity|]. exists e, p. cbn; auto.
      + cbn [fr_new].
        assert (K : forall first' t', (exists r t2, find_first_exts (still ex) allow base good first' t' = Done (Return r, t2)
            /\ exists e0 p0, In e0 (e :: good) /\ with_extension base e0 = Some p0 /\ ex p0 = true)
          \/ (exists s t2, find_first_exts (still ex) allow base good first' t' = Done (Next s, t2)
            /\ forall e0 p0, In e0 (e :: good) -> with_extension base e0 = Some p0 -> ex p0 = false)).
        { intros first' t'. destruct (IH first' t') as [(r & t2 & E & e0 & p0 & I & W & Y)|(s & t2 & E & Y)]; [intros; apply G; cbn; auto| |].
          - left. exists r, t2. split; auto. exists e0, p0. cbn; auto.
          - right. exists s, t2. split; auto. intros e0 p0 [<-|I] W; [congruence | eauto]. }
        destruct (allow && _); apply K. }
  destruct (ff_folders f) as [|d ds] eqn:D; [contradiction|].
  destruct (seps_dec (ff_exts f)) as [G|(g & b & r & E & B & G)].
  - split.
    + assert (P : forall ds first t, find_first_folders (still ex) allow (ff_name f) (ff_exts f) ds first t <> Panic).
      { clear - F G. induction ds as [|d ds IH]; intros first t; cbn [find_first_folders]; [discriminate|].
        destruct (F (path_join d (ff_name f)) (ff_exts f) first t G) as [(r & t' & -> & _)|(s & t' & -> & _)]; cbn [obind]; [discriminate | apply IH]. }
      intros H. specialize (P (d :: ds) None 0). destruct (find_first_folders _ _ _ _ (d :: ds) None 0) as [[[r|first] t]| |]; cbn in H; try congruence.
      destruct allow; [destruct first|]; discriminate.
    + intros (d0 & ds0 & g & b & r & _ & E & B & _). exfalso. apply B, G. rewrite E. apply in_or_app. cbn; auto.
  - rewrite E. cbn [find_first_folders]. rewrite first_exts_bad by auto.
    destruct (F (path_join d (ff_name f)) g None 0 G) as [(r0 & t' & -> & e & p & I & W & X)|(s & t' & -> & X)]; cbn [obind fst].
    + split; [discriminate|]. intros (d0 & ds0 & g0 & b0 & r1 & Ed & E0 & B0 & H). injection Ed as <- <-. exfalso.
      assert (Ig : In e g0).
      { destruct (in_split _ _ I) as (g1 & g2 & ->). clear - E0 B0 B G H. revert g0 E0 H. induction g1 as [|x g1 IH]; intros [|y g0] E0 H; cbn in *.
        - injection E0 as -> _. destruct (B0 (G _ (or_introl eq_refl))).
        - injection E0 as -> _. auto.
        - injection E0 as -> _. destruct (B0 (G _ (or_introl eq_refl))).
        - injection E0 as -> E0. right. apply IH; auto. }
      rewrite (proj2 (H e Ig) p W) in X. discriminate.
    + split; [|reflexivity]. intros _. exists d, ds, g, b, r. split; auto. split; auto. split; auto. intros e I. split; auto. intros p W. eapply X; eauto.
Qed.

Lemma last_panics ex f allow : find_last ex f allow = Panic <-> ff_folders f <> [] /\ exists bad, In bad (ff_exts f) /\ ~ no_sep bad.
Proof.
  destruct (complete_dec f) as [C|C].
  2: { split; [intros H; destruct (proj1 (proj2 (incomplete_no_panic ex true f allow C)) H)|].
       intros (D & b & I & _). exfalso. apply C. split; auto. intros E. rewrite E in I. destruct I. }
  unfold find_last. rewrite (validate_complete f C). cbn [of_result obind]. destruct C as [C1 C2].
  destruct (seps_dec (ff_exts f)) as [G|(g & b & r & E & B & G)].
  - split; [|intros (_ & b & I & B); destruct (B (G b I))].
    destruct (candidates_exist f G) as [cs HC]. destruct f as [ds n es]. rewrite (last_folders_flat ex allow n es ds cs HC).
    destruct (last_flat ex allow cs (None, None) 0) as [[[r|] [l|]] t]; cbn; try discriminate; destruct allow; discriminate.
  - split; [|intros _].
    + intros _. split; auto. exists b. split; auto. rewrite E. apply in_or_app; cbn; auto.
    + destruct (ff_folders f) as [|d ds]; [contradiction|]. cbn [find_last_folders]. rewrite (last_exts_bad ex allow _ (ff_exts f) b); auto.
      rewrite E. apply in_or_app; cbn; auto.
Qed.
Lemma lists_panic_bad ex oc f allow bad : complete f -> In bad (ff_exts f) -> ~ no_sep bad ->
  find_all ex oc f allow = Panic /\ find_all_or_first ex oc f = Panic.
Proof.
  intros C I B. unfold find_all, find_all_or_first. rewrite (validate_complete f C). cbn [of_result obind]. destruct C as [C1 _].
  destruct (ff_folders f) as [|d ds]; [contradiction|]. cbn [find_all_folders find_aof_folders].
  rewrite (all_exts_bad ex oc allow _ (ff_exts f) bad), (aof_exts_bad ex oc _ (ff_exts f) bad) by auto. auto.
Qed.

(** ** Numbers of checks *)
Definition hits (ex : path -> bool) (cs : list cand) : nat := List.length (filter (fun c => ex (fst c)) cs).
Lemma hits_le ex cs : (hits ex cs <= List.length cs)%nat.
Proof. unfold hits. induction cs as [|c cs IH]; cbn; [lia|]. destruct (ex (fst c)); cbn; lia. Qed.

Lemma first_count_none ex allow cs : (forall c, In c cs -> ex (fst c) = false) -> forall first t,
  snd (first_flat (still ex) allow cs first t) = (t + List.length cs + match first, cs with None, _ :: _ => if allow then 1 else 0 | _, _ => 0 end)%nat.
Proof.
  induction cs as [|c cs IH]; intros N first t; cbn [first_flat]; [cbn; destruct first; lia|].
  unfold still at 1. rewrite (N c) by (cbn; auto).
  assert (IH' := IH (fun c' H => N c' (or_intror H))). destruct first as [r|]; [rewrite andb_false_r | rewrite andb_true_r].
  - rewrite IH'. cbn. lia.
  - destruct allow; rewrite IH'; cbn; destruct cs; cbn; lia.
Qed.
Lemma first_count_hit ex allow before c after : (forall x, In x before -> ex (fst x) = false) -> ex (fst c) = true -> forall first t,
  snd (first_flat (still ex) allow (before ++ c :: after) first t) =
  (t + List.length before + 2 + match first, before with None, _ :: _ => if allow then 1 else 0 | _, _ => 0 end)%nat.
Proof.
  induction before as [|b before IH]; intros N X first t; cbn [app first_flat].
  - unfold still at 1. rewrite X. cbn. destruct first; lia.
  - unfold still at 1. rewrite (N b) by (cbn; auto).
    assert (IH' := IH (fun c' H => N c' (or_intror H)) X). destruct first as [r|]; [rewrite andb_false_r | rewrite andb_true_r].
    + rewrite IH'. cbn. lia.
    + destruct allow; rewrite IH'; cbn; destruct before; cbn; lia.
Qed.
Lemma last_count ex allow cs : forall st t, snd (last_flat (still ex) allow cs st t) =
  (t + List.length cs + hits ex cs + match fst st with Some _ => 0 | None => if allow then
     (fix misses cs := match cs with [] => 0 | c :: r => if ex (fst c) then 0 else S (misses r) end) cs else 0 end)%nat.
Proof.
  induction cs as [|c cs IH]; intros [lf lr] t; cbn [last_flat fst snd].
  - destruct lf; cbn; [lia|]. destruct allow; lia.
  - change (still ex t (fst c)) with (ex (fst c)). unfold hits in *. cbn [filter]. destruct (ex (fst c)) eqn:X; [rewrite IH; cbn; destruct lf; [lia|]; destruct allow; lia|].
    destruct lf as [r|]; [rewrite andb_false_r; rewrite IH; cbn; lia|]. rewrite andb_true_r. destruct allow; rewrite IH; cbn; lia.
Qed.
Lemma all_count ex allow cs : forall st t x, all_flat (still ex) false allow cs st t = Done x ->
  snd x = (t + List.length cs + if allow then 0 else hits ex cs)%nat.
Proof.
  induction cs as [|c cs IH]; intros st t x E; cbn [all_flat] in E.
  - injection E as <-. cbn. destruct allow; lia.
  - change (still ex t (fst c)) with (ex (fst c)) in E. unfold hits in *. cbn [filter List.length]. destruct allow; cbn [orb] in E.
    + destruct (u16_incr false (snd st)); [|discriminate]. rewrite (IH _ _ _ E). lia.
    + destruct (ex (fst c)); [destruct (u16_incr false (snd st)); [|discriminate]|]; rewrite (IH _ _ _ E); cbn; lia.
Qed.
Lemma aof_count ex cs : forall files first i t x, aof_flat (still ex) false cs files first i t = Done x ->
  snd x = (t + List.length cs + hits ex cs + match first with Some _ => 0 | None => if forallb (fun c => ex (fst c)) cs then 0 else 1 end)%nat.
Proof.
  induction cs as [|c cs IH]; intros files first i t x E; cbn [aof_flat] in E.
  - injection E as <-. cbn. destruct first; lia.
  - change (still ex t (fst c)) with (ex (fst c)) in E. unfold hits in *. cbn [filter List.length forallb].
    destruct (ex (fst c)); cbn [andb].
    + destruct (u16_incr false i); [|discriminate]. rewrite (IH _ _ _ _ _ E). cbn. lia.
    + destruct first as [r|]; rewrite (IH _ _ _ _ _ E); cbn; lia.
Qed.
