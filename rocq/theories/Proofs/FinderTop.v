(** The searches as a whole (C39-C48). *)
From Coq Require Import ZArith Bool String Lia List.
Import ListNotations.
From Verif.Model Require Import Text Value Paths Finder.
From Verif.Spec Require Import PathSpec FinderSpec.
From Verif.Proofs Require Import Basics PathLemmas FinderProofs.
Arguments Z.modulo : simpl never.

Lemma validate_complete f : complete f -> finder_validate f = Ok tt.
Proof. intros [A B]. unfold finder_validate. destruct (ff_folders f), (ff_exts f); try contradiction; auto. Qed.
Lemma eta_finder f : f = {| ff_folders := ff_folders f; ff_name := ff_name f; ff_exts := ff_exts f |}.
Proof. now destruct f. Qed.

Lemma incomplete_fails f ex oc allow : ~ complete f ->
  let e := match ff_folders f with [] => NoFoldersDefined | _ => NoExtensionsDefined end in
  find_first ex f allow = Fail e /\ find_last ex f allow = Fail e
  /\ find_all ex oc f allow = Fail e /\ find_all_or_first ex oc f = Fail e.
Proof.
  intros N e. assert (V : finder_validate f = Err e).
  { unfold finder_validate, e. unfold complete in N. destruct (ff_folders f), (ff_exts f); auto.
    exfalso; apply N; split; discriminate. }
  unfold find_first, find_last, find_all, find_all_or_first. rewrite V. auto.
Qed.

Section Oracle.
Variable ex : fs_oracle.
Variable f : finder.
Variable cs : list cand.
Hypothesis HC : candidates f cs.
Hypothesis HF : complete f.

Lemma find_first_oracle (allow : bool) :
  (exists before c after ts tc te, cs = before ++ c :: after /\ observed ex before ts []
     /\ increasing 0 (ts ++ [tc; te]) /\ ex tc (fst c) = true
     /\ find_first ex f allow = Done (result_of c 0 (ex te (fst c))))
  \/ (exists ts, observed ex cs ts [] /\ increasing 0 ts /\
        if allow then exists c rest te, cs = c :: rest /\ find_first ex f allow = Done (result_of c 0 (ex te (fst c)))
        else find_first ex f allow = Fail NoFilesFound).
Proof.
  unfold find_first. rewrite (validate_complete f HF). cbn [of_result obind].
  rewrite (first_folders_flat ex allow (ff_name f) (ff_exts f) (ff_folders f) cs) by (rewrite <- eta_finder; auto).
  cbn [obind]. assert (S := first_flat_spec ex allow cs None 0).
  destruct (fst (first_flat ex allow cs None 0)) as [r|first'].
  - left. destruct S as (b & c & a & ts & tc & te & E & O & I & X & ->). exists b, c, a, ts, tc, te. auto.
  - right. destruct S as (ts & O & I & H). exists ts. split; auto. split; auto.
    assert (NE := candidates_nonempty f cs HC HF).
    destruct allow; auto. destruct cs as [|c rest]; [contradiction|]. destruct H as [te ->]. exists c, rest, te. auto.
Qed.

Lemma find_last_oracle (allow : bool) :
  (exists before c after tsb found tc te tsa, cs = before ++ c :: after
     /\ observed ex before tsb found /\ observed ex after tsa [] /\ increasing 0 (tsb ++ tc :: te :: tsa)
     /\ ex tc (fst c) = true /\ find_last ex f allow = Done (result_of c 0 (ex te (fst c))))
  \/ (exists ts, observed ex cs ts [] /\ increasing 0 ts /\
        if allow then exists before c te, cs = before ++ [c] /\ find_last ex f allow = Done (result_of c 0 (ex te (fst c)))
        else find_last ex f allow = Fail NoFilesFound).
Proof.
  unfold find_last. rewrite (validate_complete f HF). cbn [of_result obind].
  rewrite (last_folders_flat ex allow (ff_name f) (ff_exts f) (ff_folders f) cs) by (rewrite <- eta_finder; auto).
  cbn [obind]. destruct (last_flat ex allow cs (None, None) 0) as [[lf lr] t'] eqn:E. cbn [fst].
  apply last_flat_spec in E as [(b & c & a & tsb & fo & tc & te & tsa & E & O & O' & I & X & ->)|(ts & O & I & -> & H)].
  - left. exists b, c, a, tsb, fo, tc, te, tsa. auto 10.
  - right. exists ts. split; auto. split; auto.
    assert (NE := candidates_nonempty f cs HC HF).
    destruct allow; [|now destruct lr]. destruct cs as [|c0 rest]; [contradiction|].
    destruct H as (b & c & te & -> & ->). exists b, c, te. auto.
Qed.

Lemma find_all_oracle (oc allow : bool) : exists (ts : list nat) (sel : list cand) (l : list find_result),
  (if allow then sel = cs else observed ex cs ts sel /\ increasing 0 ts) /\ numbered ex sel l
  /\ (sel = [] -> find_all ex oc f allow = Fail NoFilesFound)
  /\ (sel <> [] -> oc = false \/ (Z.of_nat (List.length (sel)) <= 65535)%Z -> find_all ex oc f allow = Done l)
  /\ (oc = true -> (65536 <= Z.of_nat (List.length (sel)))%Z -> find_all ex oc f allow = Panic).
Proof.
  unfold find_all. rewrite (validate_complete f HF). cbn [of_result obind].
  rewrite (all_folders_flat ex oc allow (ff_name f) (ff_exts f) (ff_folders f) cs) by (rewrite <- eta_finder; auto).
  destruct (all_flat_wrap ex allow cs [] 0 0) as (ts & sel & l & t' & E & D & H); [lia|].
  change (0 mod 65536)%Z with 0%Z in E. cbn [app] in E.
  assert (K := all_flat_checked ex allow cs [] 0 0). rewrite E in K. destruct K as (new & En & K); [lia|]. cbn [app] in En; subst new.
  assert (N := described_numbered0 ex sel l D). exists ts, sel, l. split; auto. split; auto.
  assert (L := proj1 N). split; [|split].
  - intros ->. destruct l; [|discriminate]. cbn in K. destruct oc; [rewrite K | rewrite E]; reflexivity.
  - intros NE B. assert (X : all_flat ex oc allow cs ([], 0%Z) 0 = Done (l, ((0 + Z.of_nat (List.length l)) mod 65536)%Z, t')).
    { destruct oc; [rewrite K | exact E]. destruct B as [|B]; [discriminate|].
      destruct (Z.leb_spec (0 + Z.of_nat (List.length l)) 65535); [reflexivity | exfalso; lia]. }
    rewrite X. cbn [obind fst]. destruct l; [destruct sel; [contradiction | discriminate] | reflexivity].
  - intros -> B. rewrite K. destruct (Z.leb_spec (0 + Z.of_nat (List.length l)) 65535); [exfalso; lia | reflexivity].
Qed.

Lemma find_aof_oracle oc : exists (ts : list nat) (sel : list cand) (l : list find_result),
  observed ex cs ts sel /\ increasing 0 ts /\ numbered ex sel l
  /\ (sel = [] -> exists c rest te, cs = c :: rest /\ find_all_or_first ex oc f = Done [result_of c 0 (ex te (fst c))])
  /\ (sel <> [] -> oc = false \/ (Z.of_nat (List.length (sel)) <= 65535)%Z -> find_all_or_first ex oc f = Done l)
  /\ (oc = true -> (65536 <= Z.of_nat (List.length (sel)))%Z -> find_all_or_first ex oc f = Panic).
Proof.
  unfold find_all_or_first. rewrite (validate_complete f HF). cbn [of_result obind].
  rewrite (aof_folders_flat ex oc (ff_name f) (ff_exts f) (ff_folders f) cs) by (rewrite <- eta_finder; auto).
  destruct (aof_flat_wrap ex cs [] None 0 0) as (ts & sel & l & first' & t' & E & D & O & I & H); [lia|].
  change (0 mod 65536)%Z with 0%Z in E. cbn [app] in E.
  assert (K := aof_flat_checked ex cs [] None 0 0). rewrite E in K. destruct K as (new & En & K); [lia|]. cbn [app] in En; subst new.
  assert (N := described_numbered0 ex sel l D). exists ts, sel, l. do 3 (split; auto).
  assert (L := proj1 N). split; [|split].
  - intros ->. destruct l; [|discriminate]. cbn in K. specialize (H eq_refl).
    assert (NE := candidates_nonempty f cs HC HF).
    destruct cs as [|c rest]; [contradiction|]. destruct H as [te ->]. exists c, rest, te. split; auto.
    destruct oc; [rewrite K | rewrite E]; reflexivity.
  - intros NE B. assert (X : aof_flat ex oc cs [] None 0%Z 0 = Done (l, first', ((0 + Z.of_nat (List.length l)) mod 65536)%Z, t')).
    { destruct oc; [rewrite K | exact E]. destruct B as [|B]; [discriminate|].
      destruct (Z.leb_spec (0 + Z.of_nat (List.length l)) 65535); [reflexivity | exfalso; lia]. }
    rewrite X. cbn [obind fst]. destruct l; [destruct sel; [contradiction | discriminate] | reflexivity].
  - intros -> B. rewrite K. destruct (Z.leb_spec (0 + Z.of_nat (List.length l)) 65535); [exfalso; lia | reflexivity].
Qed.
End Oracle.

(** ** A file system that stands still *)
Definition present (ex : path -> bool) (c : cand) : bool := ex (fst c).
Lemma observed_still ex cs ts sel : observed (still ex) cs ts sel -> sel = filter (present ex) cs.
Proof.
  unfold present. induction 1 as [|c t cs ts fo H O IH|c t cs ts fo H O IH]; cbn; auto; unfold still in H; rewrite H; now f_equal.
Qed.
Lemma filter_nil_iff {A} (p : A -> bool) l : filter p l = [] <-> forall x, In x l -> p x = false.
Proof.
  induction l as [|a l IH]; cbn; [intuition|]. destruct (p a) eqn:E.
  - split; [discriminate|]. intros H. rewrite (H a) in E; auto; discriminate.
  - rewrite IH. split; [intros H x [<-|]; auto | auto].
Qed.
Lemma first_split {A} (p : A -> bool) b1 c1 a1 b2 c2 a2 : b1 ++ c1 :: a1 = b2 ++ c2 :: a2 ->
  (forall x, In x b1 -> p x = false) -> (forall x, In x b2 -> p x = false) -> p c1 = true -> p c2 = true -> c1 = c2.
Proof.
  revert b2. induction b1 as [|x b1 IH]; intros [|y b2] E H1 H2 P1 P2; cbn in E; injection E as -> E; auto.
  - rewrite (H2 _ (or_introl eq_refl)) in P1. discriminate.
  - rewrite (H1 _ (or_introl eq_refl)) in P2. discriminate.
  - eapply IH; eauto; intros; [apply H1 | apply H2]; right; auto.
Qed.
Lemma last_split {A} (p : A -> bool) b1 c1 a1 b2 c2 a2 : b1 ++ c1 :: a1 = b2 ++ c2 :: a2 ->
  (forall x, In x a1 -> p x = false) -> (forall x, In x a2 -> p x = false) -> p c1 = true -> p c2 = true -> c1 = c2.
Proof.
  intros E H1 H2. apply (f_equal (@rev _)) in E. rewrite !rev_app_distr in E. cbn in E. rewrite <- !app_assoc in E.
  cbn in E. eapply first_split; [exact E | |]; intros x I; apply in_rev in I; auto.
Qed.

Section Still.
Variable ex : path -> bool.
Variable f : finder.
Variable cs : list cand.
Hypothesis HC : candidates f cs.
Hypothesis HF : complete f.

Lemma find_first_still allow :
  (forall before c after, cs = before ++ c :: after -> (forall x, In x before -> ex (fst x) = false) ->
     ex (fst c) = true -> find_first (still ex) f allow = Done (result_of c 0 true))
  /\ ((forall x, In x cs -> ex (fst x) = false) ->
       find_first (still ex) f false = Fail NoFilesFound
       /\ forall c rest, cs = c :: rest -> find_first (still ex) f true = Done (result_of c 0 false)).
Proof.
  split.
  - intros b c a E M P.
    destruct (find_first_oracle (still ex) f cs HC HF allow) as [(b' & c' & a' & ts & tc & te & E' & O & _ & X & R)|(ts & O & _)].
    + apply observed_still in O. symmetry in O. rewrite filter_nil_iff in O.
      assert (c' = c) by (eapply (first_split (present ex)); [rewrite <- E', <- E; reflexivity | auto..]).
      subst c'. rewrite R. unfold still. now rewrite P.
    + apply observed_still in O. symmetry in O. rewrite filter_nil_iff in O.
      assert (Q := O c); unfold present in Q; rewrite Q in P; [discriminate|]. rewrite E. apply in_or_app; cbn; auto.
  - intros M. assert (G : bool -> ~ exists b c a, cs = b ++ c :: a /\ ex (fst c) = true).
    { intros _ (b & c & a & E & X). rewrite (M c) in X; [discriminate|]. rewrite E. apply in_or_app; cbn; auto. }
    split.
    + destruct (find_first_oracle (still ex) f cs HC HF false) as [(b' & c' & a' & ts & tc & te & E' & O & _ & X & R)|(ts & O & _ & R)]; auto.
      exfalso; apply (G true); eauto.
    + intros c rest E.
      destruct (find_first_oracle (still ex) f cs HC HF true) as [(b' & c' & a' & ts & tc & te & E' & O & _ & X & R)|(ts & O & _ & c' & r' & te & E' & R)].
      * exfalso; apply (G true); eauto.
      * rewrite R. assert (c' = c) by congruence. subst. unfold still. rewrite M; [reflexivity | left; auto].
Qed.

Lemma find_last_still allow :
  (forall before c after, cs = before ++ c :: after -> (forall x, In x after -> ex (fst x) = false) ->
     ex (fst c) = true -> find_last (still ex) f allow = Done (result_of c 0 true))
  /\ ((forall x, In x cs -> ex (fst x) = false) ->
       find_last (still ex) f false = Fail NoFilesFound
       /\ forall c before, cs = before ++ [c] -> find_last (still ex) f true = Done (result_of c 0 false)).
Proof.
  split.
  - intros b c a E M P.
    destruct (find_last_oracle (still ex) f cs HC HF allow) as [(b' & c' & a' & tsb & fo & tc & te & tsa & E' & O & O' & _ & X & R)|(ts & O & _)].
    + apply observed_still in O'. symmetry in O'. rewrite filter_nil_iff in O'.
      assert (c' = c) by (eapply (last_split (present ex)); [rewrite <- E', <- E; reflexivity | auto..]).
      subst c'. rewrite R. unfold still. now rewrite P.
    + apply observed_still in O. symmetry in O. rewrite filter_nil_iff in O.
      assert (Q := O c); unfold present in Q; rewrite Q in P; [discriminate|]. rewrite E. apply in_or_app; cbn; auto.
  - intros M. assert (G : ~ exists b c a, cs = b ++ c :: a /\ ex (fst c) = true).
    { intros (b & c & a & E & X). rewrite (M c) in X; [discriminate|]. rewrite E. apply in_or_app; cbn; auto. }
    split.
    + destruct (find_last_oracle (still ex) f cs HC HF false) as [(b' & c' & a' & tsb & fo & tc & te & tsa & E' & O & O' & _ & X & R)|(ts & O & _ & R)]; auto.
      exfalso; apply G; eauto.
    + intros c rest E.
      destruct (find_last_oracle (still ex) f cs HC HF true) as [(b' & c' & a' & tsb & fo & tc & te & tsa & E' & O & O' & _ & X & R)|(ts & O & _ & b' & c' & te & E' & R)].
      * exfalso; apply G; eauto.
      * rewrite R. rewrite E in E'. apply app_inj_tail in E' as [_ <-]. unfold still. rewrite M; [reflexivity|].
        rewrite E. apply in_or_app; cbn; auto.
Qed.

(** The existing candidates, or all of them. *)
Definition selected (allow : bool) : list cand := if allow then cs else filter (present ex) cs.

Lemma find_all_still oc allow : exists l, numbered (still ex) (selected allow) l
  /\ (selected allow = [] -> find_all (still ex) oc f allow = Fail NoFilesFound)
  /\ (selected allow <> [] -> oc = false \/ (Z.of_nat (List.length (selected allow)) <= 65535)%Z ->
        find_all (still ex) oc f allow = Done l)
  /\ (oc = true -> (65536 <= Z.of_nat (List.length (selected allow)))%Z -> find_all (still ex) oc f allow = Panic).
Proof.
  destruct (find_all_oracle (still ex) f cs HC HF oc allow) as (ts & sel & l & H & N & A & B & C).
  assert (E : sel = selected allow).
  { unfold selected. destruct allow; auto. destruct H as [O _]. now apply observed_still in O. }
  rewrite <- E. exists l. auto.
Qed.
Lemma find_aof_still oc : exists l, numbered (still ex) (filter (present ex) cs) l
  /\ (filter (present ex) cs = [] -> exists c rest, cs = c :: rest /\
        find_all_or_first (still ex) oc f = Done [result_of c 0 false])
  /\ (filter (present ex) cs <> [] -> oc = false \/ (Z.of_nat (List.length (filter (present ex) cs)) <= 65535)%Z ->
        find_all_or_first (still ex) oc f = Done l)
  /\ (oc = true -> (65536 <= Z.of_nat (List.length (filter (present ex) cs)))%Z -> find_all_or_first (still ex) oc f = Panic).
Proof.
  destruct (find_aof_oracle (still ex) f cs HC HF oc) as (ts & sel & l & O & _ & N & A & B & C).
  assert (E : sel = filter (present ex) cs) by now apply observed_still in O.
  rewrite <- E. exists l. repeat split; auto; [apply N..|]. intros Z0. destruct (A Z0) as (c & rest & te & Ec & R).
  exists c, rest. split; auto. rewrite R. unfold still. rewrite Z0 in E. symmetry in E. rewrite filter_nil_iff in E.
  assert (X := E c). unfold present in X. rewrite X; [reflexivity|]. rewrite Ec. left; auto.
Qed.
End Still.
