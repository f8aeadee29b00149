(** C116: when searches panic, and how much they look at the file system. *)
From Coq Require Import ZArith Bool String Lia.
From Coq Require Import List.
Import ListNotations.
From Verif.Model Require Import Text Value Paths Finder Checks.
From Verif.Spec Require Import PathSpec FinderSpec.
From Verif.Proofs Require Import Basics PathLemmas FinderProofs FinderTop FinderMore ChecksProofs.
Local Open Scope nat_scope.

(** find_first panics exactly if an extension with a separator is reached: none
    of the candidates before it, all in the first folder, exists. *)
Theorem C116_find_first_panics_exactly : forall ex f allow, find_first (still ex) f allow = Panic <->
  exists d ds good bad rest, ff_folders f = d :: ds /\ ff_exts f = good ++ bad :: rest /\ ~ no_sep bad
    /\ forall e, In e good -> no_sep e /\ forall p, with_extension (path_join d (ff_name f)) e = Some p -> ex p = false.
Proof. exact first_panics. Qed.
Print Assumptions C116_find_first_panics_exactly.

(** find_last panics exactly if any extension has a separator, whatever exists. *)
Theorem C116_find_last_panics_exactly : forall ex f allow,
  find_last ex f allow = Panic <-> ff_folders f <> [] /\ exists bad, In bad (ff_exts f) /\ ~ no_sep bad.
Proof. exact last_panics. Qed.
Print Assumptions C116_find_last_panics_exactly.

(** The searches for lists also if, with overflow checks, there are more than
    65535 results. *)
Theorem C116_find_all_panics_exactly : forall ex oc f allow, find_all (still ex) oc f allow = Panic <->
  ff_folders f <> [] /\
  ((exists bad, In bad (ff_exts f) /\ ~ no_sep bad)
   \/ oc = true /\ exists cs, candidates f cs
        /\ (65536 <= Z.of_nat (List.length (if allow then cs else filter (fun c => ex (fst c)) cs)))%Z).
Proof.
  intros ex oc f allow. destruct (complete_dec f) as [C|C].
  2: { split; [intros H; destruct (proj1 (proj2 (proj2 (incomplete_no_panic (still ex) oc f allow C))) H)|].
       intros (D & [(b & I & _)|(_ & cs & HC & L)]); exfalso; apply C; split; auto; intros E; [rewrite E in I; destruct I|].
       apply candidates_length in HC. rewrite E in HC. cbn in HC. rewrite Nat.mul_0_r in HC. destruct cs; [|discriminate].
       destruct allow; cbn in L; lia. }
  destruct (seps_dec (ff_exts f)) as [G|(g & b & r & E & B & G)].
  - destruct (candidates_exist f G) as [cs HC]. destruct (find_all_still ex f cs HC C oc allow) as (l & N & H1 & H2 & H3).
    change (selected ex cs allow) with (if allow then cs else filter (fun c : cand => ex (fst c)) cs) in *.
    set (sel := if allow then cs else filter (fun c : cand => ex (fst c)) cs) in *. split.
    + intros P. split; [apply C|]. right. destruct sel as [|c0 s0] eqn:Es; [rewrite H1 in P; [discriminate | auto]|]. rewrite <- Es in *.
      destruct oc; [|rewrite H2 in P; [discriminate | congruence | auto]]. split; auto. exists cs. split; auto. change (65536 <= Z.of_nat (List.length sel))%Z.
      destruct (Z_le_gt_dec (Z.of_nat (List.length sel)) 65535) as [L|L]; [rewrite H2 in P; [discriminate | congruence | auto] | lia].
    + intros (_ & [(b & I & B)|(-> & cs' & HC' & L)]); [destruct (B (G b I))|]. apply H3; auto.
      rewrite (candidates_fun f cs' cs HC' HC) in L. exact L.
  - split; [|intros _].
    + intros _. split; [apply C|]. left. exists b. split; auto. rewrite E. apply in_or_app; cbn; auto.
    + apply (lists_panic_bad (still ex) oc f allow b C); auto. rewrite E. apply in_or_app; cbn; auto.
Qed.
Print Assumptions C116_find_all_panics_exactly.

Theorem C116_find_all_or_first_panics_exactly : forall ex oc f, find_all_or_first (still ex) oc f = Panic <->
  ff_folders f <> [] /\
  ((exists bad, In bad (ff_exts f) /\ ~ no_sep bad)
   \/ oc = true /\ exists cs, candidates f cs /\ (65536 <= Z.of_nat (List.length (filter (fun c => ex (fst c)) cs)))%Z).
Proof.
  intros ex oc f. destruct (complete_dec f) as [C|C].
  2: { split; [intros H; destruct (proj2 (proj2 (proj2 (incomplete_no_panic (still ex) oc f true C))) H)|].
       intros (D & [(b & I & _)|(_ & cs & HC & L)]); exfalso; apply C; split; auto; intros E; [rewrite E in I; destruct I|].
       apply candidates_length in HC. rewrite E in HC. cbn in HC. rewrite Nat.mul_0_r in HC. destruct cs; [|discriminate].
       cbn in L; lia. }
  destruct (seps_dec (ff_exts f)) as [G|(g & b & r & E & B & G)].
  - destruct (candidates_exist f G) as [cs HC]. destruct (find_aof_still ex f cs HC C oc) as (l & N & H1 & H2 & H3).
    change (filter (present ex) cs) with (filter (fun c : cand => ex (fst c)) cs) in *.
    set (sel := filter (fun c : cand => ex (fst c)) cs) in *. split.
    + intros P. split; [apply C|]. right.
      destruct sel as [|c0 s0] eqn:Es; [destruct (H1 eq_refl) as (c & rest & _ & R); rewrite R in P; discriminate|]. rewrite <- Es in *.
      destruct oc; [|rewrite H2 in P; [discriminate | congruence | auto]]. split; auto. exists cs. split; auto. change (65536 <= Z.of_nat (List.length sel))%Z.
      destruct (Z_le_gt_dec (Z.of_nat (List.length sel)) 65535) as [L|L]; [rewrite H2 in P; [discriminate | congruence | auto] | lia].
    + intros (_ & [(b & I & B)|(-> & cs' & HC' & L)]); [destruct (B (G b I))|]. apply H3; auto.
      rewrite (candidates_fun f cs' cs HC' HC) in L. exact L.
  - split; [|intros _].
    + intros _. split; [apply C|]. left. exists b. split; auto. rewrite E. apply in_or_app; cbn; auto.
    + apply (lists_panic_bad (still ex) oc f true b C); auto. rewrite E. apply in_or_app; cbn; auto.
Qed.
Print Assumptions C116_find_all_or_first_panics_exactly.

(** How often [exists()] is called.  find_first: once for every candidate up to
    the first existing one, once more for the result, and once more for a first
    missing candidate that it keeps when missing files are allowed. *)
Theorem C116_checks_of_find_first : forall ex f cs allow, candidates f cs -> complete f ->
  (forall before c after, cs = before ++ c :: after -> (forall x, In x before -> ex (fst x) = false) -> ex (fst c) = true ->
     find_first_checks (still ex) f allow = List.length before + 2 + (if allow then match before with [] => 0 | _ => 1 end else 0))
  /\ ((forall x, In x cs -> ex (fst x) = false) -> find_first_checks (still ex) f allow = List.length cs + if allow then 1 else 0).
Proof.
  intros ex f cs allow HC HF. pose proof (candidates_nonempty f cs HC HF) as NE. unfold find_first_checks. rewrite (validate_complete f HF).
  destruct f as [ds n es]. cbn [ff_folders ff_name ff_exts]. rewrite (first_folders_flat (still ex) allow n es ds cs HC). split.
  - intros before c after -> N X. rewrite first_count_hit by auto. destruct before, allow; cbn; reflexivity || lia.
  - intros N. rewrite first_count_none by auto. destruct cs; [contradiction|]. destruct allow; cbn; rewrite ?Nat.add_0_r, ?Nat.add_1_r; reflexivity || lia.
Qed.
Print Assumptions C116_checks_of_find_first.

(** Without folders or without extensions nothing is checked. *)
Theorem C116_incomplete_finders_check_nothing : forall ex oc f allow, ~ complete f ->
  find_first_checks ex f allow = 0 /\ find_last_checks ex f allow = 0 /\ find_all_checks ex oc f allow = 0 /\ find_all_or_first_checks ex oc f = 0.
Proof.
  intros ex oc f allow N. unfold find_first_checks, find_last_checks, find_all_checks, find_all_or_first_checks, finder_validate.
  destruct (ff_folders f) eqn:D; [repeat split; reflexivity|]. destruct (ff_exts f) eqn:E; [repeat split; reflexivity|]. exfalso. apply N. split; congruence.
Qed.
Print Assumptions C116_incomplete_finders_check_nothing.

(** find_last: once for every candidate, once more for every existing one, and
    once more for every missing one before the first existing one when missing
    files are allowed. *)
Theorem C116_checks_of_find_last : forall ex f before after allow, candidates f (before ++ after) -> complete f ->
  (forall x, In x before -> ex (fst x) = false) -> (forall c rest, after = c :: rest -> ex (fst c) = true) ->
  find_last_checks (still ex) f allow =
    List.length (before ++ after) + List.length (filter (fun c => ex (fst c)) after) + if allow then List.length before else 0.
Proof.
  intros ex f before after allow HC HF N H. unfold find_last_checks. rewrite (validate_complete f HF).
  destruct f as [ds n es]. cbn [ff_folders ff_name ff_exts]. rewrite (last_folders_flat (still ex) allow n es ds _ HC), last_count. cbn [fst].
  assert (Hh : hits ex (before ++ after) = List.length (filter (fun c => ex (fst c)) after)).
  { unfold hits. clear HC H. induction before as [|b before IH]; [reflexivity|]. cbn. rewrite (N b) by (cbn; auto). apply IH. intros; apply N; cbn; auto. }
  rewrite Hh. destruct allow; [|lia]. rewrite Nat.add_0_l. f_equal. clear Hh HC HF. induction before as [|b before IH]; cbn.
  - destruct after as [|c rest]; [reflexivity|]. now rewrite (H c rest eq_refl).
  - rewrite (N b) by (cbn; auto). f_equal. apply IH. intros; apply N; cbn; auto.
Qed.
Print Assumptions C116_checks_of_find_last.

(** find_all: once for every candidate; if missing files are not allowed, once
    more for every existing one. *)
Theorem C116_checks_of_find_all : forall ex oc f cs allow, candidates f cs -> complete f -> find_all (still ex) oc f allow <> Panic ->
  find_all_checks (still ex) oc f allow = List.length cs + if allow then 0 else List.length (filter (fun c => ex (fst c)) cs).
Proof.
  intros ex oc f cs allow HC HF. unfold find_all, find_all_checks. rewrite (validate_complete f HF). cbn [of_result obind].
  destruct f as [ds n es]. cbn [ff_folders ff_name ff_exts]. rewrite (all_folders_flat (still ex) oc allow n es ds cs HC).
  pose proof (all_flat_checked (still ex) allow cs [] 0%Z 0 ltac:(lia)) as K.
  pose proof (all_count ex allow cs ([], 0%Z) 0) as Cn. fold (hits ex cs).
  destruct (all_flat (still ex) false allow cs ([], 0%Z) 0) as [[[files i] t]| |] eqn:E; try contradiction.
  specialize (Cn _ eq_refl). destruct K as (new & _ & K). intros P. destruct oc.
  - rewrite K in *. destruct (0 + Z.of_nat (List.length new) <=? 65535)%Z; [exact Cn | contradiction].
  - rewrite E. exact Cn.
Qed.
Print Assumptions C116_checks_of_find_all.

(** find_all_or_first: once for every candidate, once more for every existing
    one, once more for the first missing one. *)
Theorem C116_checks_of_find_all_or_first : forall ex oc f cs, candidates f cs -> complete f -> find_all_or_first (still ex) oc f <> Panic ->
  ((forall c, In c cs -> ex (fst c) = true) -> find_all_or_first_checks (still ex) oc f = 2 * List.length cs)
  /\ ((exists c, In c cs /\ ex (fst c) = false) ->
      find_all_or_first_checks (still ex) oc f = List.length cs + List.length (filter (fun c => ex (fst c)) cs) + 1).
Proof.
  intros ex oc f cs HC HF. unfold find_all_or_first, find_all_or_first_checks. rewrite (validate_complete f HF). cbn [of_result obind].
  destruct f as [ds n es]. cbn [ff_folders ff_name ff_exts]. rewrite (aof_folders_flat (still ex) oc n es ds cs HC).
  pose proof (aof_flat_checked (still ex) cs [] None 0%Z 0 ltac:(lia)) as K.
  pose proof (aof_count ex cs [] None 0%Z 0) as Cn. fold (hits ex cs).
  destruct (aof_flat (still ex) false cs [] None 0%Z 0) as [[[[files first] i] t]| |] eqn:E; try contradiction.
  specialize (Cn _ eq_refl). cbn [snd] in Cn. destruct K as (new & _ & K). intros P.
  assert (Et : match aof_flat (still ex) oc cs [] None 0%Z 0 with Done (_, _, _, t') => t' | _ => 0 end = t).
  { destruct oc; [|now rewrite E]. rewrite K in *. destruct (0 + Z.of_nat (List.length new) <=? 65535)%Z; [reflexivity | exfalso; apply P; reflexivity]. }
  rewrite Et, Cn. split.
  - intros A. match goal with |- context [if ?b then _ else _] => assert (B : b = true) by (apply forallb_forall; auto); rewrite B end.
    assert (H : hits ex cs = List.length cs); [|lia]. unfold hits. clear - A. induction cs as [|c cs IH]; [reflexivity|]. cbn.
    rewrite (A c) by (cbn; auto). cbn. f_equal. apply IH. intros; apply A; cbn; auto.
  - intros (c & I & X). match goal with |- context [if ?b then _ else _] => destruct b eqn:B end; [|reflexivity].
    rewrite forallb_forall in B. rewrite (B c I) in X. discriminate.
Qed.
Print Assumptions C116_checks_of_find_all_or_first.

(** So no search checks more than twice per candidate. *)
Theorem C116_at_most_two_checks_per_candidate : forall ex oc f cs allow, candidates f cs -> complete f ->
  find_first_checks (still ex) f allow <= 2 * List.length cs
  /\ find_last_checks (still ex) f allow <= 2 * List.length cs
  /\ find_all_checks (still ex) oc f allow <= 2 * List.length cs
  /\ find_all_or_first_checks (still ex) oc f <= 2 * List.length cs.
Proof.
  intros ex oc f cs allow HC HF. pose proof (candidates_nonempty f cs HC HF) as NE.
  assert (L : forall c : list cand, List.length (filter (fun x => ex (fst x)) c) <= List.length c) by (intros c; exact (hits_le ex c)).
  assert (Sp : exists before after, cs = before ++ after /\ (forall x, In x before -> ex (fst x) = false) /\ forall c rest, after = c :: rest -> ex (fst c) = true).
  { clear - cs. induction cs as [|c cs (b & a & -> & H1 & H2)]; [exists [], []; split; auto; split; [intros ? [] | discriminate]|].
    destruct (ex (fst c)) eqn:X; [exists [], (c :: b ++ a); split; auto; split; [intros ? [] | intros ? ? [= <- <-]; auto]|].
    exists (c :: b), a. split; auto. split; auto. intros x [<-|I]; auto. }
  destruct Sp as (before & after & -> & H1 & H2). split; [|split; [|split]].
  - destruct (C116_checks_of_find_first ex f _ allow HC HF) as [A B]. destruct after as [|c after].
    + rewrite B. 2: { intros x I. rewrite app_nil_r in I. auto. } destruct (before ++ []) as [|? ?]; [contradiction|]. cbn. destruct allow; lia.
    + rewrite (A before c after eq_refl H1 (H2 c after eq_refl)). rewrite app_length. cbn. destruct allow, before; cbn; lia.
  - rewrite (C116_checks_of_find_last ex f before after allow HC HF H1 H2). specialize (L after). rewrite app_length. destruct allow; lia.
  - unfold find_all_checks. rewrite (validate_complete f HF).
    pose proof (C116_checks_of_find_all ex oc f (before ++ after) allow HC HF) as A. unfold find_all, find_all_checks in A.
    rewrite (validate_complete f HF) in A. cbn [of_result obind] in A.
    destruct (find_all_folders (still ex) oc allow (ff_name f) (ff_exts f) (ff_folders f) ([], 0%Z) 0) as [x| |]; try lia.
    rewrite A; [specialize (L (before ++ after)); destruct allow; lia|]. cbn. destruct (fst (fst x)); discriminate.
  - unfold find_all_or_first_checks. rewrite (validate_complete f HF).
    pose proof (C116_checks_of_find_all_or_first ex oc f (before ++ after) HC HF) as A. unfold find_all_or_first, find_all_or_first_checks in A.
    rewrite (validate_complete f HF) in A. cbn [of_result obind] in A.
    destruct (find_aof_folders (still ex) oc (ff_name f) (ff_exts f) (ff_folders f) [] None 0%Z 0) as [[[[files first] i] t]| |]; try lia.
    destruct A as [A1 A2]; [destruct files; [destruct first|]; discriminate|].
    destruct (forallb (fun c : cand => ex (fst c)) (before ++ after)) eqn:B.
    + rewrite A1; [lia|]. now apply forallb_forall.
    + assert (X : exists c, In c (before ++ after) /\ ex (fst c) = false).
      { clear - B. induction (before ++ after) as [|c l IH]; [discriminate|]. cbn in B. destruct (ex (fst c)) eqn:E; [|exists c; cbn; auto].
        destruct (IH B) as (c' & I & X). exists c'. cbn; auto. }
      rewrite (A2 X). destruct X as (c & I & X).
      assert (List.length (filter (fun x => ex (fst x)) (before ++ after)) < List.length (before ++ after)); [|lia].
      clear - I X L. induction (before ++ after) as [|y l IH]; [destruct I|]. cbn. destruct I as [->|I].
      * rewrite X. specialize (L l). lia.
      * destruct (ex (fst y)); cbn; specialize (IH I); lia.
Qed.
Print Assumptions C116_at_most_two_checks_per_candidate.

(** Two folders, two extensions; only the second candidate exists. *)
Definition ck_finder : finder := {| ff_folders := [lit "/a"; lit "/b"]; ff_name := lit "app"; ff_exts := [lit "toml"; lit "conf"] |}.
Definition ck_bad : finder := {| ff_folders := [lit "/a"; lit "/b"]; ff_name := lit "app"; ff_exts := [lit "toml"; lit "x/y"] |}.
Definition ck_fs (p : path) : bool := str_eqb p (lit "/a/app.conf").
Example C116_example :
  candidates ck_finder (map (fun p => (lit (fst p), lit (snd p))) [("/a/app.toml", "toml"); ("/a/app.conf", "conf"); ("/b/app.toml", "toml"); ("/b/app.conf", "conf")]%string)
  /\ complete ck_finder
  /\ find_first_checks (still ck_fs) ck_finder true = 4 /\ find_first_checks (still ck_fs) ck_finder false = 3
  /\ find_last_checks (still ck_fs) ck_finder true = 6 /\ find_all_checks (still ck_fs) true ck_finder false = 5
  /\ find_all_or_first_checks (still ck_fs) true ck_finder = 6
  /\ find_first (still ck_fs) ck_bad true = Panic
  /\ find_first (still (fun p => str_eqb p (lit "/a/app.toml"))) ck_bad true
     = Done {| fr_path := lit "/a/app.toml"; fr_extension := ExtCustom (lit "toml"); fr_index := 0; fr_exists := true |}
  /\ find_first (still (fun p => str_eqb p (lit "/b/app.toml"))) ck_bad true = Panic
  /\ ~ no_sep (lit "x/y").
Proof.
  split; [repeat constructor|]. split; [split; discriminate|]. repeat (split; [reflexivity|]). intros N. apply N. cbn. auto.
Qed.
