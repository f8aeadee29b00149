(** Agreement of the searches, candidate paths, extensions, OS directories (C43, C45, C47, C48). *)
From Coq Require Import ZArith Bool String Lia List.
Import ListNotations.
From Verif.Model Require Import Text Value Paths Finder.
From Verif.Spec Require Import PathSpec FinderSpec.
From Verif.Proofs Require Import Basics PathLemmas FinderProofs FinderTop.

(** ** C43 *)

Lemma filter_head {A} (p : A -> bool) l c rest : filter p l = c :: rest ->
  exists b a, l = b ++ c :: a /\ (forall x, In x b -> p x = false) /\ p c = true.
Proof.
  induction l as [|x l IH]; cbn; [discriminate|]. destruct (p x) eqn:E.
  - intros H; injection H as -> _. exists [], l. repeat split; auto. intros ? [].
  - intros H. destruct (IH H) as (b & a & -> & M & P). exists (x :: b), a. repeat split; auto.
    intros y [<-|I]; auto.
Qed.
Lemma filter_rev' {A} (p : A -> bool) l : filter p (rev l) = rev (filter p l).
Proof.
  induction l as [|x l IH]; cbn; auto. rewrite filter_app, IH. cbn. destruct (p x); cbn; auto. apply app_nil_r.
Qed.
Lemma filter_last {A} (p : A -> bool) l c rest : filter p l = rest ++ [c] ->
  exists b a, l = b ++ c :: a /\ (forall x, In x a -> p x = false) /\ p c = true.
Proof.
  intros H. apply (f_equal (@rev _)) in H. rewrite <- filter_rev', rev_app_distr in H. cbn in H.
  apply filter_head in H as (b & a & E & M & P). exists (rev a), (rev b).
  split; [rewrite <- (rev_involutive l), E, rev_app_distr; cbn; now rewrite <- app_assoc|].
  split; auto. intros x I. apply in_rev in I. auto.
Qed.

Lemma nth_error_ext' {A} (l m : list A) : (forall i, nth_error l i = nth_error m i) -> l = m.
Proof.
  revert m. induction l as [|x l IH]; intros [|y m] G; auto.
  - specialize (G 0%nat); discriminate.
  - specialize (G 0%nat); discriminate.
  - f_equal; [specialize (G 0%nat); cbn in G; congruence|]. apply IH. intros i. apply (G (S i)).
Qed.

Lemma searches_agree ex oc f cs l : candidates f cs -> complete f ->
  find_all (still ex) oc f false = Done l ->
  exists r rest, l = r :: rest
    /\ (forall allow, exists r', find_first (still ex) f allow = Done r' /\ same_file r' r)
    /\ (forall allow, exists r' r'' init, l = init ++ [r''] /\ find_last (still ex) f allow = Done r' /\ same_file r' r'')
    /\ find_all_or_first (still ex) oc f = Done l.
Proof.
  intros HC HF E.
  destruct (find_all_oracle (still ex) f cs HC HF oc false) as (ts & sel & l' & [O I] & N & A & B & C).
  apply observed_still in O.
  destruct sel as [|c0 sel0] eqn:S; [rewrite A in E; auto; discriminate|]. rewrite <- S in *.
  assert (NE : sel <> []) by congruence.
  assert (K : oc = false \/ (Z.of_nat (List.length sel) <= 65535)%Z).
  { destruct oc; auto. destruct (Z.le_gt_cases (Z.of_nat (List.length sel)) 65535); auto.
    rewrite C in E; auto; [discriminate | lia]. }
  assert (l' = l) by (rewrite B in E by auto; congruence). subst l'. destruct N as [L N].
  destruct l as [|r rest]; [exfalso; apply NE; destruct sel; auto; discriminate|].
  exists r, rest. split; auto. split; [|split].
  - intros allow. rewrite S in O. symmetry in O. apply filter_head in O as (b & a & Ec & M & P).
    exists (result_of c0 0 true). split; [eapply (proj1 (find_first_still ex f cs HC HF allow)); eauto|].
    destruct (N 0%nat c0) as [te Q]; [now rewrite S|]. cbn in Q. injection Q as ->. unfold present, still in *. rewrite P. repeat split.
  - intros allow. destruct (exists_last NE) as (si & c & Es). rewrite Es in O. symmetry in O.
    apply filter_last in O as (b & a & Ec & M & P).
    destruct (exists_last (l := r :: rest)) as (init & r'' & El); [discriminate|].
    exists (result_of c 0 true), r'', init. split; auto.
    split; [eapply (proj1 (find_last_still ex f cs HC HF allow)); eauto|].
    destruct (N (List.length si) c) as [te Q]; [rewrite Es; rewrite nth_error_app2, Nat.sub_diag by auto; reflexivity|].
    assert (Li : List.length init = List.length si).
    { rewrite El, Es, !app_length in L. cbn in L. lia. }
    rewrite El, <- Li, nth_error_app2, Nat.sub_diag in Q by auto. cbn in Q. injection Q as ->.
    unfold present, still in *. rewrite P. repeat split.
  - destruct (find_aof_oracle (still ex) f cs HC HF oc) as (ts' & sel' & l' & O' & _ & N' & _ & B' & _).
    apply observed_still in O'. assert (Xs : sel' = sel) by congruence. rewrite Xs in B', N'.
    rewrite (B' NE K). f_equal. destruct N' as [L' N'].
    assert (G : forall i, nth_error l' i = nth_error (r :: rest) i).
    { intros i. destruct (nth_error sel i) as [c|] eqn:X.
      - destruct (N i c X) as [te Q], (N' i c X) as [te' Q']. rewrite Q, Q'. reflexivity.
      - apply nth_error_None in X. rewrite (proj2 (nth_error_None l' i)), (proj2 (nth_error_None (r :: rest) i)); auto; lia. }
    now apply nth_error_ext'.
Qed.
Lemma searches_agree_none ex oc f cs e : candidates f cs -> complete f ->
  find_all (still ex) oc f false = Fail e ->
  e = NoFilesFound /\ find_first (still ex) f false = Fail NoFilesFound /\ find_last (still ex) f false = Fail NoFilesFound
  /\ exists r, find_first (still ex) f true = Done r /\ fr_exists r = false /\ find_all_or_first (still ex) oc f = Done [r].
Proof.
  intros HC HF E.
  destruct (find_all_oracle (still ex) f cs HC HF oc false) as (ts & sel & l' & [O I] & N & A & B & C).
  apply observed_still in O.
  destruct sel as [|c0 sel0] eqn:S.
  - symmetry in O. assert (Z0 := O). rewrite filter_nil_iff in O. rewrite A in E by auto. injection E as <-.
    split; auto. destruct (proj2 (find_first_still ex f cs HC HF false) O) as [F1 F2].
    destruct (proj2 (find_last_still ex f cs HC HF false) O) as [L1 L2]. split; auto. split; auto.
    destruct (find_aof_still ex f cs HC HF oc) as (l & _ & G & _). destruct (G Z0) as (c & rest & Ec & R).
    exists (result_of c 0 false). rewrite (F2 _ _ Ec). auto.
  - rewrite <- S in *. exfalso. assert (NE : sel <> []) by congruence. destruct oc.
    + destruct (Z.le_gt_cases (Z.of_nat (List.length sel)) 65535).
      * rewrite B in E; auto. discriminate.
      * rewrite C in E; auto; [discriminate | lia].
    + rewrite B in E; auto. discriminate.
Qed.

(** ** C45 *)
Lemma ends_with_sep_iff d : ends_with_sep d = true <-> exists d', d = d' ++ [SEP].
Proof.
  unfold ends_with_sep. split.
  - destruct d as [|x d _] using rev_ind; [discriminate|]. rewrite rev_app_distr. cbn. rewrite Z.eqb_eq.
    intros ->. eauto.
  - intros [d' ->]. rewrite rev_app_distr. reflexivity.
Qed.
Lemma path_join_prefix d pre n : folder_prefix d pre -> (forall r, n <> SEP :: r) -> path_join d n = pre ++ n.
Proof.
  intros P R. unfold path_join. assert (A : is_absolute n = false).
  { destruct n as [|c r]; auto. cbn. destruct (Z.eqb_spec c SEP) as [->|]; auto. now destruct (R r). }
  rewrite A. destruct P as [[-> ->]|[(d' & E & ->)|(N & H & ->)]]; auto.
  - destruct d as [|c d]; [destruct d'; discriminate|].
    rewrite (proj2 (ends_with_sep_iff _)); eauto.
  - destruct d as [|c d]; [contradiction|]. destruct (ends_with_sep (c :: d)) eqn:E.
    + apply ends_with_sep_iff in E as [d' E]. now destruct (H d').
    + now rewrite <- app_assoc.
Qed.
Lemma folder_prefix_total d : exists pre, folder_prefix d pre.
Proof.
  unfold folder_prefix. destruct d as [|c d]; [exists []; auto|].
  destruct (ends_with_sep (c :: d)) eqn:E.
  - apply ends_with_sep_iff in E as [d' E]. exists (c :: d). right; left. eauto.
  - exists ((c :: d) ++ [SEP]). right; right. repeat split; [discriminate|].
    intros d' H. assert (X := proj2 (ends_with_sep_iff _) (ex_intro _ d' H)). congruence.
Qed.
Lemma folder_prefix_dir d pre : folder_prefix d pre -> dir_part pre.
Proof.
  intros [[_ ->]|[(d' & -> & ->)|(_ & _ & ->)]]; [left; auto | right; eauto | right; eauto].
Qed.
Lemma dir_part_app a b : dir_part a -> dir_part b -> dir_part (a ++ b).
Proof.
  intros A [->|[b' ->]]; [now rewrite app_nil_r|]. right. exists (a ++ b'). now rewrite app_assoc.
Qed.
Lemma names_file_prefix pre p d n : dir_part pre -> names_file p d n -> names_file (pre ++ p) (pre ++ d) n.
Proof.
  intros D (t & -> & D' & T & H). exists t. split; [now rewrite <- app_assoc|].
  split; [now apply dir_part_app|]. auto.
Qed.
Lemma stem_of_ext n s : stem_of n s -> fst (stem_ext n) = s.
Proof.
  intros H. inversion H as [c s' D E|s' x N D E]; subst.
  - destruct (stem_ext (c :: s')) as [s [e|]] eqn:X.
    + apply stem_ext_iff in X as (X & N & D'). destruct s as [|c' s]; [contradiction|].
      injection X as -> X. exfalso; apply D. rewrite X. apply in_or_app; cbn; auto.
    + assert (Y := proj1 (stem_ext_none (c :: s')) (ex_intro _ s X)). rewrite X in Y. now injection Y as ->.
  - now rewrite (proj2 (stem_ext_iff _ x s) (conj eq_refl (conj N D))).
Qed.
Lemma stem_of_fun n s s' : stem_of n s -> stem_of n s' -> s = s'.
Proof. intros A B. apply stem_of_ext in A, B. congruence. Qed.
Lemma stem_of_total n : n <> [] -> exists s, stem_of n s.
Proof.
  intros N. destruct (stem_ext n) as [s [e|]] eqn:X.
  - apply stem_ext_iff in X as (-> & Ns & D). exists s. now constructor.
  - unfold stem_ext, rsplit_dot in X. destruct (span_not DOT (rev n)) as [a b] eqn:E.
    apply span_not_spec in E as (En & I & H). apply (f_equal (@rev _)) in En. rewrite rev_involutive, rev_app_distr in En.
    destruct n as [|c n]; [contradiction|]. exists (c :: n). constructor.
    destruct b as [|x b].
    + cbn in En. intros J. apply I. apply in_rev. rewrite <- En. right; auto.
    + destruct (rev b) eqn:Rb; [|discriminate]. cbn in En. rewrite Rb in En. cbn in En. injection En as _ En.
      intros J. apply I. apply in_rev. now rewrite <- En.
Qed.
Lemma with_extension_names p d n s e : names_file p d n -> stem_of n s -> no_sep e -> e <> [] ->
  with_extension p e = Some (d ++ s ++ DOT :: e).
Proof.
  intros N S Ns Ne. unfold with_extension.
  destruct (existsb (fun c => (c =? SEP)%Z) e) eqn:E.
  { apply existsb_exists in E as (x & I & Q). apply Z.eqb_eq in Q. subst. contradiction. }
  rewrite (proj2 (file_name_iff p n) (ex_intro _ d N)). rewrite (split_last_names p d n N). cbn [fst].
  rewrite (stem_of_ext n s S). destruct e; [contradiction | reflexivity].
Qed.
Lemma candidate_path d pre n sub base s e : folder_prefix d pre -> (forall r, n <> SEP :: r) ->
  names_file n sub base -> stem_of base s -> no_sep e -> e <> [] ->
  with_extension (path_join d n) e = Some (pre ++ sub ++ s ++ DOT :: e).
Proof.
  intros P R N S Ns Ne. rewrite (path_join_prefix d pre n P R).
  rewrite (with_extension_names _ (pre ++ sub) base s e); auto; [now rewrite <- app_assoc|].
  apply names_file_prefix; auto. eapply folder_prefix_dir; eauto.
Qed.
Lemma stem_no_sep n s : stem_of n s -> no_sep n -> no_sep s /\ s <> [].
Proof.
  intros H N. inversion H as [c s' D E|s' x Ns D E]; subst; split; auto; [discriminate|].
  intros I; apply N, in_or_app; auto.
Qed.
Lemma candidate_has_extension d pre n sub base s e : folder_prefix d pre -> (forall r, n <> SEP :: r) ->
  names_file n sub base -> stem_of base s -> no_sep e -> no_dot e -> e <> [] ->
  has_extension (pre ++ sub ++ s ++ DOT :: e) e.
Proof.
  intros P R N S Ns Nd Ne. destruct N as (t & En & D & T & Nb & _).
  destruct (stem_no_sep _ _ S Nb) as [Nss Nes].
  exists (pre ++ sub), s. split; [|auto]. exists []. rewrite app_nil_r, <- app_assoc. split; auto.
  split; [apply dir_part_app; auto; eapply folder_prefix_dir; eauto|]. split; [constructor|].
  split; [intros I; apply in_app_iff in I as [I|[I|I]]; auto; discriminate|].
  split; [destruct s; discriminate|].
  split; intros X; apply (f_equal (@List.length _)) in X; rewrite app_length in X; cbn in X;
    destruct s; [contradiction | | contradiction |]; destruct e; try contradiction; cbn in X; lia.
Qed.
(** An empty name drops out: the candidate is the folder itself with the extension. *)
Lemma candidate_empty_name d dd dn s e : names_file d dd dn -> stem_of dn s -> no_sep e -> e <> [] ->
  with_extension (path_join d []) e = Some (dd ++ s ++ DOT :: e).
Proof.
  intros N S Ns Ne. destruct (folder_prefix_total d) as [pre P].
  rewrite (path_join_prefix d pre [] P) by discriminate. rewrite app_nil_r.
  apply (with_extension_names _ dd dn); auto.
  destruct P as [[-> ->]|[(d' & E & ->)|(_ & _ & ->)]]; auto.
  destruct N as (t & -> & D & T & H). exists (t ++ [SEP]). split; [now rewrite <- !app_assoc|].
  split; auto. split; [now constructor | auto].
Qed.
(** ".." has no file name, so it never gets an extension. *)
Lemma candidate_dotdot d pre e : folder_prefix d pre -> no_sep e ->
  with_extension (path_join d [DOT; DOT]) e = Some (pre ++ [DOT; DOT]).
Proof.
  intros P Ns. rewrite (path_join_prefix d pre) by (auto; discriminate).
  unfold with_extension. destruct (existsb (fun c => (c =? SEP)%Z) e) eqn:E.
  { apply existsb_exists in E as (x & I & Q). apply Z.eqb_eq in Q. subst. contradiction. }
  destruct (file_name (pre ++ [DOT; DOT])) as [n|] eqn:F; auto.
  exfalso. unfold file_name, split_last in F. rewrite rev_app_distr in F. cbn in F.
  rewrite <- (app_nil_l (rev pre)) in F.
  assert (X : span_not SEP ([] ++ rev pre) = ([], rev pre)).
  { apply span_not_app; [intros []|]. apply folder_prefix_dir in P as [->|[d' ->]]; [left; reflexivity|].
    right. rewrite rev_app_distr. cbn. eauto. }
  rewrite X in F. cbn in F. discriminate.
Qed.

(** ** C47 *)
Lemma as_str_from e : e <> lit ".toml" -> ext_as_str (ext_from e) = e.
Proof. intros N. unfold ext_from. destruct (str_eqb_spec e (lit ".toml")); [contradiction | reflexivity]. Qed.
Lemma custom_never_matches e p : e <> lit ".toml" -> ext_match_path (ext_from e) p = false.
Proof. intros N. unfold ext_from. destruct (str_eqb_spec e (lit ".toml")); [contradiction | reflexivity]. Qed.
Lemma dot_toml_from : ext_from (lit ".toml") = ExtToml.
Proof. reflexivity. Qed.

(** Everything a search returns describes one of the candidates. *)
Lemma results_are_candidates ex oc f cs allow r : candidates f cs -> complete f ->
  find_first ex f allow = Done r \/ find_last ex f allow = Done r
  \/ (exists l, (find_all ex oc f allow = Done l \/ find_all_or_first ex oc f = Done l) /\ In r l) ->
  exists c i b, In c cs /\ r = result_of c i b.
Proof.
  intros HC HF.
  assert (OIN : forall l ts sel, observed ex l ts sel -> forall c, In c sel -> In c l).
  { induction 1; cbn; intuition. }
  assert (NIN : forall sel l, numbered ex sel l -> In r l -> exists c i b, In c sel /\ r = result_of c i b).
  { intros sel l [L N] I. apply In_nth_error in I as [i Q].
    destruct (nth_error sel i) as [c|] eqn:X.
    - destruct (N i c X) as [te Q']. rewrite Q in Q'. injection Q' as ->. exists c. do 2 eexists. split; [|reflexivity].
      eapply nth_error_In; eauto.
    - apply nth_error_None in X. assert (Y : nth_error l i <> None) by congruence. apply nth_error_Some in Y. lia. }
  intros [E|[E|(l & [E|E] & I)]].
  - destruct (find_first_oracle ex f cs HC HF allow) as [(b & c & a & ts & tc & te & Ec & _ & _ & _ & R)|(ts & _ & _ & R)].
    + rewrite R in E. injection E as <-. exists c. do 2 eexists. split; [|reflexivity]. rewrite Ec. apply in_or_app; cbn; auto.
    + destruct allow; [|rewrite R in E; discriminate]. destruct R as (c & rest & te & Ec & R).
      rewrite R in E. injection E as <-. exists c. do 2 eexists. split; [|reflexivity]. rewrite Ec. left; auto.
  - destruct (find_last_oracle ex f cs HC HF allow) as [(b & c & a & tsb & fo & tc & te & tsa & Ec & _ & _ & _ & _ & R)|(ts & _ & _ & R)].
    + rewrite R in E. injection E as <-. exists c. do 2 eexists. split; [|reflexivity]. rewrite Ec. apply in_or_app; cbn; auto.
    + destruct allow; [|rewrite R in E; discriminate]. destruct R as (b & c & te & Ec & R).
      rewrite R in E. injection E as <-. exists c. do 2 eexists. split; [|reflexivity]. rewrite Ec. apply in_or_app; cbn; auto.
  - destruct (find_all_oracle ex f cs HC HF oc allow) as (ts & sel & l' & S & N & A & B & C).
    assert (Hs : forall c, In c sel -> In c cs) by (destruct allow; [now subst | destruct S; eauto]).
    destruct sel as [|c0 sel0] eqn:Q; [rewrite A in E; auto; discriminate|]. rewrite <- Q in *.
    assert (NE : sel <> []) by congruence.
    assert (l' = l).
    { destruct oc; [|rewrite B in E by auto; congruence].
      destruct (Z.le_gt_cases (Z.of_nat (List.length sel)) 65535); [rewrite B in E by auto; congruence|].
      rewrite C in E by (auto; lia). discriminate. }
    subst l'. destruct (NIN sel l N I) as (c & i & b & Ic & ->). exists c, i, b. auto.
  - destruct (find_aof_oracle ex f cs HC HF oc) as (ts & sel & l' & O & _ & N & A & B & C).
    destruct sel as [|c0 sel0] eqn:Q.
    + destruct (A eq_refl) as (c & rest & te & Ec & R). rewrite R in E. injection E as <-.
      destruct I as [<-|[]]. exists c. do 2 eexists. split; [|reflexivity]. rewrite Ec; left; auto.
    + rewrite <- Q in *. assert (NE : sel <> []) by congruence.
      assert (l' = l).
      { destruct oc; [|rewrite B in E by auto; congruence].
        destruct (Z.le_gt_cases (Z.of_nat (List.length sel)) 65535); [rewrite B in E by auto; congruence|].
        rewrite C in E by (auto; lia). discriminate. }
      subst l'. destruct (NIN sel l N I) as (c & i & b & Ic & ->). exists c, i, b. eauto.
Qed.

(** ** C48 *)
Lemma resolvable_iff pf d p : to_path_buf pf d = Some p <-> resolvable pf d p.
Proof.
  unfold to_path_buf, resolvable. destruct (pf_base pf) as [b|].
  - split.
    + intros E. exists b. split; auto. destruct d; try (injection E as <-; constructor). now constructor.
    + intros (b' & Eb & H). injection Eb as <-. inversion H; subst; auto.
  - split; [discriminate | intros (b & E & _); discriminate].
Qed.
Lemma os_dirs_folders pf ds ps : resolved pf ds ps -> forall f,
  fold_left (finder_with_os_dir pf) ds f
  = {| ff_folders := ff_folders f ++ ps; ff_name := ff_name f; ff_exts := ff_exts f |}.
Proof.
  induction 1 as [|d p ds ps H R IH|d ds ps H R IH]; intros f; cbn [fold_left].
  - rewrite app_nil_r. now destruct f.
  - rewrite IH. apply resolvable_iff in H. unfold finder_with_os_dir. rewrite H. cbn. now rewrite <- app_assoc.
  - rewrite IH. unfold finder_with_os_dir. destruct (to_path_buf pf d) as [p|] eqn:E; auto.
    apply resolvable_iff in E. now apply H in E.
Qed.
Lemma resolved_total pf ds : exists ps, resolved pf ds ps.
Proof.
  induction ds as [|d ds [ps R]]; [exists []; constructor|].
  destruct (to_path_buf pf d) as [p|] eqn:E.
  - exists (p :: ps). constructor; auto. now apply resolvable_iff.
  - exists ps. apply ResolvedSkip; auto. intros p H. apply resolvable_iff in H. congruence.
Qed.
Lemma resolved_fun pf ds ps ps' : resolved pf ds ps -> resolved pf ds ps' -> ps = ps'.
Proof.
  intros A B. apply (fun R => os_dirs_folders _ _ _ R (finder_new [])) in A, B. rewrite A in B. now injection B.
Qed.

(** ** Chains of builder calls *)
Lemma call_apply c ds es : call_adds c ds es -> forall f,
  finder_apply f c = {| ff_folders := ff_folders f ++ ds; ff_name := ff_name f; ff_exts := ff_exts f ++ es |}.
Proof.
  intros H f.
  assert (OS : forall pf d, resolved pf [d] ds -> es = [] ->
    finder_with_os_dir pf f d = {| ff_folders := ff_folders f ++ ds; ff_name := ff_name f; ff_exts := ff_exts f ++ es |}).
  { intros pf d R ->. assert (X := os_dirs_folders pf [d] ds R f). cbn [fold_left] in X. rewrite X.
    now rewrite app_nil_r. }
  destruct c; cbn [call_adds] in H; destruct H as [H1 H2];
    try (exact (OS _ _ H1 H2)); subst ds es; cbn; rewrite ?app_nil_r; reflexivity.
Qed.
Lemma builder_calls_from cs ds es : calls_add cs ds es -> forall f,
  fold_left finder_apply cs f = {| ff_folders := ff_folders f ++ ds; ff_name := ff_name f; ff_exts := ff_exts f ++ es |}.
Proof.
  induction 1 as [|c cs d1 e1 d2 e2 H R IH]; intros f; cbn [fold_left].
  - rewrite !app_nil_r. now destruct f.
  - rewrite (call_apply c d1 e1 H f), IH. cbn. now rewrite !app_assoc.
Qed.
Lemma builder_calls cs ds es : calls_add cs ds es -> forall name,
  fold_left finder_apply cs (finder_new name) = {| ff_folders := ds; ff_name := name; ff_exts := es |}.
Proof. intros H name. now rewrite (builder_calls_from cs ds es H). Qed.
Lemma call_adds_total c : exists ds es, call_adds c ds es.
Proof.
  assert (OS : forall pf d, exists ds (es : list str), resolved pf [d] ds /\ es = []).
  { intros pf d. destruct (resolved_total pf [d]) as [ds R]. exists ds, []. auto. }
  destruct c; cbn [call_adds]; first [apply OS | eexists; eexists; split; reflexivity].
Qed.
Lemma calls_add_total cs : exists ds es, calls_add cs ds es.
Proof.
  induction cs as [|c cs (d2 & e2 & IH)]; [exists [], []; constructor|].
  destruct (call_adds_total c) as (d1 & e1 & H). exists (d1 ++ d2), (e1 ++ e2). now constructor.
Qed.
Lemma calls_add_fun cs ds es ds' es' : calls_add cs ds es -> calls_add cs ds' es' -> ds = ds' /\ es = es'.
Proof.
  intros A B. apply (fun R => builder_calls cs _ _ R []) in A, B. rewrite A in B. now injection B.
Qed.
