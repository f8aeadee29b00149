(** Proofs about the file finder (C39-C44, C46). *)
From Coq Require Import ZArith Bool Lia List.
Import ListNotations.
From Verif.Model Require Import Text Value Paths Finder.
From Verif.Spec Require Import PathSpec FinderSpec.
From Verif.Proofs Require Import Basics PathLemmas.

Definition ext_cands (base : path) (exts : list str) (cs : list cand) : Prop :=
  Forall2 (fun e c => with_extension base e = Some (fst c) /\ snd c = e) exts cs.

Lemma candidates_cons d ds name exts cs :
  candidates {| ff_folders := d :: ds; ff_name := name; ff_exts := exts |} cs ->
  exists c1 c2, cs = c1 ++ c2 /\ ext_cands (path_join d name) exts c1
    /\ candidates {| ff_folders := ds; ff_name := name; ff_exts := exts |} c2.
Proof.
  unfold candidates, ext_cands. cbn [ff_folders ff_name ff_exts list_prod]. intros H.
  apply Forall2_app_inv_l in H as (c1 & c2 & H1 & H2 & ->). exists c1, c2. repeat split; auto.
  clear H2. remember (map (fun y => (d, y)) exts) as l eqn:E. revert exts E.
  induction H1 as [|de c l cs H F IH]; intros [|e exts] E; try discriminate; [constructor|].
  injection E as -> ->. cbn in H. constructor; auto.
Qed.

Lemma with_extension_total base e : no_sep e -> exists p, with_extension base e = Some p.
Proof.
  intros N. unfold with_extension. destruct (existsb (fun c => (c =? SEP)%Z) e) eqn:E.
  - apply existsb_exists in E as (x & I & Q). apply Z.eqb_eq in Q. subst. contradiction.
  - destruct (file_name base); eauto.
Qed.
Lemma with_extension_sep base e : ~ no_sep e -> with_extension base e = None.
Proof.
  intros N. unfold with_extension. destruct (existsb (fun c => (c =? SEP)%Z) e) eqn:E; auto.
  exfalso. apply N. intros I. assert (X : existsb (fun c => (c =? SEP)%Z) e = true).
  { apply existsb_exists. exists SEP. split; [assumption | apply Z.eqb_refl]. }
  congruence.
Qed.
Lemma candidates_exist f : (forall e, In e (ff_exts f) -> no_sep e) -> exists cs, candidates f cs.
Proof.
  unfold candidates. destruct f as [ds name exts]. cbn [ff_folders ff_name ff_exts]. intros H.
  assert (G : forall l : list (path * str), (forall de, In de l -> no_sep (snd de)) -> exists cs,
    Forall2 (fun de (c : cand) => with_extension (path_join (fst de) name) (snd de) = Some (fst c) /\ snd c = snd de) l cs).
  { induction l as [|de l IH]; intros N; [exists []; constructor|].
    destruct IH as [cs F]; [intros; apply N; right; auto|].
    destruct (with_extension_total (path_join (fst de) name) (snd de)) as [p E]; [apply N; left; auto|].
    exists ((p, snd de) :: cs). constructor; auto. }
  apply G. intros [d e] I. apply in_prod_iff in I as [_ I]. cbn; auto.
Qed.
Lemma candidates_fun f cs cs' : candidates f cs -> candidates f cs' -> cs = cs'.
Proof.
  unfold candidates. generalize (list_prod (ff_folders f) (ff_exts f)) as l. intros l H. revert cs'.
  induction H as [|de c l cs [H1 H2] F IH]; intros cs' H'; inversion H' as [|? c' ? cs'' [H1' H2'] F']; subst; auto.
  f_equal; auto. destruct c, c'; cbn in *. congruence.
Qed.
Lemma Forall2_len {A B} (R : A -> B -> Prop) l l' : Forall2 R l l' -> List.length l = List.length l'.
Proof. induction 1; cbn; auto. Qed.
Lemma candidates_length f cs : candidates f cs ->
  List.length cs = (List.length (ff_folders f) * List.length (ff_exts f))%nat.
Proof. intros H. apply Forall2_len in H. etransitivity; [symmetry; exact H | apply prod_length]. Qed.
Lemma candidates_nonempty f cs : candidates f cs -> complete f -> cs <> [].
Proof.
  intros H [A B] ->. apply candidates_length in H. destruct (ff_folders f), (ff_exts f); try contradiction. discriminate.
Qed.

Section Flat.
Variable ex : fs_oracle.
Variable oc : bool.

(** ** The loops over the flat list of candidates *)
Fixpoint first_flat (allow : bool) (cs : list cand) (first : option find_result) (t : nat)
  : flow find_result (option find_result) * nat :=
  match cs with
  | [] => (Next first, t)
  | c :: rest =>
    if ex t (fst c) then (Return (result_of c 0 (ex (S t) (fst c))), S (S t))
    else if allow && match first with None => true | Some _ => false end
         then first_flat allow rest (Some (result_of c 0 (ex (S t) (fst c)))) (S (S t))
         else first_flat allow rest first (S t)
  end.
Lemma first_exts_flat allow base exts cs : ext_cands base exts cs -> forall first t,
  find_first_exts ex allow base exts first t = Done (first_flat allow cs first t).
Proof.
  induction 1 as [|e c exts cs [H1 H2] F IH]; intros first t; [reflexivity|].
  cbn [find_first_exts first_flat]. rewrite H1. unfold fr_new, result_of. rewrite H2.
  destruct (ex t (fst c)); [reflexivity|].
  destruct (allow && _); apply IH.
Qed.
Lemma first_flat_app allow c1 c2 : forall first t,
  first_flat allow (c1 ++ c2) first t =
  match first_flat allow c1 first t with
  | (Return r, t') => (Return r, t')
  | (Next first', t') => first_flat allow c2 first' t'
  end.
Proof.
  induction c1 as [|c c1 IH]; intros first t; [reflexivity|]. cbn [app first_flat].
  destruct (ex t (fst c)); [reflexivity|]. destruct (allow && _); apply IH.
Qed.
Lemma first_folders_flat allow name exts ds : forall cs,
  candidates {| ff_folders := ds; ff_name := name; ff_exts := exts |} cs -> forall first t,
  find_first_folders ex allow name exts ds first t = Done (first_flat allow cs first t).
Proof.
  induction ds as [|d ds IH]; intros cs H first t.
  - inversion H. reflexivity.
  - apply candidates_cons in H as (c1 & c2 & -> & H1 & H2). cbn [find_first_folders].
    rewrite (first_exts_flat _ _ _ _ H1). cbn [obind]. rewrite first_flat_app.
    destruct (first_flat allow c1 first t) as [[r|first'] t']; [reflexivity|]. now apply IH.
Qed.

Fixpoint last_flat (allow : bool) (cs : list cand) (st : option find_result * option find_result) (t : nat)
  : (option find_result * option find_result) * nat :=
  match cs with
  | [] => (st, t)
  | c :: rest =>
    if ex t (fst c) then last_flat allow rest (Some (result_of c 0 (ex (S t) (fst c))), snd st) (S (S t))
    else if allow && match fst st with None => true | Some _ => false end
         then last_flat allow rest (fst st, Some (result_of c 0 (ex (S t) (fst c)))) (S (S t))
         else last_flat allow rest st (S t)
  end.
Lemma last_exts_flat allow base exts cs : ext_cands base exts cs -> forall st t,
  find_last_exts ex allow base exts st t = Done (last_flat allow cs st t).
Proof.
  induction 1 as [|e c exts cs [H1 H2] F IH]; intros st t; [reflexivity|].
  cbn [find_last_exts last_flat]. rewrite H1. unfold fr_new, result_of. rewrite H2.
  destruct (ex t (fst c)); [apply IH|]. destruct (allow && _); apply IH.
Qed.
Lemma last_flat_app allow c1 c2 : forall st t,
  last_flat allow (c1 ++ c2) st t = let '(st', t') := last_flat allow c1 st t in last_flat allow c2 st' t'.
Proof.
  induction c1 as [|c c1 IH]; intros st t; [reflexivity|]. cbn [app last_flat].
  destruct (ex t (fst c)); [apply IH|]. destruct (allow && _); apply IH.
Qed.
Lemma last_folders_flat allow name exts ds : forall cs,
  candidates {| ff_folders := ds; ff_name := name; ff_exts := exts |} cs -> forall st t,
  find_last_folders ex allow name exts ds st t = Done (last_flat allow cs st t).
Proof.
  induction ds as [|d ds IH]; intros cs H st t.
  - inversion H. reflexivity.
  - apply candidates_cons in H as (c1 & c2 & -> & H1 & H2). cbn [find_last_folders].
    rewrite (last_exts_flat _ _ _ _ H1). cbn [obind]. rewrite last_flat_app.
    destruct (last_flat allow c1 st t) as [st' t']. cbn [fst snd]. now apply IH.
Qed.

Fixpoint all_flat (allow : bool) (cs : list cand) (st : list find_result * Z) (t : nat)
  : outcome ((list find_result * Z) * nat) finder_error :=
  match cs with
  | [] => Done (st, t)
  | c :: rest =>
    let t1 := if allow then t else S t in
    if allow || ex t (fst c) then
      match u16_incr oc (snd st) with
      | None => Panic
      | Some i => all_flat allow rest (fst st ++ [result_of c (snd st) (ex t1 (fst c))], i) (S t1)
      end
    else all_flat allow rest st t1
  end.
Lemma all_exts_flat allow base exts cs : ext_cands base exts cs -> forall st t,
  find_all_exts ex oc allow base exts st t = all_flat allow cs st t.
Proof.
  induction 1 as [|e c exts cs [H1 H2] F IH]; intros st t; [reflexivity|].
  cbn [find_all_exts all_flat]. rewrite H1. unfold fr_new, fr_with_index, result_of. rewrite H2. cbn [fr_path fr_extension fr_exists].
  destruct (allow || ex t (fst c)); [|apply IH]. destruct (u16_incr oc (snd st)); [apply IH | reflexivity].
Qed.
Lemma all_flat_app allow c1 c2 : forall st t,
  all_flat allow (c1 ++ c2) st t = obind (all_flat allow c1 st t) (fun x => all_flat allow c2 (fst x) (snd x)).
Proof.
  induction c1 as [|c c1 IH]; intros st t; [reflexivity|]. cbn [app all_flat].
  destruct (allow || ex t (fst c)); [|apply IH]. destruct (u16_incr oc (snd st)); [apply IH | reflexivity].
Qed.
Lemma all_folders_flat allow name exts ds : forall cs,
  candidates {| ff_folders := ds; ff_name := name; ff_exts := exts |} cs -> forall st t,
  find_all_folders ex oc allow name exts ds st t = all_flat allow cs st t.
Proof.
  induction ds as [|d ds IH]; intros cs H st t.
  - inversion H. reflexivity.
  - apply candidates_cons in H as (c1 & c2 & -> & H1 & H2). cbn [find_all_folders].
    rewrite (all_exts_flat _ _ _ _ H1), all_flat_app.
    destruct (all_flat allow c1 st t); cbn [obind]; auto.
Qed.

Fixpoint aof_flat (cs : list cand) (files : list find_result) (first : option find_result) (index : Z) (t : nat)
  : outcome (list find_result * option find_result * Z * nat) finder_error :=
  match cs with
  | [] => Done (files, first, index, t)
  | c :: rest =>
    if ex t (fst c) then
      match u16_incr oc index with
      | None => Panic
      | Some i => aof_flat rest (files ++ [result_of c index (ex (S t) (fst c))]) first i (S (S t))
      end
    else match first with
         | None => aof_flat rest files (Some (result_of c 0 (ex (S t) (fst c)))) index (S (S t))
         | Some _ => aof_flat rest files first index (S t)
         end
  end.
Lemma aof_exts_flat base exts cs : ext_cands base exts cs -> forall files first i t,
  find_aof_exts ex oc base exts files first i t = aof_flat cs files first i t.
Proof.
  induction 1 as [|e c exts cs [H1 H2] F IH]; intros files first i t; [reflexivity|].
  cbn [find_aof_exts aof_flat]. rewrite H1. unfold fr_new, fr_with_index, result_of. rewrite H2. cbn [fr_path fr_extension fr_exists].
  destruct (ex t (fst c)); [destruct (u16_incr oc i); [apply IH | reflexivity]|]. destruct first; apply IH.
Qed.
Lemma aof_flat_app c1 c2 : forall files first i t,
  aof_flat (c1 ++ c2) files first i t =
  obind (aof_flat c1 files first i t) (fun x => match x with (fs, f, i', t') => aof_flat c2 fs f i' t' end).
Proof.
  induction c1 as [|c c1 IH]; intros files first i t; [reflexivity|]. cbn [app aof_flat].
  destruct (ex t (fst c)); [destruct (u16_incr oc i); [apply IH | reflexivity]|]. destruct first; apply IH.
Qed.
Lemma aof_folders_flat name exts ds : forall cs,
  candidates {| ff_folders := ds; ff_name := name; ff_exts := exts |} cs -> forall files first i t,
  find_aof_folders ex oc name exts ds files first i t = aof_flat cs files first i t.
Proof.
  induction ds as [|d ds IH]; intros cs H files first i t.
  - inversion H. reflexivity.
  - apply candidates_cons in H as (c1 & c2 & -> & H1 & H2). cbn [find_aof_folders].
    rewrite (aof_exts_flat _ _ _ H1), aof_flat_app.
    destruct (aof_flat c1 files first i t) as [[[[fs f] i'] t']| |]; cbn [obind]; auto.
Qed.

(** ** What the flat loops do *)
Lemma first_flat_spec allow cs : forall first t,
  match fst (first_flat allow cs first t) with
  | Return r => exists before c after ts tc te, cs = before ++ c :: after
      /\ observed ex before ts [] /\ increasing t (ts ++ [tc; te])
      /\ ex tc (fst c) = true /\ r = result_of c 0 (ex te (fst c))
  | Next first' => exists ts, observed ex cs ts [] /\ increasing t ts
      /\ match allow, first, cs with
         | true, None, c :: _ => exists te, first' = Some (result_of c 0 (ex te (fst c)))
         | _, _, _ => first' = first
         end
  end.
Proof.
  induction cs as [|c cs IH]; intros first t; cbn [first_flat].
  - cbn. exists []. split; [constructor|]. split; [cbn; auto|]. destruct allow, first; auto.
  - destruct (ex t (fst c)) eqn:E.
    + cbn. exists [], c, cs, [], t, (S t). repeat split; auto; [constructor | cbn; lia..].
    + destruct (allow && match first with None => true | Some _ => false end) eqn:A.
      * apply andb_true_iff in A as [-> A]. destruct first; [discriminate|].
        specialize (IH (Some (result_of c 0 (ex (S t) (fst c)))) (S (S t))).
        destruct (first_flat true cs _ (S (S t))) as [[r|first'] t']; cbn [fst] in *.
        -- destruct IH as (b & c' & a & ts & tc & te & -> & O & I & H & ->).
           exists (c :: b), c', a, (t :: ts), tc, te. repeat split; auto; [apply ObsMiss; auto|].
           cbn. clear - I. destruct (ts ++ [tc; te]); cbn in *; intuition lia.
        -- destruct IH as (ts & O & I & H). exists (t :: ts). split; [apply ObsMiss; auto|]. split.
           ++ cbn. clear - I. destruct ts; cbn in *; intuition lia.
           ++ exists (S t). exact H.
      * specialize (IH first (S t)).
        destruct (first_flat allow cs first (S t)) as [[r|first'] t']; cbn [fst] in *.
        -- destruct IH as (b & c' & a & ts & tc & te & -> & O & I & H & ->).
           exists (c :: b), c', a, (t :: ts), tc, te. repeat split; auto. apply ObsMiss; auto.
        -- destruct IH as (ts & O & I & H). exists (t :: ts). split; [apply ObsMiss; auto|]. split; [cbn; auto|].
           destruct allow, first; try discriminate; auto.
Qed.

Lemma increasing_le t t' ts : (t <= t')%nat -> increasing t' ts -> increasing t ts.
Proof. destruct ts; cbn; intuition lia. Qed.
Hint Resolve increasing_le : core.

Lemma last_flat_spec allow cs : forall lf lr t lf' lr' t', last_flat allow cs (lf, lr) t = ((lf', lr'), t') ->
  (exists before c after tsb found tc te tsa, cs = before ++ c :: after
     /\ observed ex before tsb found /\ observed ex after tsa [] /\ increasing t (tsb ++ tc :: te :: tsa)
     /\ ex tc (fst c) = true /\ lf' = Some (result_of c 0 (ex te (fst c))))
  \/ (exists ts, observed ex cs ts [] /\ increasing t ts /\ lf' = lf
       /\ match allow, lf, cs with
          | true, None, _ :: _ => exists before c te, cs = before ++ [c] /\ lr' = Some (result_of c 0 (ex te (fst c)))
          | _, _, _ => lr' = lr
          end).
Proof.
  induction cs as [|c cs IH]; intros lf lr t lf' lr' t' E; cbn [last_flat] in E.
  - injection E as <- <- <-. right. exists []. split; [constructor|]. split; [cbn; auto|]. split; auto.
    destruct allow, lf; auto.
  - destruct (ex t (fst c)) eqn:X.
    + cbn [snd] in E. apply IH in E as [(b & c' & a & tsb & fo & tc & te & tsa & -> & O & O' & I & H & ->)|(ts & O & I & -> & _)].
      * left. exists (c :: b), c', a, (t :: tsb), (c :: fo), tc, te, tsa.
        split; [reflexivity|]. split; [apply ObsHit; auto|]. split; [auto|]. split; [|auto].
        cbn [app increasing]. split; [lia|]. eapply increasing_le; [|exact I]; lia.
      * left. exists [], c, cs, [], [], t, (S t), ts.
        split; [reflexivity|]. split; [constructor|]. split; [auto|]. split; [|auto].
        cbn [app increasing]. split; [lia|]. split; [lia|]. exact I.
    + cbn [fst] in E.
      destruct (allow && match lf with None => true | Some _ => false end) eqn:A.
      * apply andb_true_iff in A as [-> A]. destruct lf; [discriminate|].
        apply IH in E as [(b & c' & a & tsb & fo & tc & te & tsa & -> & O & O' & I & H & ->)|(ts & O & I & -> & H)].
        -- left. exists (c :: b), c', a, (t :: tsb), fo, tc, te, tsa.
           split; [reflexivity|]. split; [apply ObsMiss; auto|]. split; [auto|]. split; [|auto].
           cbn [app increasing]. split; [lia|]. eapply increasing_le; [|exact I]; lia.
        -- right. exists (t :: ts). split; [apply ObsMiss; auto|].
           split; [cbn [increasing]; split; [lia | eapply increasing_le; [|exact I]; lia]|]. split; auto.
           destruct cs as [|c1 cs].
           ++ exists [], c, (S t). auto.
           ++ destruct H as (b & c' & te & -> & ->). exists (c :: b), c', te. auto.
      * apply IH in E as [(b & c' & a & tsb & fo & tc & te & tsa & -> & O & O' & I & H & ->)|(ts & O & I & -> & H)].
        -- left. exists (c :: b), c', a, (t :: tsb), fo, tc, te, tsa.
           split; [reflexivity|]. split; [apply ObsMiss; auto|]. split; [auto|]. split; [|auto].
           cbn [app increasing]. auto.
        -- right. exists (t :: ts). split; [apply ObsMiss; auto|].
           split; [cbn [increasing]; auto|]. split; auto.
           destruct allow, lf; cbn in A; try discriminate; destruct cs; auto.
Qed.

(** Results numbered from n on. *)
Inductive described : Z -> list cand -> list find_result -> Prop :=
| DescNil n : described n [] []
| DescCons n c te sel l : described (n + 1) sel l ->
    described n (c :: sel) (result_of c (n mod 65536) (ex te (fst c)) :: l).
Lemma described_numbered n sel l : described n sel l ->
  List.length l = List.length sel /\
  forall i c, nth_error sel i = Some c ->
    exists te, nth_error l i = Some (result_of c ((n + Z.of_nat i) mod 65536) (ex te (fst c))).
Proof.
  induction 1 as [n|n c te sel l D [L IH]]; cbn.
  - split; auto. intros [|]; discriminate.
  - split; [lia|]. intros [|i] c' E; cbn in E.
    + injection E as <-. exists te. cbn. now rewrite Z.add_0_r.
    + apply IH in E as [te' E]. exists te'. cbn. rewrite E. do 2 f_equal. f_equal. lia.
Qed.
Lemma described_numbered0 sel l : described 0 sel l -> numbered ex sel l.
Proof. intros D. apply described_numbered in D as [L H]. split; auto. Qed.
End Flat.

Lemma incr_wrap n : (0 <= n)%Z -> u16_incr false (n mod 65536) = Some ((n + 1) mod 65536)%Z.
Proof.
  intros P. unfold u16_incr. assert (B := Z.mod_pos_bound n 65536 eq_refl).
  destruct (Z.ltb_spec (n mod 65536) 65535).
  - f_equal. rewrite <- (Zplus_mod_idemp_l n 1). symmetry. apply Z.mod_small. lia.
  - assert (E : (n mod 65536 = 65535)%Z) by lia. rewrite <- (Zplus_mod_idemp_l n 1), E. reflexivity.
Qed.

Lemma all_flat_wrap ex allow cs : forall files n t, (0 <= n)%Z ->
  exists ts sel new t',
    all_flat ex false allow cs (files, n mod 65536)%Z t
      = Done ((files ++ new, ((n + Z.of_nat (List.length new)) mod 65536)%Z), t')
    /\ described ex n sel new
    /\ if allow then sel = cs else observed ex cs ts sel /\ increasing t ts.
Proof.
  induction cs as [|c cs IH]; intros files n t P; cbn [all_flat].
  - exists [], [], [], t. rewrite app_nil_r. cbn. rewrite Z.add_0_r. split; auto. split; [constructor|].
    destruct allow; auto. split; [constructor | cbn; auto].
  - cbn [fst snd]. rewrite (incr_wrap n P).
    set (t1 := if allow then t else S t).
    destruct (allow || ex t (fst c)) eqn:A.
    + destruct (IH (files ++ [result_of c (n mod 65536) (ex t1 (fst c))]) (n + 1)%Z (S t1)) as (ts & sel & new & t' & E & D & H); [lia|].
      exists (t :: ts), (c :: sel), (result_of c (n mod 65536) (ex t1 (fst c)) :: new), t'.
      rewrite E. rewrite <- app_assoc. cbn [app List.length]. split; [do 3 f_equal; f_equal; lia|].
      split; [now apply DescCons|]. destruct allow; [congruence|]. destruct H as [O I].
      split; [apply ObsHit; auto|]. cbn [increasing]. split; [lia|]. subst t1. eapply increasing_le; [|exact I]; lia.
    + destruct (IH files n t1 P) as (ts & sel & new & t' & E & D & H).
      destruct allow; [discriminate|]. cbn in A. destruct H as [O I].
      exists (t :: ts), sel, new, t'. split; [exact E|]. split; auto. split; [apply ObsMiss; auto|].
      cbn [increasing]. split; [lia|]. exact I.
Qed.
Lemma all_flat_checked ex allow cs : forall files i t, (0 <= i <= 65535)%Z ->
  match all_flat ex false allow cs (files, i) t with
  | Done ((files', i'), t') => exists new, files' = files ++ new /\
      all_flat ex true allow cs (files, i) t =
        if (i + Z.of_nat (List.length new) <=? 65535)%Z then Done ((files', i'), t') else Panic
  | _ => False
  end.
Proof.
  induction cs as [|c cs IH]; intros files i t B; cbn [all_flat].
  - exists []. rewrite app_nil_r. cbn. rewrite Z.add_0_r. destruct (Z.leb_spec i 65535); [auto | lia].
  - cbn [fst snd]. set (t1 := if allow then t else S t).
    destruct (allow || ex t (fst c)); [|now apply IH]. unfold u16_incr.
    destruct (Z.ltb_spec i 65535) as [L|L].
    + specialize (IH (files ++ [result_of c i (ex t1 (fst c))]) (i + 1)%Z (S t1)).
      destruct (all_flat ex false allow cs _ (S t1)) as [[[files' i'] t']| |]; try (apply IH; lia).
      destruct IH as (new & -> & ->); [lia|]. exists (result_of c i (ex t1 (fst c)) :: new).
      rewrite <- app_assoc. split; auto. cbn [List.length].
      replace (i + 1 + Z.of_nat (List.length new))%Z with (i + Z.of_nat (S (List.length new)))%Z by lia. reflexivity.
    + specialize (IH (files ++ [result_of c i (ex t1 (fst c))]) 0%Z (S t1)).
      destruct (all_flat ex false allow cs _ (S t1)) as [[[files' i'] t']| |]; try (apply IH; lia).
      destruct IH as (new & -> & _); [lia|]. exists (result_of c i (ex t1 (fst c)) :: new).
      rewrite <- app_assoc. split; auto. cbn [List.length]. destruct (Z.leb_spec (i + Z.of_nat (S (List.length new))) 65535); [lia | auto].
Qed.

Lemma aof_flat_wrap ex cs : forall files first n t, (0 <= n)%Z ->
  exists ts sel new first' t',
    aof_flat ex false cs files first (n mod 65536)%Z t
      = Done (files ++ new, first', ((n + Z.of_nat (List.length new)) mod 65536)%Z, t')
    /\ described ex n sel new /\ observed ex cs ts sel /\ increasing t ts
    /\ match first with
       | Some r => first' = Some r
       | None => sel = [] -> match cs with
                             | [] => first' = None
                             | c :: _ => exists te, first' = Some (result_of c 0 (ex te (fst c)))
                             end
       end.
Proof.
  induction cs as [|c cs IH]; intros files first n t P; cbn [aof_flat].
  - exists [], [], [], first, t. rewrite app_nil_r. cbn. rewrite Z.add_0_r. split; auto. split; [constructor|].
    split; [constructor|]. split; auto. destruct first; auto.
  - destruct (ex t (fst c)) eqn:X.
    + rewrite (incr_wrap n P).
      destruct (IH (files ++ [result_of c (n mod 65536) (ex (S t) (fst c))]) first (n + 1)%Z (S (S t)))
        as (ts & sel & new & first' & t' & E & D & O & I & H); [lia|].
      exists (t :: ts), (c :: sel), (result_of c (n mod 65536) (ex (S t) (fst c)) :: new), first', t'.
      rewrite E, <- app_assoc. cbn [app List.length]. split; [do 3 f_equal; f_equal; lia|].
      split; [now apply DescCons|]. split; [apply ObsHit; auto|].
      split; [cbn [increasing]; split; [lia | eapply increasing_le; [|exact I]; lia]|].
      destruct first; auto. discriminate.
    + destruct first as [r|].
      * destruct (IH files (Some r) n (S t) P) as (ts & sel & new & first' & t' & E & D & O & I & H).
        exists (t :: ts), sel, new, first', t'. split; [exact E|]. split; auto. split; [apply ObsMiss; auto|].
        split; [cbn [increasing]; auto | exact H].
      * destruct (IH files (Some (result_of c 0 (ex (S t) (fst c)))) n (S (S t)) P) as (ts & sel & new & first' & t' & E & D & O & I & H).
        exists (t :: ts), sel, new, first', t'. split; [exact E|]. split; auto. split; [apply ObsMiss; auto|].
        split; [cbn [increasing]; split; [lia | eapply increasing_le; [|exact I]; lia]|].
        intros _. exists (S t). exact H.
Qed.
Lemma aof_flat_checked ex cs : forall files first i t, (0 <= i <= 65535)%Z ->
  match aof_flat ex false cs files first i t with
  | Done (files', first', i', t') => exists new, files' = files ++ new /\
      aof_flat ex true cs files first i t =
        if (i + Z.of_nat (List.length new) <=? 65535)%Z then Done (files', first', i', t') else Panic
  | _ => False
  end.
Proof.
  induction cs as [|c cs IH]; intros files first i t B; cbn [aof_flat].
  - exists []. rewrite app_nil_r. cbn. rewrite Z.add_0_r. destruct (Z.leb_spec i 65535); [auto | lia].
  - destruct (ex t (fst c)); [|destruct first; now apply IH]. unfold u16_incr.
    destruct (Z.ltb_spec i 65535) as [L|L].
    + specialize (IH (files ++ [result_of c i (ex (S t) (fst c))]) first (i + 1)%Z (S (S t))).
      destruct (aof_flat ex false cs _ first (i + 1)%Z (S (S t))) as [[[[files' first'] i'] t']| |]; try (apply IH; lia).
      destruct IH as (new & -> & ->); [lia|]. exists (result_of c i (ex (S t) (fst c)) :: new).
      rewrite <- app_assoc. split; auto. cbn [List.length].
      replace (i + 1 + Z.of_nat (List.length new))%Z with (i + Z.of_nat (S (List.length new)))%Z by lia. reflexivity.
    + specialize (IH (files ++ [result_of c i (ex (S t) (fst c))]) first 0%Z (S (S t))).
      destruct (aof_flat ex false cs _ first 0%Z (S (S t))) as [[[[files' first'] i'] t']| |]; try (apply IH; lia).
      destruct IH as (new & -> & _); [lia|]. exists (result_of c i (ex (S t) (fst c)) :: new).
      rewrite <- app_assoc. split; auto. cbn [List.length]. destruct (Z.leb_spec (i + Z.of_nat (S (List.length new))) 65535); [lia | auto].
Qed.
