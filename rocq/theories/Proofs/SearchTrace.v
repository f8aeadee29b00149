(** The dialogues of the four searches with the file system (C120). *)
From Coq Require Import ZArith Bool String Lia List.
Import ListNotations.
From Verif.Model Require Import Text Value Paths Finder.
From Verif.Spec Require Import PathSpec FinderSpec SearchSpec.
From Verif.Proofs Require Import Basics PathLemmas FinderProofs FinderTop.
Arguments Z.modulo : simpl never.
Local Open Scope nat_scope.

Section Trace.
Variable ex : fs_oracle.

Lemma replies_nil t : replies ex t [].
Proof. intros [|i] p b H; discriminate. Qed.
Lemma replies_cons t p b tr : replies ex t ((p, b) :: tr) <-> ex t p = b /\ replies ex (S t) tr.
Proof.
  unfold replies. split.
  - intros H. split; [rewrite <- (H 0%nat p b eq_refl); f_equal; lia|].
    intros i q c E. rewrite <- (H (S i) q c E). f_equal. lia.
  - intros [H1 H2] [|i] q c E; cbn in E.
    + injection E as <- <-. rewrite <- H1. f_equal. lia.
    + rewrite <- (H2 i q c E). f_equal. lia.
Qed.
Lemma replies_app t tr1 tr2 : replies ex t (tr1 ++ tr2) <-> replies ex t tr1 /\ replies ex (t + List.length tr1)%nat tr2.
Proof.
  revert t. induction tr1 as [|[p b] tr1 IH]; intros t; cbn [app List.length].
  - rewrite Nat.add_0_r. split; [intros; split; [apply replies_nil | auto] | tauto].
  - rewrite !replies_cons, IH. replace (S t + List.length tr1)%nat with (t + S (List.length tr1))%nat by lia. tauto.
Qed.

(** Every file system behaviour has its dialogue. *)
Lemma one_pass_exists cs : forall t, exists tr found, replies ex t tr /\ one_pass cs tr found.
Proof.
  induction cs as [|c cs IH]; intros t; [exists [], []; split; [apply replies_nil | constructor]|].
  destruct (ex t (fst c)) eqn:E.
  - destruct (IH (S (S t))) as (tr & fo & R & P). exists ((fst c, true) :: (fst c, ex (S t) (fst c)) :: tr), ((c, ex (S t) (fst c)) :: fo).
    rewrite !replies_cons. split; auto. now constructor.
  - destruct (IH (S t)) as (tr & fo & R & P). exists ((fst c, false) :: tr), fo. rewrite !replies_cons. split; auto. now constructor.
Qed.

(** ** find_first *)
Lemma first_missed allow cs : forall rest first t, replies ex t (missed cs) -> allow = false \/ first <> None ->
  first_flat ex allow (cs ++ rest) first t = first_flat ex allow rest first (t + List.length cs).
Proof.
  induction cs as [|c cs IH]; intros rest first t R A; cbn [app missed map List.length first_flat].
  - now rewrite Nat.add_0_r.
  - cbn [missed map] in R. apply replies_cons in R as [E R]. rewrite E.
    assert (X : allow && match first with None => true | Some _ => false end = false).
    { destruct A as [->|A]; [reflexivity|]. destruct first; [apply andb_false_r | contradiction]. }
    rewrite X, (IH _ _ _ R A). f_equal. lia.
Qed.
Lemma missed_length cs : List.length (missed cs) = List.length cs.
Proof. apply map_length. Qed.

Definition first_answer (allow : bool) (x : flow find_result (option find_result) * nat) : outcome find_result finder_error :=
  match fst x with
  | Return r => Done r
  | Next first => if allow then match first with Some r => Done r | None => Fail NoFilesFound end else Fail NoFilesFound
  end.
Lemma first_flat_dialogue allow cs tr x : first_dialogue allow cs tr x -> replies ex 0 tr ->
  first_answer allow (first_flat ex allow cs None 0) = match x with Some y => Done (single y) | None => Fail NoFilesFound end.
Proof.
  intros D R. destruct D as [before c b after|cs|c b rest|c0 b0 before c b after|c0 b0 rest].
  - apply replies_app in R as [R1 R2]. rewrite missed_length in R2. cbn [plus] in R2.
    rewrite first_missed by auto. cbn [first_flat plus]. apply replies_cons in R2 as [-> R2]. apply replies_cons in R2 as [-> _]. reflexivity.
  - rewrite <- (app_nil_r cs) at 1. rewrite first_missed by auto. reflexivity.
  - apply replies_cons in R as [E R]. apply replies_cons in R as [E' _]. cbn [first_flat]. now rewrite E, E'.
  - apply replies_cons in R as [E R]. apply replies_cons in R as [E' R]. cbn [first_flat]. rewrite E, E'. cbn [andb].
    apply replies_app in R as [R1 R2]. rewrite missed_length in R2. rewrite first_missed by (auto; right; discriminate).
    cbn [first_flat]. apply replies_cons in R2 as [-> R2]. apply replies_cons in R2 as [-> _]. reflexivity.
  - apply replies_cons in R as [E R]. apply replies_cons in R as [E' R]. cbn [first_flat]. rewrite E, E'. cbn [andb].
    rewrite <- (app_nil_r rest), first_missed by (auto; right; discriminate). reflexivity.
Qed.
Lemma missed_or_found cs : forall t,
  replies ex t (missed cs) \/
  exists before c b after, cs = before ++ c :: after /\ replies ex t (missed before ++ [(fst c, true); (fst c, b)]).
Proof.
  induction cs as [|c cs IH]; intros t; [left; apply replies_nil|]. destruct (ex t (fst c)) eqn:E.
  - right. exists [], c, (ex (S t) (fst c)), cs. split; auto. cbn. rewrite !replies_cons. repeat split; auto. apply replies_nil.
  - destruct (IH (S t)) as [R|(b & d & x & a & -> & R)].
    + left. cbn [missed map]. rewrite replies_cons. auto.
    + right. exists (c :: b), d, x, a. split; auto. cbn [missed map app]. rewrite replies_cons. auto.
Qed.
Lemma first_dialogue_exists allow cs : cs <> [] -> exists tr x, replies ex 0 tr /\ first_dialogue allow cs tr x.
Proof.
  intros N. destruct allow.
  - destruct cs as [|c cs]; [contradiction|]. destruct (ex 0 (fst c)) eqn:E.
    + exists [(fst c, true); (fst c, ex 1 (fst c))], (Some (c, ex 1%nat (fst c))). rewrite !replies_cons.
      repeat split; auto; [apply replies_nil | constructor].
    + destruct (missed_or_found cs 2) as [R|(b & d & x & a & -> & R)].
      * exists ((fst c, false) :: (fst c, ex 1%nat (fst c)) :: missed cs), (Some (c, ex 1%nat (fst c))). rewrite !replies_cons.
        repeat split; auto. constructor.
      * exists ((fst c, false) :: (fst c, ex 1%nat (fst c)) :: missed b ++ [(fst d, true); (fst d, x)]), (Some (d, x)). rewrite !replies_cons.
        repeat split; auto. constructor.
  - destruct (missed_or_found cs 0) as [R|(b & d & x & a & -> & R)].
    + exists (missed cs), None. split; auto. constructor.
    + eexists _, (Some (d, x)). split; [exact R | constructor].
Qed.

(** ** find_last *)
Definition pair_result (o : option (cand * bool)) (d : option find_result) : option find_result :=
  match o with Some y => Some (single y) | None => d end.
Definition latest (l : list (cand * bool)) : option (cand * bool) := match rev l with [] => None | x :: _ => Some x end.
Lemma latest_app l x : latest (l ++ [x]) = Some x.
Proof. unfold latest. rewrite rev_app_distr. reflexivity. Qed.
Lemma latest_nil : latest [] = None. Proof. reflexivity. Qed.
Lemma latest_cons x l : latest (x :: l) = match latest l with Some y => Some y | None => Some x end.
Proof. unfold latest. cbn [rev]. destruct (rev l); reflexivity. Qed.

Lemma last_pass allow cs tr found : one_pass cs tr found -> forall lf lr t, replies ex t tr -> allow = false \/ lf <> None ->
  exists t', last_flat ex allow cs (lf, lr) t = ((pair_result (latest found) lf, lr), t').
Proof.
  induction 1 as [|c b cs tr fo P IH|c cs tr fo P IH]; intros lf lr t R A; cbn [last_flat].
  - exists t. reflexivity.
  - apply replies_cons in R as [E R]. apply replies_cons in R as [E' R]. rewrite E, E'. cbn [snd].
    destruct (IH (Some (result_of c 0 b)) lr (S (S t)) R) as [t' ->]; [right; discriminate|].
    exists t'. rewrite latest_cons. destruct (latest fo); reflexivity.
  - apply replies_cons in R as [E R]. rewrite E. cbn [fst].
    assert (X : allow && match lf with None => true | Some _ => false end = false).
    { destruct A as [->|A]; [reflexivity|]. destruct lf; [apply andb_false_r | contradiction]. }
    rewrite X. apply IH; auto.
Qed.
Lemma last_twice cs tr seen : twice_missed cs tr seen -> forall rest lr t, replies ex t tr ->
  last_flat ex true (cs ++ rest) (None, lr) t = last_flat ex true rest (None, pair_result (latest seen) lr) (t + List.length tr).
Proof.
  induction 1 as [|c b cs tr seen P IH]; intros rest lr t R; cbn [app last_flat List.length].
  - rewrite Nat.add_0_r. reflexivity.
  - apply replies_cons in R as [E R]. apply replies_cons in R as [E' R]. rewrite E, E'. cbn [fst andb].
    rewrite (IH _ _ _ R), latest_cons. replace (S (S t) + List.length tr)%nat with (t + S (S (List.length tr)))%nat by lia.
    destruct (latest seen); reflexivity.
Qed.
Definition last_answer (allow : bool) (st : option find_result * option find_result) : outcome find_result finder_error :=
  match st with
  | (Some r, _) => Done r
  | (None, l) => if allow then match l with Some r => Done r | None => Fail NoFilesFound end else Fail NoFilesFound
  end.
Lemma last_flat_dialogue allow cs tr x : last_dialogue allow cs tr x -> replies ex 0 tr ->
  last_answer allow (fst (last_flat ex allow cs (None, None) 0)) = match x with Some y => Done (single y) | None => Fail NoFilesFound end.
Proof.
  intros D R. destruct D as [cs tr fo x P|cs tr P|before tr1 seen c b after tr2 fo others x T P L|cs tr seen x T].
  - destruct (last_pass false _ _ _ P None None 0 R) as [t' ->]; auto. rewrite latest_app. reflexivity.
  - destruct (last_pass false _ _ _ P None None 0 R) as [t' ->]; auto.
  - apply replies_app in R as [R1 R]. apply replies_cons in R as [E R]. apply replies_cons in R as [E' R].
    rewrite (last_twice _ _ _ T _ _ _ R1). cbn [last_flat]. rewrite E, E'. cbn [snd].
    destruct (last_pass true _ _ _ P (Some (result_of c 0 b)) (pair_result (latest seen) None) _ R) as [t' ->]; [right; discriminate|].
    cbn [fst]. assert (Q := f_equal latest L). rewrite latest_cons, latest_app in Q.
    destruct (latest fo) as [y|]; injection Q as <-; reflexivity.
  - assert (X := last_twice _ _ _ T [] None 0 R). rewrite app_nil_r in X. rewrite X. cbn [last_flat fst].
    rewrite latest_app. reflexivity.
Qed.
Lemma twice_or_found cs : forall t,
  (exists tr seen, replies ex t tr /\ twice_missed cs tr seen /\ List.length seen = List.length cs) \/
  exists before c b after tr seen, cs = before ++ c :: after /\ twice_missed before tr seen
    /\ replies ex t (tr ++ [(fst c, true); (fst c, b)]).
Proof.
  induction cs as [|c cs IH]; intros t; [left; exists [], []; repeat split; [apply replies_nil | constructor]|].
  destruct (ex t (fst c)) eqn:E.
  - right. exists [], c, (ex (S t) (fst c)), cs, [], []. split; auto. split; [constructor|].
    cbn. rewrite !replies_cons. repeat split; auto. apply replies_nil.
  - destruct (IH (S (S t))) as [(tr & seen & R & T & L)|(b & d & x & a & tr & seen & -> & T & R)].
    + left. exists ((fst c, false) :: (fst c, ex (S t) (fst c)) :: tr), ((c, ex (S t) (fst c)) :: seen).
      rewrite !replies_cons. split; auto. split; [now constructor | cbn; lia].
    + right. exists (c :: b), d, x, a, ((fst c, false) :: (fst c, ex (S t) (fst c)) :: tr), ((c, ex (S t) (fst c)) :: seen).
      split; auto. split; [now constructor|]. cbn [app]. rewrite !replies_cons. auto.
Qed.
Lemma snoc_or_nil {A} (l : list A) : l = [] \/ exists i x, l = i ++ [x].
Proof. destruct l using rev_ind; eauto. Qed.
Lemma last_dialogue_exists allow cs : cs <> [] -> exists tr x, replies ex 0 tr /\ last_dialogue allow cs tr x.
Proof.
  intros N. destruct allow.
  - destruct (twice_or_found cs 0) as [(tr & seen & R & T & L)|(b & d & x & a & tr & seen & -> & T & R)].
    + destruct (snoc_or_nil seen) as [->|(i & x & ->)]; [destruct cs; [contradiction | discriminate]|].
      exists tr, (Some x). split; auto. eapply LastFallback; eauto.
    + apply replies_app in R as [R1 R2].
      destruct (one_pass_exists a (0 + List.length tr + 2)) as (tr2 & fo & R & P).
      destruct (snoc_or_nil ((d, x) :: fo)) as [Q|(i & y & Q)]; [discriminate|].
      exists (tr ++ (fst d, true) :: (fst d, x) :: tr2), (Some y). split.
      * apply replies_app. split; auto. apply replies_cons in R2 as [E R2]. apply replies_cons in R2 as [E' _].
        rewrite !replies_cons. repeat split; auto.
        now replace (S (S (0 + List.length tr))) with (0 + List.length tr + 2)%nat by lia.
      * eapply LastAfter; eauto.
  - destruct (one_pass_exists cs 0) as (tr & fo & R & P). destruct (snoc_or_nil fo) as [->|(i & x & ->)].
    + exists tr, None. split; auto. now constructor.
    + exists tr, (Some x). split; auto. econstructor; eauto.
Qed.

(** ** find_all and find_all_or_first: indices modulo 2^16 *)
Lemma results_length n l : List.length (results n l) = List.length l.
Proof. revert n. induction l as [|[c b] l IH]; intros n; cbn; auto. Qed.
Lemma results_app n l r : results n (l ++ r) = results n l ++ results (n + Z.of_nat (List.length l)) r.
Proof.
  revert n. induction l as [|[c b] l IH]; intros n; cbn [app results List.length]; [f_equal; lia|].
  rewrite IH. cbn [app]. do 3 f_equal. lia.
Qed.
Lemma results_nth n l i c b : nth_error l i = Some (c, b) ->
  nth_error (results n l) i = Some (result_of c ((n + Z.of_nat i) mod 65536) b).
Proof.
  revert n i. induction l as [|[c' b'] l IH]; intros n [|i] H; try discriminate.
  - cbn in H. injection H as <- <-. cbn. do 2 f_equal. f_equal. lia.
  - cbn [results nth_error]. rewrite (IH (n + 1)%Z i H). do 2 f_equal. f_equal. lia.
Qed.

Lemma all_pass cs tr found : one_pass cs tr found -> forall files n t, (0 <= n)%Z -> replies ex t tr ->
  exists t', all_flat ex false false cs (files, n mod 65536)%Z t
    = Done ((files ++ results n found, ((n + Z.of_nat (List.length found)) mod 65536)%Z), t').
Proof.
  induction 1 as [|c b cs tr fo P IH|c cs tr fo P IH]; intros files n t B R; cbn [all_flat].
  - exists t. cbn. rewrite app_nil_r, Z.add_0_r. reflexivity.
  - apply replies_cons in R as [E R]. apply replies_cons in R as [E' R]. rewrite E, E'. cbn [fst snd orb].
    rewrite (incr_wrap n B). destruct (IH (files ++ [result_of c (n mod 65536) b]) (n + 1)%Z (S (S t))) as [t' ->]; [lia | auto |].
    exists t'. rewrite <- app_assoc. cbn [results app List.length]. do 3 f_equal. f_equal. lia.
  - apply replies_cons in R as [E R]. rewrite E. cbn [orb]. apply IH; auto.
Qed.
Lemma all_missing cs : forall bs files n t, (0 <= n)%Z -> List.length bs = List.length cs ->
  replies ex t (List.combine (map fst cs) bs) ->
  exists t', all_flat ex false true cs (files, n mod 65536)%Z t
    = Done ((files ++ results n (List.combine cs bs), ((n + Z.of_nat (List.length (List.combine cs bs))) mod 65536)%Z), t').
Proof.
  induction cs as [|c cs IH]; intros [|b bs] files n t B L R; try discriminate; cbn [all_flat].
  - exists t. cbn. rewrite app_nil_r, Z.add_0_r. reflexivity.
  - cbn [map List.combine] in R. apply replies_cons in R as [E R]. rewrite E. cbn [fst snd orb].
    rewrite (incr_wrap n B). injection L as L.
    destruct (IH bs (files ++ [result_of c (n mod 65536) b]) (n + 1)%Z (S t)) as [t' ->]; [lia | auto | auto |].
    exists t'. rewrite <- app_assoc. cbn [List.combine results app List.length]. do 3 f_equal. f_equal. lia.
Qed.
Definition all_answer (x : outcome ((list find_result * Z) * nat) finder_error) : outcome (list find_result) finder_error :=
  obind x (fun x => match fst (fst x) with [] => Fail NoFilesFound | files => Done files end).
Lemma all_flat_dialogue oc allow cs tr found : all_dialogue allow cs tr found -> replies ex 0 tr ->
  all_answer (all_flat ex oc allow cs ([], 0%Z) 0) = match found with [] => Fail NoFilesFound | _ => listed oc found end.
Proof.
  intros D R.
  assert (X : exists t', all_flat ex false allow cs ([], 0 mod 65536)%Z 0
    = Done (([] ++ results 0 found, ((0 + Z.of_nat (List.length found)) mod 65536)%Z), t')).
  { destruct D as [cs tr fo P|cs bs L]; [eapply all_pass; eauto; lia | apply all_missing; auto; lia]. }
  destruct X as [t' X]. cbn [app] in X. change (0 mod 65536)%Z with 0%Z in X.
  assert (K := all_flat_checked ex allow cs [] 0 0). rewrite X in K. destruct K as (new & En & K); [lia|]. cbn [app] in En; subst new.
  rewrite results_length in K.
  assert (G : all_answer (Done (results 0 found, ((0 + Z.of_nat (List.length found)) mod 65536)%Z, t'))
    = match found with [] => Fail NoFilesFound | _ => Done (results 0 found) end).
  { destruct found as [|[c b] fo]; reflexivity. }
  destruct oc; [rewrite K | rewrite X].
  - destruct (Z.leb_spec (0 + Z.of_nat (List.length found)) 65535) as [B|B].
    + rewrite G. destruct found as [|y fo] eqn:Ef; auto. rewrite <- Ef in *. unfold listed. cbn [andb].
      destruct (Z.leb_spec 65536 (Z.of_nat (List.length found))); [lia | reflexivity].
    + destruct found as [|y fo] eqn:Ef; [cbn in B; lia|]. rewrite <- Ef in *. unfold listed. cbn [andb].
      destruct (Z.leb_spec 65536 (Z.of_nat (List.length found))); [reflexivity | lia].
  - rewrite G. destruct found; auto.
Qed.
Lemma all_dialogue_exists allow cs : exists tr found, replies ex 0 tr /\ all_dialogue allow cs tr found.
Proof.
  destruct allow.
  - assert (H : forall t, exists bs, List.length bs = List.length cs /\ replies ex t (List.combine (map fst cs) bs)).
    { induction cs as [|c l IH]; intros t; [exists []; split; [auto | apply replies_nil]|].
      destruct (IH (S t)) as (bs & L & R). exists (ex t (fst c) :: bs). cbn. rewrite replies_cons. auto. }
    destruct (H 0%nat) as (bs & L & R). eexists _, _. split; [exact R | now constructor].
  - destruct (one_pass_exists cs 0) as (tr & fo & R & P). exists tr, fo. split; auto. now constructor.
Qed.

Lemma aof_pass_first cs tr found : one_pass cs tr found -> forall files r n t, (0 <= n)%Z -> replies ex t tr ->
  exists t', aof_flat ex false cs files (Some r) (n mod 65536)%Z t
    = Done (files ++ results n found, Some r, ((n + Z.of_nat (List.length found)) mod 65536)%Z, t').
Proof.
  induction 1 as [|c b cs tr fo P IH|c cs tr fo P IH]; intros files r n t B R; cbn [aof_flat].
  - exists t. cbn. rewrite app_nil_r, Z.add_0_r. reflexivity.
  - apply replies_cons in R as [E R]. apply replies_cons in R as [E' R]. rewrite E, E'.
    rewrite (incr_wrap n B). destruct (IH (files ++ [result_of c (n mod 65536) b]) r (n + 1)%Z (S (S t))) as [t' ->]; [lia | auto |].
    exists t'. rewrite <- app_assoc. cbn [results app List.length]. do 3 f_equal. f_equal. lia.
  - apply replies_cons in R as [E R]. rewrite E. apply IH; auto.
Qed.
Lemma one_pass_le cs tr found : one_pass cs tr found -> (List.length found <= List.length cs)%nat.
Proof. induction 1; cbn; lia. Qed.
Lemma aof_pass_all cs tr found : one_pass cs tr found -> List.length found = List.length cs ->
  forall rest files n t, (0 <= n)%Z -> replies ex t tr ->
  aof_flat ex false (cs ++ rest) files None (n mod 65536)%Z t
    = aof_flat ex false rest (files ++ results n found) None ((n + Z.of_nat (List.length found)) mod 65536)%Z (t + List.length tr).
Proof.
  induction 1 as [|c b cs tr fo P IH|c cs tr fo P IH]; intros L rest files n t B R; cbn [app aof_flat List.length].
  - cbn. rewrite app_nil_r, Z.add_0_r, Nat.add_0_r. reflexivity.
  - apply replies_cons in R as [E R]. apply replies_cons in R as [E' R]. rewrite E, E'. rewrite (incr_wrap n B).
    cbn in L. rewrite IH by (auto; lia). rewrite <- app_assoc. cbn [results app].
    replace (S (S t) + List.length tr)%nat with (t + S (S (List.length tr)))%nat by lia. f_equal. f_equal. lia.
  - apply one_pass_le in P. cbn in L. lia.
Qed.
Definition aof_answer (x : outcome (list find_result * option find_result * Z * nat) finder_error) : outcome (list find_result) finder_error :=
  obind x (fun x => match x with
    | (files, first, _, _) => match files with
        | [] => match first with Some r => Done [fr_with_index r 0] | None => Fail NoFilesFound end
        | _ => Done files end end).
Lemma one_pass_missed cs tr : one_pass cs tr [] -> tr = missed cs.
Proof.
  intros H. remember [] as fo eqn:E. induction H as [|c b cs tr fo P IH|c cs tr fo P IH]; auto; [discriminate|].
  cbn [missed map]. now rewrite IH.
Qed.
Lemma missed_pass cs : one_pass cs (missed cs) [].
Proof. induction cs; cbn; constructor; auto. Qed.

Lemma aof_flat_dialogue oc cs tr found : cs <> [] -> all_or_first_dialogue cs tr found -> replies ex 0 tr ->
  aof_answer (aof_flat ex oc cs [] None 0%Z 0) = listed oc found.
Proof.
  intros NE D R.
  assert (X : exists l first t', aof_flat ex false cs [] None 0 0
      = Done (results 0 l, first, ((0 + Z.of_nat (List.length l)) mod 65536)%Z, t')
    /\ ((l <> [] /\ l = found) \/ (l = [] /\ exists c b, found = [(c, b)] /\ first = Some (result_of c 0 b)))).
  { change 0%Z with (0 mod 65536)%Z at 1.
    destruct D as [cs tr fo P L|before tr1 fo1 c b after tr2 fo2 P1 L P2 N|c b rest].
    - assert (X := aof_pass_all _ _ _ P L [] [] 0%Z 0). rewrite app_nil_r in X. rewrite X by (auto; lia).
      cbn [aof_flat app]. exists fo, None, (0 + List.length tr)%nat. split; auto. left. split; auto.
      intros ->. destruct cs; [contradiction | discriminate].
    - apply replies_app in R as [R1 R]. apply replies_cons in R as [E R]. apply replies_cons in R as [E' R].
      rewrite (aof_pass_all _ _ _ P1 L _ [] 0%Z 0) by (auto; lia). cbn [aof_flat app]. rewrite E, E'.
      destruct (aof_pass_first _ _ _ P2 (results 0 fo1) (result_of c 0 b) (0 + Z.of_nat (List.length fo1)) _ ltac:(lia) R) as [t' ->].
      exists (fo1 ++ fo2), (Some (result_of c 0 b)), t'. split; [|left; auto].
      rewrite results_app, app_length. do 3 f_equal. f_equal. lia.
    - apply replies_cons in R as [E R]. apply replies_cons in R as [E' R]. cbn [aof_flat]. rewrite E, E'.
      destruct (aof_pass_first _ _ _ (missed_pass rest) [] (result_of c 0 b) 0 _ ltac:(lia) R) as [t' ->].
      exists [], (Some (result_of c 0 b)), t'. split; [reflexivity|]. right. split; auto. exists c, b. auto. }
  destruct X as (l & first & t' & X & C).
  assert (K := aof_flat_checked ex cs [] None 0 0). rewrite X in K. destruct K as (new & En & K); [lia|]. cbn [app] in En; subst new.
  rewrite results_length in K.
  destruct C as [[N <-]|[-> (c & b & -> & ->)]].
  - assert (G : aof_answer (Done (results 0 l, first, ((0 + Z.of_nat (List.length l)) mod 65536)%Z, t')) = Done (results 0 l)).
    { destruct l as [|[c b] l]; [contradiction | reflexivity]. }
    unfold listed. destruct oc; cbn [andb]; [rewrite K | rewrite X; exact G].
    destruct (Z.leb_spec (0 + Z.of_nat (List.length l)) 65535), (Z.leb_spec 65536 (Z.of_nat (List.length l))); try lia; [exact G | reflexivity].
  - cbn in K. destruct oc; [rewrite K | rewrite X]; reflexivity.
Qed.
Lemma full_or_miss cs : forall t,
  (exists tr found, replies ex t tr /\ one_pass cs tr found /\ List.length found = List.length cs) \/
  exists before c b after tr found, cs = before ++ c :: after /\ one_pass before tr found /\ List.length found = List.length before
    /\ replies ex t (tr ++ [(fst c, false); (fst c, b)]).
Proof.
  induction cs as [|c cs IH]; intros t; [left; exists [], []; repeat split; [apply replies_nil | constructor]|].
  destruct (ex t (fst c)) eqn:E.
  - destruct (IH (S (S t))) as [(tr & fo & R & P & L)|(b & d & x & a & tr & fo & -> & P & L & R)].
    + left. exists ((fst c, true) :: (fst c, ex (S t) (fst c)) :: tr), ((c, ex (S t) (fst c)) :: fo).
      rewrite !replies_cons. split; auto. split; [now constructor | cbn; lia].
    + right. exists (c :: b), d, x, a, ((fst c, true) :: (fst c, ex (S t) (fst c)) :: tr), ((c, ex (S t) (fst c)) :: fo).
      split; auto. split; [now constructor|]. cbn [app List.length]. rewrite !replies_cons. auto.
  - right. exists [], c, (ex (S t) (fst c)), cs, [], []. repeat split; auto; [constructor|].
    cbn. rewrite !replies_cons. repeat split; auto. apply replies_nil.
Qed.
Lemma aof_dialogue_exists cs : exists tr found, replies ex 0 tr /\ all_or_first_dialogue cs tr found.
Proof.
  destruct (full_or_miss cs 0) as [(tr & fo & R & P & L)|(b & d & x & a & tr & fo & -> & P & L & R)].
  - exists tr, fo. split; auto. now constructor.
  - apply replies_app in R as [R1 R2]. apply replies_cons in R2 as [E R2]. apply replies_cons in R2 as [E' _].
    destruct (one_pass_exists a (0 + List.length tr + 2)) as (tr2 & fo2 & R & P2).
    assert (RR : replies ex 0 (tr ++ (fst d, false) :: (fst d, x) :: tr2)).
    { apply replies_app. split; auto. rewrite !replies_cons. repeat split; auto.
      now replace (S (S (0 + List.length tr))) with (0 + List.length tr + 2)%nat by lia. }
    destruct (fo ++ fo2) as [|y l] eqn:Q.
    + apply app_eq_nil in Q as [-> ->]. destruct b; [|discriminate]. apply one_pass_missed in P. cbn in P. subst tr.
      apply one_pass_missed in P2. subst tr2. exists ((fst d, false) :: (fst d, x) :: missed a), [(d, x)].
      split; [exact RR | apply AofNone].
    + exists (tr ++ (fst d, false) :: (fst d, x) :: tr2), (fo ++ fo2). split; auto. apply AofSome; auto. congruence.
Qed.

(** ** The searches *)
Variable f : finder.
Variable cs : list cand.
Hypothesis HC : candidates f cs.
Hypothesis HF : complete f.

Lemma find_first_trace allow tr x : first_dialogue allow cs tr x -> replies ex 0 tr ->
  find_first ex f allow = match x with Some y => Done (single y) | None => Fail NoFilesFound end.
Proof.
  intros D R. unfold find_first. rewrite (validate_complete f HF). cbn [of_result obind].
  rewrite (first_folders_flat ex allow (ff_name f) (ff_exts f) (ff_folders f) cs) by (rewrite <- eta_finder; auto).
  cbn [obind]. exact (first_flat_dialogue allow cs tr x D R).
Qed.
Lemma find_last_trace allow tr x : last_dialogue allow cs tr x -> replies ex 0 tr ->
  find_last ex f allow = match x with Some y => Done (single y) | None => Fail NoFilesFound end.
Proof.
  intros D R. unfold find_last. rewrite (validate_complete f HF). cbn [of_result obind].
  rewrite (last_folders_flat ex allow (ff_name f) (ff_exts f) (ff_folders f) cs) by (rewrite <- eta_finder; auto).
  cbn [obind]. exact (last_flat_dialogue allow cs tr x D R).
Qed.
Lemma find_all_trace oc allow tr found : all_dialogue allow cs tr found -> replies ex 0 tr ->
  find_all ex oc f allow = match found with [] => Fail NoFilesFound | _ => listed oc found end.
Proof.
  intros D R. unfold find_all. rewrite (validate_complete f HF). cbn [of_result obind].
  rewrite (all_folders_flat ex oc allow (ff_name f) (ff_exts f) (ff_folders f) cs) by (rewrite <- eta_finder; auto).
  exact (all_flat_dialogue oc allow cs tr found D R).
Qed.
Lemma find_aof_trace oc tr found : all_or_first_dialogue cs tr found -> replies ex 0 tr ->
  find_all_or_first ex oc f = listed oc found.
Proof.
  intros D R. unfold find_all_or_first. rewrite (validate_complete f HF). cbn [of_result obind].
  rewrite (aof_folders_flat ex oc (ff_name f) (ff_exts f) (ff_folders f) cs) by (rewrite <- eta_finder; auto).
  exact (aof_flat_dialogue oc cs tr found (candidates_nonempty f cs HC HF) D R).
Qed.
End Trace.

(** ** What the dialogues are about *)
Definition about (cs : list cand) (tr : list question) : Prop := forall p b, In (p, b) tr -> exists c, In c cs /\ fst c = p.
Definition modest (cs : list cand) (tr : list question) : Prop := List.length tr <= 2 * List.length cs /\ about cs tr.
Lemma about_incl cs cs' tr : incl cs cs' -> about cs tr -> about cs' tr.
Proof. intros I A p b H. destruct (A p b H) as (c & J & E). eauto. Qed.
Lemma modest_app cs1 cs2 tr1 tr2 : modest cs1 tr1 -> modest cs2 tr2 -> modest (cs1 ++ cs2) (tr1 ++ tr2).
Proof.
  intros [L1 A1] [L2 A2]. split; [rewrite !app_length; lia|]. intros p b I. apply in_app_or in I as [I|I].
  - eapply about_incl; [|exact A1|exact I]. apply incl_appl, incl_refl.
  - eapply about_incl; [|exact A2|exact I]. apply incl_appr, incl_refl.
Qed.
Lemma modest_one c b : modest [c] [(fst c, b)].
Proof. split; [cbn; lia|]. intros p x [E|[]]. injection E as <- <-. exists c. cbn; auto. Qed.
Lemma modest_two c b b' : modest [c] [(fst c, b); (fst c, b')].
Proof. split; [cbn; lia|]. intros p x [E|[E|[]]]; injection E as <- <-; exists c; cbn; auto. Qed.
Lemma modest_nil cs : modest cs [].
Proof. split; [cbn; lia | intros p b []]. Qed.
Lemma modest_more cs1 cs2 tr : modest cs1 tr -> modest (cs1 ++ cs2) tr.
Proof. intros M. rewrite <- (app_nil_r tr). apply modest_app; auto. apply modest_nil. Qed.
Lemma one_pass_modest cs tr l : one_pass cs tr l -> modest cs tr.
Proof.
  induction 1 as [|c b cs tr l P IH|c cs tr l P IH]; [apply modest_nil| |].
  - apply (modest_app [c] cs [_; _] tr); auto. apply modest_two.
  - apply (modest_app [c] cs [_] tr); auto. apply modest_one.
Qed.
Lemma twice_modest cs tr l : twice_missed cs tr l -> modest cs tr.
Proof.
  induction 1 as [|c b cs tr l P IH]; [apply modest_nil|]. apply (modest_app [c] cs [_; _] tr); auto. apply modest_two.
Qed.
Lemma missed_modest cs : modest cs (missed cs).
Proof. eapply one_pass_modest, missed_pass. Qed.
Lemma combine_modest cs : forall bs, modest cs (List.combine (map fst cs) bs).
Proof.
  induction cs as [|c cs IH]; intros [|b bs]; try apply modest_nil. cbn [map List.combine].
  apply (modest_app [c] cs [_] _); auto. apply modest_one.
Qed.
Lemma two_questions allow cs tr :
  (exists x, first_dialogue allow cs tr x) \/ (exists x, last_dialogue allow cs tr x)
  \/ (exists l, all_dialogue allow cs tr l) \/ (exists l, all_or_first_dialogue cs tr l) ->
  (List.length tr <= 2 * List.length cs)%nat /\ forall p b, In (p, b) tr -> exists c, In c cs /\ fst c = p.
Proof.
  intros H. change (modest cs tr). destruct H as [[x D]|[[x D]|[[l D]|[l D]]]].
  - destruct D as [before c b after|cs|c b rest|c0 b0 before c b after|c0 b0 rest].
    + apply modest_app; [apply missed_modest|]. apply (modest_more [c]). apply modest_two.
    + apply missed_modest.
    + apply (modest_more [c]). apply modest_two.
    + apply (modest_app [c0] _ [_; _] _); [apply modest_two|]. apply modest_app; [apply missed_modest|].
      apply (modest_more [c]). apply modest_two.
    + apply (modest_app [c0] _ [_; _] _); [apply modest_two | apply missed_modest].
  - destruct D as [cs tr fo x P|cs tr P|before tr1 seen c b after tr2 fo others x T P L|cs tr seen x T]; eauto using one_pass_modest, twice_modest.
    apply modest_app; [eapply twice_modest; eauto|]. apply (modest_app [c] _ [_; _] _); [apply modest_two | eapply one_pass_modest; eauto].
  - destruct D as [cs tr fo P|cs bs L]; eauto using one_pass_modest, combine_modest.
  - destruct D as [cs tr fo P L|before tr1 fo1 c b after tr2 fo2 P1 L P2 N|c b rest]; eauto using one_pass_modest.
    + apply modest_app; [eapply one_pass_modest; eauto|]. apply (modest_app [c] _ [_; _] _); [apply modest_two | eapply one_pass_modest; eauto].
    + apply (modest_app [c] _ [_; _] _); [apply modest_two | apply missed_modest].
Qed.
Lemma one_pass_twice cs tr l : one_pass cs tr l -> forall c b, In (c, b) l -> exists tr1 tr2, tr = tr1 ++ (fst c, true) :: (fst c, b) :: tr2.
Proof.
  induction 1 as [|c b cs tr l P IH|c cs tr l P IH]; intros d x I; [destruct I| |].
  - destruct I as [I|I]; [injection I as <- <-; exists [], tr; reflexivity|].
    destruct (IH d x I) as (t1 & t2 & ->). exists ((fst c, true) :: (fst c, b) :: t1), t2. reflexivity.
  - destruct (IH d x I) as (t1 & t2 & ->). exists ((fst c, false) :: t1), t2. reflexivity.
Qed.
Lemma vanished cs tr c :
  (exists l, all_dialogue false cs tr l /\ In (c, false) l) \/ first_dialogue false cs tr (Some (c, false))
  \/ last_dialogue false cs tr (Some (c, false)) ->
  exists tr1 tr2, tr = tr1 ++ (fst c, true) :: (fst c, false) :: tr2.
Proof.
  intros [(l & D & I)|[D|D]].
  - inversion D; subst. eapply one_pass_twice; eauto.
  - inversion D; subst. eexists _, []. reflexivity.
  - inversion D; subst. eapply one_pass_twice; eauto. apply in_or_app; cbn; auto.
Qed.
