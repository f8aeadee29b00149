(** Runs in a shared world. *)
From Coq Require Import ZArith Bool String Lia Permutation.
From Coq Require Import List.
Import ListNotations.
From Verif.Model Require Import Text Value Merge Paths Finder World Layers Config Macro Concurrent.
From Verif.Spec Require Import Spec ConfigSpec FinderSpec PathSpec MacroSpec EnvSpec ConcurrentSpec.
From Verif.Proofs Require Import Basics ConfigBuild Files FinderTop MacroProofs.
Open Scope nat_scope.

Section S.
Variable others : nat -> world -> world.
Notation tick := (tick others).

(** A run that has made n accesses, none of them a write. *)
Definition reading (w : world) (s : run) : Prop :=
  match r_clock s with O => r_world s = w | S n => r_world s = moment others w n end.
Lemma reading_tick w s : reading w s -> reading w (tick s) /\ r_world (tick s) = moment others w (r_clock s).
Proof.
  unfold reading, tick; cbn. destruct (r_clock s); cbn; intros ->; auto.
Qed.

Fixpoint c_build_list (s : run) (skip : bool) (acc : value) (ls : list layer) : run * result value bak_error :=
  match ls with
  | [] => (s, Ok acc)
  | l :: rest =>
    match c_layer_read others s l with
    | (s', Err e) => if skip then c_build_list s' skip acc rest else (s', Err e)
    | (s', Ok v) => c_build_list s' skip (v_merge acc v) rest
    end
  end.
Lemma c_build_loop_list ls skip r : (forall n l, In (n, l) r -> mget n ls = Some l) -> forall s acc,
  c_build_loop others s ls skip acc (map fst r) = c_build_list s skip acc (map snd r).
Proof.
  induction r as [|[n l] r IH]; intros H s acc; cbn; auto.
  rewrite (H n l) by (left; auto). destruct (c_layer_read others s l) as [s' [v|e]].
  - apply IH. intros; apply H; right; auto.
  - destruct skip; auto. apply IH. intros; apply H; right; auto.
Qed.
Lemma registered_lookup c r : registered c r -> forall n l, In (n, l) r -> mget n (layers c) = Some l.
Proof. intros R n l H. rewrite (registered_get c r n R). apply In_mget; [apply R | exact H]. Qed.
Lemma c_build_value_list s c r skip : registered c r ->
  c_build_value others s c skip = c_build_list s skip new_map (map snd r).
Proof.
  intros R. unfold c_build_value. rewrite (proj1 R). apply c_build_loop_list. exact (registered_lookup c r R).
Qed.

(** One read. *)
Lemma pair_eq {A B} (a a' : A) (b b' : B) : (a, b) = (a', b') -> a = a' /\ b = b'.
Proof. intros E. exact (conj (f_equal fst E) (f_equal snd E)). Qed.
Lemma c_layer_read_turn w s l s' x : reading w s -> c_layer_read others s l = (s', x) -> reading w s' /\
  forall n ls xs, in_turn (moment others w) (r_clock s') ls xs -> in_turn (moment others w) (r_clock s) ((n, l) :: ls) (x :: xs).
Proof.
  intros R E. destruct (reading_tick w s R) as [R1 W1]. destruct (reading_tick w (tick s) R1) as [R2 W2].
  destruct l as [v|prefix|h p|c]; cbn [c_layer_read] in E; cbv zeta in E.
  - apply pair_eq in E as [E1 E2]; subst s' x. split; auto. intros. now constructor.
  - apply pair_eq in E as [E1 E2]; subst s' x. split; [exact R1|]. intros n ls xs T. eapply TurnAt with (i := r_clock s); [lia | | exact T].
    cbn. now rewrite <- W1.
  - destruct (fs_exists (r_world (tick s)) p) eqn:X; cbn [negb] in E.
    + apply pair_eq in E as [E1 E2]; subst s' x. split; [exact R2|]. intros n ls xs T. rewrite W1 in X. rewrite W2.
      change (r_clock (tick s)) with (S (r_clock s)) in *. change (r_clock (tick (tick s))) with (S (S (r_clock s))) in T.
      destruct (fs_exists (moment others w (S (r_clock s))) p) eqn:Y.
      * apply TurnAt with (i := S (r_clock s)); [lia | | exact T]. unfold layer_read. rewrite Y. reflexivity.
      * apply TurnVanished with (i := r_clock s); [lia | now apply not_missing_exists | now apply missing_exists | exact T].
    + apply pair_eq in E as [E1 E2]; subst s' x. split; [exact R1|]. intros n ls xs T. apply TurnAt with (i := r_clock s); [lia | | exact T].
      unfold layer_read. rewrite W1 in X. now rewrite X.
  - apply pair_eq in E as [E1 E2]; subst s' x. split; [exact R1|]. intros n ls xs T. apply TurnAt with (i := r_clock s); [lia | | exact T].
    cbn. now rewrite <- W1.
Qed.

Lemma build_fixed w0 skip acc x ls : build_list w0 skip acc (fixed_layer x :: ls) =
  match x with Err e => if skip then build_list w0 skip acc ls else Err e | Ok v => build_list w0 skip (v_merge acc v) ls end.
Proof. reflexivity. Qed.

Lemma c_build_list_turn w skip r : forall s acc s' res, reading w s -> c_build_list s skip acc (map snd r) = (s', res) ->
  exists done rest xs, r = done ++ rest /\ in_turn (moment others w) (r_clock s) done xs
    /\ (forall w0, build_list w0 skip acc (map fixed_layer xs) = res)
    /\ (rest = [] \/ skip = false /\ exists e, res = Err e).
Proof.
  induction r as [|[n l] r IH]; intros s acc s' res R E; cbn [map snd c_build_list] in E.
  - injection E as <- <-. exists [], [], []. split; auto. split; [constructor|]. split; auto.
  - destruct (c_layer_read others s l) as [s1 x] eqn:Er. destruct (c_layer_read_turn w s l s1 x R Er) as [R1 T1].
    assert (G : forall acc', c_build_list s1 skip acc' (map snd r) = (s', res) ->
      (forall w0 ls, build_list w0 skip acc (fixed_layer x :: ls) = build_list w0 skip acc' ls) ->
      exists done rest xs, (n, l) :: r = done ++ rest /\ in_turn (moment others w) (r_clock s) done xs
      /\ (forall w0, build_list w0 skip acc (map fixed_layer xs) = res)
      /\ (rest = [] \/ skip = false /\ exists e, res = Err e)).
    { intros acc' Eb Hb. destruct (IH s1 acc' s' res R1 Eb) as (dn & rest & xs & -> & T & B & F).
      exists ((n, l) :: dn), rest, (x :: xs). split; [reflexivity|]. split; [now apply T1|]. split; [|exact F].
      intros w0. cbn [map]. rewrite Hb. apply B. }
    destruct x as [v|e].
    + exact (G _ E (fun w0 ls => build_fixed w0 skip acc (Ok v) ls)).
    + destruct skip.
      * exact (G _ E (fun w0 ls => build_fixed w0 true acc (Err e) ls)).
      * injection E as <- <-. exists [(n, l)], r, [Err e]. split; [reflexivity|].
        split; [apply T1; constructor|]. split; [reflexivity | right; eauto].
Qed.

Lemma c_build_turn w c r skip s' res : registered c r ->
  c_build_value others (run_start w) c skip = (s', res) ->
  exists done rest xs, r = done ++ rest /\ in_turn (moment others w) 0 done xs
    /\ (forall w0 c0 fr, frozen done xs fr -> registered c0 fr -> build_value w0 c0 skip = res)
    /\ (rest = [] \/ skip = false /\ exists e, res = Err e).
Proof.
  intros R E. rewrite (c_build_value_list _ c r skip R) in E.
  destruct (c_build_list_turn w skip r (run_start w) new_map s' res eq_refl E) as (dn & rest & xs & Er & T & B & F).
  exists dn, rest, xs. split; [exact Er|]. split; [exact T|]. split; [|exact F].
  intros w0 c0 fr [_ F2] R0. rewrite (build_value_list w0 c0 fr skip R0), F2. apply B.
Qed.
Lemma frozen_exists (ls : list (str * layer)) xs : List.length xs = List.length ls -> exists fr, frozen ls xs fr.
Proof.
  revert xs; induction ls as [|[n l] ls IH]; intros [|x xs]; cbn; try discriminate.
  - exists []. split; reflexivity.
  - intros [= E]. destruct (IH xs E) as (fr & A & B). exists ((n, fixed_layer x) :: fr). unfold frozen; cbn. now rewrite A, B.
Qed.
Lemma in_turn_length h t ls xs : in_turn h t ls xs -> List.length xs = List.length ls.
Proof. induction 1; cbn; auto. Qed.

Lemma c_build_lenient s c r : registered c r -> exists v, snd (c_build_value others s c true) = Ok v.
Proof.
  intros R. rewrite (c_build_value_list s c r true R). generalize (map snd r) new_map. intros ls; revert s.
  induction ls as [|l ls IH]; intros s acc; cbn; eauto. destruct (c_layer_read others s l) as [s' [v|e]]; apply IH.
Qed.
End S.

(** ** Nobody else acts *)
Lemma alone_tick s : r_world (tick alone s) = r_world s.
Proof. reflexivity. Qed.
Lemma alone_iter n s : r_world (Nat.iter n (tick alone) s) = r_world s.
Proof. induction n; cbn; auto. Qed.
Lemma alone_read s l : r_world (fst (c_layer_read alone s l)) = r_world s
  /\ snd (c_layer_read alone s l) = layer_read (r_world s) l.
Proof.
  destruct l; cbn; auto. unfold alone. destruct (fs_exists (r_world s) p); cbn; auto.
Qed.
Lemma alone_build_loop ls skip names : forall s acc,
  r_world (fst (c_build_loop alone s ls skip acc names)) = r_world s
  /\ snd (c_build_loop alone s ls skip acc names) = build_loop (r_world s) ls skip acc names.
Proof.
  induction names as [|n names IH]; intros s acc; cbn [c_build_loop build_loop]; auto.
  destruct (mget n ls) as [l|]; [|apply IH].
  destruct (alone_read s l) as [W X]. destruct (c_layer_read alone s l) as [s' x]; cbn [fst snd] in *.
  rewrite <- X. destruct x as [v|e].
  - specialize (IH s' (v_merge acc v)). now rewrite W in IH.
  - destruct skip; [|cbn; auto]. specialize (IH s' acc). now rewrite W in IH.
Qed.
Lemma alone_build s c skip : snd (c_build_value alone s c skip) = build_value (r_world s) c skip.
Proof. apply alone_build_loop. Qed.

(** ** The macro *)
Lemma c_find_first_outcome others s f allow :
  snd (c_find_first others s f allow) = find_first (run_oracle others s) f allow.
Proof.
  unfold c_find_first, find_first. destruct (finder_validate f) as [[]|e]; cbn [of_result obind]; [|reflexivity].
  destruct (find_first_folders _ _ _ _ _ _ _) as [[[r|o] t]| |]; cbn; auto.
Qed.
Lemma c_find_first_run others s f allow :
  exists n, fst (c_find_first others s f allow) = Nat.iter n (tick others) s.
Proof.
  unfold c_find_first. destruct (finder_validate f) as [[]|e]; [|exists 0; reflexivity].
  destruct (find_first_folders _ _ _ _ _ _ _) as [[[r|o] t]| |]; cbn; eauto; exists 0; reflexivity.
Qed.

Section M.
Variable others : nat -> world -> world.
Variables (tc : codec) (fname : str) (dv : value).

(** What one clause does to the run: only looking, or looking and then one write. *)
Definition event_of (s1 : run) (p : path) : write_event :=
  {| we_layer := LFile (toml_handler tc) p; we_checked := r_world s1; we_before := r_world (tick others s1);
     we_after := fst (layer_write (r_world (tick others s1)) (LFile (toml_handler tc) p) dv) |}.
Definition wrote (s1 : run) (p : path) : run :=
  {| r_clock := r_clock (tick others s1); r_world := we_after (event_of s1 p); r_log := r_log s1 ++ [event_of s1 p] |}.
Definition clause_effect (s : run) (ls : layer_spec) (s' : run) : Prop :=
  exists k, s' = Nat.iter k (tick others) s
    \/ exists p ps, clause_candidates (r_world s) fname ls ps /\ In p ps /\ has_extension p (lit "toml")
         /\ ls_init ls = Some true
         /\ missing (r_world (Nat.iter (S k) (tick others) s)) p /\ s' = wrote (Nat.iter (S k) (tick others) s) p.

Lemma search_done s ls : exists ps, clause_candidates (r_world s) fname ls ps /\
  exists k, fst (c_find_first others s (layer_finder (r_world s) fname ls) true) = Nat.iter k (tick others) s /\
   ((exists e, snd (c_find_first others s (layer_finder (r_world s) fname ls) true) = Fail e)
    \/ exists fr, snd (c_find_first others s (layer_finder (r_world s) fname ls) true) = Done fr /\ In (fr_path fr) ps).
Proof.
  destruct (clause_total (r_world s) fname ls) as [ps C]. exists ps. split; [exact C|].
  destruct (c_find_first_run others s (layer_finder (r_world s) fname ls) true) as [k K].
  exists k. split; [exact K|]. rewrite c_find_first_outcome.
  destruct C as (ds & cs & R & C & ->). rewrite (layer_finder_eq _ _ _ _ R).
  set (f := {| ff_folders := ds; ff_name := fname; ff_exts := [lit "toml"] |}) in *.
  destruct ds as [|d ds]; [left; eexists; reflexivity|]. right.
  assert (F : complete f) by (split; discriminate).
  destruct (find_first_oracle (run_oracle others s) f cs C F true)
    as [(b & c & a & ts & t & te & -> & _ & _ & _ & E)|(ts & _ & _ & c & rest & te & -> & E)]; rewrite E; eexists; (split; [reflexivity|]); cbn [fr_path result_of].
  - apply in_map, in_or_app. right; left; reflexivity.
  - left; reflexivity.
Qed.

Lemma clause_step r cfg s ls : registered cfg r -> ~ In (ls_name ls) (map fst r) ->
  exists cfg' s' r', c_run_layer others tc fname dv (cfg, s) ls = Done (cfg', s') /\ registered cfg' r'
    /\ (map fst r' = map fst r \/ map fst r' = map fst r ++ [ls_name ls]) /\ clause_effect s ls s'.
Proof.
  intros R N. destruct (search_done s ls) as (ps & C & k & K & D). unfold c_run_layer.
  destruct (c_find_first others s (layer_finder (r_world s) fname ls) true) as [s1 found]. cbn [fst snd] in K, D.
  destruct D as [(e & ->)|(fr & -> & I)].
  { exists cfg, s1, r. split; [reflexivity|]. split; [exact R|]. split; [left; reflexivity|]. exists k. left. exact K. }
  destruct (has_ext_dec (fr_path fr) (lit "toml")) as [T|T].
  - rewrite (add_file_accepts tc cfg (ls_name ls) _ T).
    destruct (proj1 (registered_push cfg r (ls_name ls) (LFile (toml_handler tc) (fr_path fr)) R) N) as [A B].
    assert (R' : registered (push_layer cfg (ls_name ls) (LFile (toml_handler tc) (fr_path fr)))
                   (r ++ [(ls_name ls, LFile (toml_handler tc) (fr_path fr))])) by (split; auto).
    assert (Nm : map fst (r ++ [(ls_name ls, LFile (toml_handler tc) (fr_path fr))]) = map fst r ++ [ls_name ls]) by (now rewrite map_app).
    assert (G : forall s', clause_effect s ls s' -> exists cfg' s'0 r',
      (@Done (config * run) finder_error (push_layer cfg (ls_name ls) (LFile (toml_handler tc) (fr_path fr)), s')) = Done (cfg', s'0) /\ registered cfg' r'
      /\ (map fst r' = map fst r \/ map fst r' = map fst r ++ [ls_name ls]) /\ clause_effect s ls s'0).
    { intros s' E. do 3 eexists. split; [reflexivity|]. split; [exact R'|]. split; [right; exact Nm | exact E]. }
    change (file_layer_new (toml_handler tc) (fr_path fr)) with (LFile (toml_handler tc) (fr_path fr)).
    destruct (ls_init ls) as [init|] eqn:Ei; [|apply G; exists k; left; exact K].
    destruct (fs_exists (r_world (tick others s1)) (fr_path fr)) eqn:X; cbn [negb andb].
    { apply G. exists (S k). left. rewrite K. reflexivity. }
    destruct init; [|apply G; exists (S k); left; rewrite K; reflexivity].
    assert (L : get_layer (push_layer cfg (ls_name ls) (LFile (toml_handler tc) (fr_path fr))) (ls_name ls)
                = Some (LFile (toml_handler tc) (fr_path fr))).
    { unfold get_layer. rewrite (registered_get _ _ _ R'). apply In_mget; [apply R' | apply in_or_app; right; left; reflexivity]. }
    rewrite L. apply G. exists k. right. exists (fr_path fr), ps. split; [exact C|]. split; [exact I|]. split; [exact T|]. split; [exact Ei|].
    assert (K1 : Nat.iter (S k) (tick others) s = tick others s1) by (rewrite K; reflexivity).
    rewrite K1. split; [now apply missing_exists | reflexivity].
  - destruct (add_file_refuses tc cfg (ls_name ls) _ T) as (ext & Ex & _). rewrite Ex.
    exists cfg, s1, r. destruct (ls_init ls); (split; [reflexivity|]); (split; [exact R|]); (split; [left; reflexivity|]); exists k; left; exact K.
Qed.

(** The runs of several clauses. *)
Inductive clauses : run -> list layer_spec -> run -> Prop :=
| ClNil s : clauses s [] s
| ClCons s ls s1 cs s' : clause_effect s ls s1 -> clauses s1 cs s' -> clauses s (ls :: cs) s'.

Lemma clauses_run cs : forall r cfg s, registered cfg r -> NoDup (map fst r ++ map ls_name cs) ->
  exists cfg' s' r', c_run_layers others tc fname dv (cfg, s) cs = Done (cfg', s') /\ registered cfg' r'
    /\ (exists new, map fst r' = map fst r ++ new /\ incl new (map ls_name cs)) /\ clauses s cs s'.
Proof.
  induction cs as [|ls cs IH]; intros r cfg s R D.
  - exists cfg, s, r. split; [reflexivity|]. split; [exact R|]. split; [exists []; split; [now rewrite app_nil_r | apply incl_nil_l] | constructor].
  - cbn [map] in D. assert (N : ~ In (ls_name ls) (map fst r)).
    { apply NoDup_remove_2 in D. intros H. apply D, in_or_app. now left. }
    destruct (clause_step r cfg s ls R N) as (cfg1 & s1 & r1 & E & R1 & Nm & Ef).
    assert (D1 : NoDup (map fst r1 ++ map ls_name cs)).
    { destruct Nm as [->| ->]; [now apply NoDup_remove_1 in D | now apply NoDup_snoc_assoc]. }
    destruct (IH r1 cfg1 s1 R1 D1) as (cfg' & s' & r' & E' & R' & (new & Nw & In') & Cl).
    exists cfg', s', r'. cbn [c_run_layers]. rewrite E. cbn [obind]. split; [exact E'|]. split; [exact R'|].
    split; [|econstructor; eauto].
    destruct Nm as [Nm|Nm]; rewrite Nm in Nw.
    + exists new. split; [exact Nw | now apply incl_tl].
    + exists (ls_name ls :: new). rewrite <- app_assoc in Nw. split; [exact Nw|]. apply incl_cons; [left; auto | now apply incl_tl].
Qed.

(** Looking does not write. *)
Lemma iter_log k s : r_log (Nat.iter k (tick others) s) = r_log s.
Proof. induction k; cbn; auto. Qed.
End M.

Lemma c_create_run others tc ms w dv : distinct_names ms -> value_map_macro (ms_default ms) = Done dv ->
  exists cfg s r, c_create_config others tc ms (run_start w) = Done (cfg, s) /\ registered cfg r
    /\ (exists new, map fst r = lit "default" :: new /\ incl new (map ls_name (ms_layers ms) ++ [lit "environment"]))
    /\ clauses others tc (ms_file_name ms) dv (run_start w) (ms_layers ms) s.
Proof.
  intros D V. unfold c_create_config. rewrite V.
  assert (R0 : registered (add_memory_layer config_new (lit "default") dv) [(lit "default", LMemory dv)]).
  { apply (registered_push config_new [] (lit "default") (LMemory dv) registered_new). cbn; tauto. }
  destruct (clauses_run others tc (ms_file_name ms) dv (ms_layers ms) _ _ (run_start w) R0 D)
    as (cfg & s & r & E & R & (new & Nw & I) & Cl).
  rewrite E. cbn [obind]. destruct (ms_env ms) as [prefix|].
  - destruct (registered_push cfg r (lit "environment") (env_layer_new prefix) R) as [A B].
    unfold add_environment_layer; cbn [fst snd].
    destruct (in_dec str_eq_dec (lit "environment") (map fst r)) as [H|H].
    + rewrite (B H). exists cfg, s, r. split; [reflexivity|]. split; [exact R|]. split; [|exact Cl].
      exists new. split; [exact Nw | now apply incl_appl].
    + do 3 eexists. split; [reflexivity|]. split; [exact (A H)|]. split; [|exact Cl].
      exists (new ++ [lit "environment"]). rewrite map_app, Nw. split; [reflexivity|].
      apply incl_app; [now apply incl_appl | apply incl_appr, incl_refl].
  - exists cfg, s, r. split; [reflexivity|]. split; [exact R|]. split; [|exact Cl].
    exists new. split; [exact Nw | now apply incl_appl].
Qed.

Lemma clauses_honest others tc fname dv s cs s' : clauses others tc fname dv s cs s' ->
  forall e, In e (r_log s') -> In e (r_log s) \/ honest_write others tc dv cs e.
Proof.
  induction 1 as [s|s ls s1 cs s' Ef _ IH]; intros e He; [now left|].
  destruct (IH e He) as [H|(p & l & n & A & B & C & D)].
  - destruct Ef as (k & [->|(p & ps & _ & _ & _ & I & M & ->)]); [rewrite iter_log in H; now left|].
    cbn [r_log wrote] in H. apply in_app_or in H as [H|[<-|[]]]; [rewrite iter_log in H; now left|].
    right. exists p, ls, (r_clock (Nat.iter (S k) (tick others) s)). split; [reflexivity|]. split; [left; auto|].
    split; [exact I|]. split; [exact M|]. split; reflexivity.
  - right. exists p, l, n. split; [exact A|]. split; [right; exact B|]. split; [exact C | exact D].
Qed.

Lemma write_same_but tc w p dv : same_but p w (fst (layer_write w (LFile (toml_handler tc) p) dv)).
Proof.
  destruct (layer_write w (LFile (toml_handler tc) p) dv) as [w' x] eqn:E. exact (proj1 (file_write_effect _ _ _ _ _ _ E)).
Qed.
Lemma write_keeps_present tc w p dv q : ~ missing w q -> ~ missing (fst (layer_write w (LFile (toml_handler tc) p) dv)) q.
Proof.
  intros H. destruct (same_file_dec w p q) as [Sf|N].
  - destruct (layer_write w (LFile (toml_handler tc) p) dv) as [w' x] eqn:E.
    destruct (proj2 (file_write_prefix _ _ _ _ _ _ E)) as [->|(s & k & _ & F)]; auto. cbn. unfold missing. rewrite (F q Sf). discriminate.
  - unfold missing in *. rewrite (proj1 (write_same_but tc w p dv) q N). exact H.
Qed.

Lemma iter_present others q k : never_remove others q -> forall s, ~ missing (r_world s) q ->
  ~ missing (r_world (Nat.iter k (tick others) s)) q.
Proof. intros NR s H. induction k as [|k IH]; [exact H|]. exact (NR _ _ IH). Qed.
Lemma clauses_present others tc fname dv q s cs s' : never_remove others q -> clauses others tc fname dv s cs s' ->
  ~ missing (r_world s) q -> ~ missing (r_world s') q
  /\ forall e p, In e (r_log s') -> we_layer e = LFile (toml_handler tc) p -> same_file (we_checked e) p q -> In e (r_log s).
Proof.
  intros NR. induction 1 as [s|s ls s1 cs s' Ef _ IH]; intros P; [split; auto|].
  assert (P1 : ~ missing (r_world s1) q /\ forall e p, In e (r_log s1) -> we_layer e = LFile (toml_handler tc) p -> same_file (we_checked e) p q -> In e (r_log s)).
  { destruct Ef as (k & [->|(p & ps & _ & _ & _ & _ & M & ->)]).
    - split; [now apply iter_present | rewrite iter_log; auto].
    - assert (P0 := iter_present others q (S k) NR s P).
      assert (P' := iter_present others q (S (S k)) NR s P).
      split; [exact (write_keeps_present tc _ p dv q P')|].
      intros e p0 He L Sf. cbn [r_log wrote] in He. rewrite iter_log in He. apply in_app_or in He as [He|[<-|[]]]; [exact He|].
      injection L as <-. cbn [we_checked event_of] in Sf. destruct P0. unfold missing in *. now rewrite <- (same_file_fs _ _ _ Sf). }
  destruct P1 as [P1 L1]. destruct (IH P1) as [P' L']. split; [exact P'|]. intros e p He L Sf. exact (L1 e p (L' e p He L Sf) L Sf).
Qed.

Lemma iter_alone others q k : leave_alone others q -> forall s,
  w_fs (r_world (Nat.iter k (tick others) s)) q = w_fs (r_world s) q.
Proof. intros LA s. induction k as [|k IH]; [reflexivity|]. cbn. now rewrite LA. Qed.
Lemma clauses_alone others tc fname dv q s cs s' : leave_alone others q -> never_redirect others q -> clauses others tc fname dv s cs s' ->
  w_fs (r_world s') q = w_fs (r_world s) q
  \/ missing (r_world s) q /\ holds_defaults tc dv (r_world s') q.
Proof.
  intros LA NR. induction 1 as [s|s ls s1 cs s' Ef _ IH]; [left; auto|].
  assert (P1 : w_fs (r_world s1) q = w_fs (r_world s) q \/ missing (r_world s) q /\ holds_defaults tc dv (r_world s1) q).
  { destruct Ef as (k & [->|(p & ps & _ & _ & _ & _ & M & ->)]); [left; now apply iter_alone|].
    assert (A := iter_alone others q (S k) LA s). assert (B := iter_alone others q (S (S k)) LA s).
    cbn [r_world wrote we_after event_of].
    change (tick others (Nat.iter (S k) (tick others) s)) with (Nat.iter (S (S k)) (tick others) s).
    destruct (same_file_dec (r_world (Nat.iter (S (S k)) (tick others) s)) p q) as [Sf|N].
    - destruct (layer_write (r_world (Nat.iter (S (S k)) (tick others) s)) (LFile (toml_handler tc) p) dv) as [w' x] eqn:E.
      cbn [fst]. destruct (proj2 (file_write_prefix _ _ _ _ _ _ E)) as [->|(t & n & T & F)]; [left; exact B|].
      right. split; [|exists t, n; split; auto].
      assert (Sg : same_file (r_world (Nat.iter (S k) (tick others) s)) p q) by exact (NR _ _ _ Sf).
      unfold missing in *. rewrite <- A. rewrite <- (same_file_fs _ _ _ Sg). exact M.
    - left. rewrite (proj1 (write_same_but tc _ p dv) q N). exact B. }
  destruct IH as [E|[M D]]; destruct P1 as [E1|[M1 D1]].
  - left; congruence.
  - right. split; [exact M1|]. unfold holds_defaults. now rewrite E.
  - right. split; [unfold missing in *; congruence | exact D].
  - right. split; auto.
Qed.

(** ** Alone, the shared run is the sequential one. *)
Lemma find_first_exts_congr ex ex' allow base exts : (forall t p, ex t p = ex' t p) -> forall first t,
  find_first_exts ex allow base exts first t = find_first_exts ex' allow base exts first t.
Proof.
  intros H. induction exts as [|e exts IH]; intros first t; cbn; auto.
  destruct (with_extension base e); auto. unfold fr_new. rewrite !H.
  destruct (ex' t p); auto. destruct (allow && _); apply IH.
Qed.
Lemma find_first_folders_congr ex ex' allow name exts folders : (forall t p, ex t p = ex' t p) -> forall first t,
  find_first_folders ex allow name exts folders first t = find_first_folders ex' allow name exts folders first t.
Proof.
  intros H. induction folders as [|d ds IH]; intros first t; cbn; auto.
  rewrite (find_first_exts_congr ex ex') by auto.
  destruct (find_first_exts ex' allow (path_join d name) exts first t) as [[[r|o] t']| |]; cbn; auto.
Qed.
Lemma alone_oracle s n p : run_oracle alone s n p = fs_exists (r_world s) p.
Proof. unfold run_oracle. now rewrite alone_iter. Qed.
Lemma alone_find s f allow : snd (c_find_first alone s f allow) = find_first (fun _ => fs_exists (r_world s)) f allow.
Proof.
  rewrite c_find_first_outcome. unfold find_first.
  rewrite (find_first_folders_congr (run_oracle alone s) (fun _ => fs_exists (r_world s))) by (intros; apply alone_oracle).
  reflexivity.
Qed.
Lemma alone_find_world s f allow : r_world (fst (c_find_first alone s f allow)) = r_world s.
Proof. destruct (c_find_first_run alone s f allow) as [n ->]. apply alone_iter. Qed.

Definition same_outcome (x : outcome (config * run) finder_error) (y : outcome (config * world) finder_error) : Prop :=
  match x, y with
  | Done (c, s), Done (c', w) => c = c' /\ r_world s = w
  | Fail e, Fail e' => e = e'
  | Panic, Panic => True
  | _, _ => False
  end.
Lemma alone_layer tc fname dv cfg s ls :
  same_outcome (c_run_layer alone tc fname dv (cfg, s) ls) (run_layer tc fname dv (cfg, r_world s) ls).
Proof.
  unfold c_run_layer, run_layer. rewrite <- (alone_find s (layer_finder (r_world s) fname ls) true).
  pose proof (alone_find_world s (layer_finder (r_world s) fname ls) true) as W.
  destruct (c_find_first alone s (layer_finder (r_world s) fname ls) true) as [s1 [fr|e|]]; cbn [fst snd] in *; cbn; auto.
  destruct (add_file_layer tc cfg (ls_name ls) (fr_path fr)) as [cfg' [u|e]].
  - destruct (ls_init ls) as [init|]; [|cbn; auto]. unfold tick, alone; cbn [r_world]. rewrite W.
    destruct (fs_exists (r_world s) (fr_path fr)); cbn [negb andb]; [cbn; auto|]. destruct init; [|cbn; auto].
    destruct (get_layer cfg' (ls_name ls)); cbn; auto.
  - destruct (ls_init ls); cbn; auto.
Qed.
Lemma alone_layers tc fname dv cs : forall cfg s,
  same_outcome (c_run_layers alone tc fname dv (cfg, s) cs) (run_layers tc fname dv (cfg, r_world s) cs).
Proof.
  induction cs as [|ls cs IH]; intros cfg s; cbn [c_run_layers run_layers]; [cbn; auto|].
  pose proof (alone_layer tc fname dv cfg s ls) as A.
  destruct (c_run_layer alone tc fname dv (cfg, s) ls) as [[c1 s1]|e|], (run_layer tc fname dv (cfg, r_world s) ls) as [[c2 w2]|e'|];
    cbn [same_outcome] in A; try contradiction; cbn [obind]; [|exact A | exact I].
  destruct A as [-> <-]. apply IH.
Qed.
Lemma alone_create tc ms s : same_outcome (c_create_config alone tc ms s) (create_config tc ms (r_world s)).
Proof.
  unfold c_create_config, create_config. destruct (value_map_macro (ms_default ms)) as [dv|e|]; cbn; auto.
  pose proof (alone_layers tc (ms_file_name ms) dv (ms_layers ms) (add_memory_layer config_new (lit "default") dv) s) as A.
  destruct (c_run_layers alone tc (ms_file_name ms) dv _ (ms_layers ms)) as [[c1 s1]|e|],
    (run_layers tc (ms_file_name ms) dv _ (ms_layers ms)) as [[c2 w2]|e'|];
    cbn [same_outcome] in A; try contradiction; cbn [obind fst snd]; [|exact A | exact I].
  destruct A as [-> <-]. destruct (ms_env ms); cbn; auto.
Qed.

Lemma set_node_ne w p n q : ~ same_file w p q -> w_fs (set_node w p n) q = w_fs w q.
Proof. intros N. now apply (same_but_set p w n). Qed.
