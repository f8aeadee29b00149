(** Proofs about [create_config!] (C49-C54). *)
From Coq Require Import ZArith Bool String Lia Permutation List.
Import ListNotations.
From Verif.Model Require Import Text Value Merge Paths Finder World Layers Config Macro.
From Verif.Spec Require Import Spec Containers ConfigSpec EnvSpec FinderSpec PathSpec MacroSpec.
From Verif.Proofs Require Import Basics Containers Merge MergeMore PathLemmas Utf8 ConfigBuild Files
  FinderProofs FinderTop FinderMore.

Lemma missing_dec w p : {missing w p} + {~ missing w p}.
Proof. unfold missing. destruct (w_fs w p); [right; discriminate | left; auto]. Qed.
Lemma missing_exists w p : missing w p <-> fs_exists w p = false.
Proof. unfold missing, fs_exists. destruct (w_fs w p); split; auto; discriminate. Qed.
Lemma not_missing_exists w p : ~ missing w p <-> fs_exists w p = true.
Proof. unfold missing, fs_exists. destruct (w_fs w p); split; intros H; congruence. Qed.

Lemma no_sep_toml : no_sep (lit "toml").
Proof. unfold no_sep. cbn. intuition discriminate. Qed.

Lemma clause_total w fname ls : exists ps, clause_candidates w fname ls ps.
Proof.
  destruct (resolved_total (w_platform w) (ls_dirs ls)) as [ds R].
  destruct (candidates_exist {| ff_folders := ds; ff_name := fname; ff_exts := [lit "toml"] |}) as [cs C].
  { cbn. intros e [<-|[]]. apply no_sep_toml. }
  exists (map fst cs), ds, cs. auto.
Qed.
Lemma clause_fun w fname ls ps ps' : clause_candidates w fname ls ps -> clause_candidates w fname ls ps' -> ps = ps'.
Proof.
  intros (ds & cs & R & C & ->) (ds' & cs' & R' & C' & ->).
  assert (ds = ds') by exact (resolved_fun _ _ _ _ R R'). subst ds'.
  now rewrite (candidates_fun _ _ _ C C').
Qed.
Lemma clause_platform w w' fname ls ps : w_platform w' = w_platform w ->
  clause_candidates w fname ls ps -> clause_candidates w' fname ls ps.
Proof. unfold clause_candidates. intros ->. auto. Qed.

Lemma chosen_total w ps : ps <> [] -> exists p, chosen w ps p.
Proof.
  intros N.
  assert (D : (forall q, In q ps -> missing w q) \/ exists b p a, ps = b ++ p :: a /\ (forall q, In q b -> missing w q) /\ ~ missing w p).
  { clear N. induction ps as [|p ps IH]; [left; intros q []|].
    destruct (missing_dec w p) as [M|M]; [|right; exists [], p, ps; repeat split; auto; intros q []].
    destruct IH as [A|(b & x & a & -> & A & B)]; [left; intros q [<-|H]; auto|].
    right. exists (p :: b), x, a. repeat split; auto. intros q [<-|H]; auto. }
  destruct D as [A|(b & x & a & -> & A & B)].
  - destruct ps as [|p ps]; [contradiction|]. exists p. now apply ChosenFirst.
  - exists x. now apply ChosenExisting.
Qed.
Lemma chosen_fun w ps p q : chosen w ps p -> chosen w ps q -> p = q.
Proof.
  intros A B. destruct A as [b p a Hb Hp|p rest H]; inversion B as [b' q' a' Hb' Hq' E|q' rest' H' E]; subst.
  - assert (G : forall b b', b ++ p :: a = b' ++ q :: a' -> (forall x, In x b -> missing w x) ->
      (forall x, In x b' -> missing w x) -> p = q).
    { clear -Hp Hq'. induction b as [|x b IH]; intros [|y b'] E A B; cbn in E; injection E; intros; subst; auto.
      - exfalso. apply Hp, B. now left.
      - exfalso. apply Hq', A. now left.
      - eapply IH; eauto; intros; [apply A | apply B]; now right. }
    symmetry in E. eapply G; eauto.
  - exfalso. apply Hp. rewrite E in H'. apply H'. apply in_or_app; right; left; auto.
  - exfalso. apply Hq'. rewrite <- E in H. apply H. apply in_or_app; right; left; auto.
  - auto.
Qed.
Lemma chosen_In w ps p : chosen w ps p -> In p ps.
Proof. destruct 1; [apply in_or_app; right|]; left; auto. Qed.
Lemma chosen_missing w ps p : chosen w ps p -> missing w p -> (forall q, In q ps -> missing w q) /\ exists rest, ps = p :: rest.
Proof. destruct 1; [contradiction|]. intros _. split; eauto. Qed.
Lemma uses_fun w fname ls p q : uses w fname ls p -> uses w fname ls q -> p = q.
Proof.
  intros (ps & C & H & _) (ps' & C' & H' & _). rewrite (clause_fun _ _ _ _ _ C' C) in H'.
  exact (chosen_fun _ _ _ _ H H').
Qed.
Lemma has_ext_dec p e : {has_extension p e} + {~ has_extension p e}.
Proof.
  destruct (extension p) as [x|] eqn:E.
  - destruct (str_eq_dec x e) as [->|N]; [left; now apply extension_iff|].
    right. intros H. apply extension_iff in H. congruence.
  - right. intros H. apply extension_iff in H. congruence.
Qed.

(** The search of one clause. *)
Lemma layer_finder_eq w fname ls ds : resolved (w_platform w) (ls_dirs ls) ds ->
  layer_finder w fname ls = {| ff_folders := ds; ff_name := fname; ff_exts := [lit "toml"] |}.
Proof. intros R. unfold layer_finder. now rewrite (os_dirs_folders _ _ _ R). Qed.

Lemma clause_search w fname ls ps : clause_candidates w fname ls ps ->
  (ps = [] -> find_first (fun _ => fs_exists w) (layer_finder w fname ls) true = Fail NoFoldersDefined)
  /\ (forall p, chosen w ps p -> exists fr, find_first (fun _ => fs_exists w) (layer_finder w fname ls) true = Done fr
        /\ fr_path fr = p).
Proof.
  intros (ds & cs & R & C & ->). rewrite (layer_finder_eq _ _ _ _ R).
  set (f := {| ff_folders := ds; ff_name := fname; ff_exts := [lit "toml"] |}) in *.
  split.
  - intros E. destruct cs; [|discriminate]. apply candidates_length in C. cbn in C.
    destruct ds; [|cbn in C; lia]. reflexivity.
  - intros p Ch.
    assert (K : complete f).
    { split; [|discriminate]. cbn. intros ->. apply candidates_length in C. cbn in C.
      destruct cs; [|discriminate]. apply chosen_In in Ch. destruct Ch. }
    pose proof (find_first_still (fs_exists w) f cs C K) as S.
    fold (still (fs_exists w)).
    inversion Ch as [b q a Hb Hq E|q rest H E].
    + subst q. symmetry in E. apply map_eq_app in E as (b' & a' & -> & Eb & Ea).
      destruct a' as [|c a']; [discriminate|]. injection Ea as Ec _. subst b.
      destruct (S true) as [A _].
      exists (result_of c 0 true). split; [|now rewrite <- Ec].
      apply (A b' c a' eq_refl); [|rewrite Ec; now apply not_missing_exists].
      intros x I. apply missing_exists, Hb. now apply in_map.
    + subst q. destruct cs as [|c cs]; [discriminate|]. injection E as Ep Er. subst p.
      destruct (S true) as [_ A]. destruct A as [_ A].
      { intros x I. apply missing_exists, H. rewrite Er. now apply (in_map fst) in I. }
      exists (result_of c 0 false). split; [|auto]. eapply A; eauto.
Qed.

(** ** One clause of the program against the specification. *)
Lemma first_named_get {A} (h r : list (str * A)) n l : keeps_first h r ->
  (mget n r = Some l <-> first_named h n l).
Proof. intros K. apply keeps_first_get; auto. Qed.

Lemma push_keeps c h r n l : keeps_first h r -> registered c r ->
  exists r', keeps_first (h ++ [(n, l)]) r' /\ registered (push_layer c n l) r'.
Proof.
  intros K R. pose proof (keeps_first_names _ _ K) as [D I].
  destruct (registered_push c r n l R) as [A B].
  destruct (in_dec str_eq_dec n (map fst h)) as [H|H].
  - exists r. split; [now apply KeepOld|]. rewrite B; auto. now apply I.
  - exists (r ++ [(n, l)]). split; [now apply KeepNew|]. apply A. now rewrite I.
Qed.

Lemma run_layers_spec tc fname dv cs : forall h r c w, keeps_first h r -> registered c r ->
  exists h' r' c' w', run_layers tc fname dv (c, w) cs = Done (c', w')
    /\ macro_run tc fname dv h w cs h' w' /\ keeps_first h' r' /\ registered c' r'.
Proof.
  induction cs as [|ls cs IH]; intros h r c w K R.
  { exists h, r, c, w. split; [reflexivity|]. split; [constructor|]. auto. }
  cbn [run_layers]. unfold run_layer.
  destruct (clause_total w fname ls) as [ps C].
  destruct (clause_search _ _ _ _ C) as [S0 S1].
  assert (CASE : ps = [] \/ exists p, chosen w ps p).
  { destruct ps; [auto | right; apply chosen_total; discriminate]. }
  destruct CASE as [->|[p Ch]].
  - rewrite (S0 eq_refl). cbn [obind].
    destruct (IH h r c w K R) as (h' & r' & c' & w' & E & M & K' & R').
    exists h', r', c', w'. repeat (split; auto). apply RunSkip; auto.
    intros p (ps & C' & Ch & _). rewrite (clause_fun _ _ _ _ _ C' C) in Ch. now apply chosen_In in Ch.
  - destruct (S1 p Ch) as (fr & -> & ->).
    destruct (has_ext_dec p (lit "toml")) as [X|X].
    + rewrite (add_file_accepts tc c (ls_name ls) p X).
      assert (U : uses w fname ls p) by (exists ps; auto).
      destruct (push_keeps c h r (ls_name ls) (LFile (toml_handler tc) p) K R) as (r1 & K1 & R1).
      set (c1 := push_layer c (ls_name ls) (LFile (toml_handler tc) p)) in *.
      assert (SKIP : ~ (ls_init ls = Some true /\ missing w p) ->
        exists h' r' c' w', obind (Done (c1, w)) (fun st' => run_layers tc fname dv st' cs) = Done (c', w')
          /\ macro_run tc fname dv h w (ls :: cs) h' w' /\ keeps_first h' r' /\ registered c' r').
      { intros N. cbn [obind]. destruct (IH _ r1 c1 w K1 R1) as (h' & r' & c' & w' & E & M & K' & R').
        exists h', r', c', w'. repeat (split; auto). eapply RunAdd; eauto. }
      destruct (ls_init ls) as [init|] eqn:EI; [|apply SKIP; intros [? _]; discriminate].
      cbn [andb]. destruct (negb (fs_exists w p) && init) eqn:EB; [|].
      * apply andb_true_iff in EB as [EB ->]. apply negb_true_iff in EB.
        assert (Mi : missing w p) by now apply missing_exists.
        destruct (mget (ls_name ls) r1) as [l|] eqn:G.
        -- unfold get_layer. rewrite (registered_get c1 r1 _ R1), G.
           destruct (layer_write w l dv) as [w1 res] eqn:W. cbn [fst obind].
           destruct (IH _ r1 c1 w1 K1 R1) as (h' & r' & c' & w' & E & M & K' & R').
           exists h', r', c', w'. repeat (split; auto).
           eapply RunInit; eauto. now apply (first_named_get _ r1).
        -- exfalso. apply (keeps_first_none _ _ _ K1) in G. apply G. rewrite map_app. apply in_or_app; right; left; auto.
      * apply SKIP. intros [EI' Mi]. injection EI' as ->. apply missing_exists in Mi. rewrite Mi in EB. discriminate.
    + destruct (add_file_refuses tc c (ls_name ls) p X) as (e & -> & _). cbn [andb].
      assert (Q : forall A : config * world -> outcome (config * world) finder_error,
        obind match ls_init ls with Some _ => Done (c, w) | None => Done (c, w) end A = A (c, w)) by (intros; destruct (ls_init ls); auto).
      rewrite Q. destruct (IH h r c w K R) as (h' & r' & c' & w' & E & M & K' & R').
      exists h', r', c', w'. repeat (split; auto). apply RunSkip; auto.
      intros q (ps' & C' & Ch' & X'). rewrite (clause_fun _ _ _ _ _ C' C) in Ch'.
      rewrite (chosen_fun _ _ _ _ Ch' Ch) in X'. contradiction.
Qed.

Lemma first_named_fun {A} (h : list (str * A)) n l l' : first_named h n l -> first_named h n l' -> l = l'.
Proof.
  intros F F'. destruct (keeps_first_total h) as [r K].
  apply (first_named_get _ _ _ _ K) in F, F'. congruence.
Qed.
Lemma macro_run_fun tc fname dv h w cs h1 w1 : macro_run tc fname dv h w cs h1 w1 ->
  forall h2 w2, macro_run tc fname dv h w cs h2 w2 -> h1 = h2 /\ w1 = w2.
Proof.
  induction 1 as [h w|h w ls cs h' w' N M IH|h w ls p cs h' w' U N M IH|h w ls p l wm r cs h' w' U EI Mi F E M IH];
    intros h2 w2 H2.
  - inversion H2; auto.
  - inversion H2 as [|? ? ? ? ? ? N2 M2|? ? ? q ? ? ? U2 N2 M2|? ? ? q l2 wm2 r2 ? ? ? U2 EI2 Mi2 F2 E2 M2]; subst;
      [auto | now destruct (N _ U2) | now destruct (N _ U2)].
  - inversion H2 as [|? ? ? ? ? ? N2 M2|? ? ? q ? ? ? U2 N2 M2|? ? ? q l2 wm2 r2 ? ? ? U2 EI2 Mi2 F2 E2 M2]; subst;
      [now destruct (N2 _ U) | |]; assert (p = q) by exact (uses_fun _ _ _ _ _ U U2); subst q; [auto | tauto].
  - inversion H2 as [|? ? ? ? ? ? N2 M2|? ? ? q ? ? ? U2 N2 M2|? ? ? q l2 wm2 r2 ? ? ? U2 EI2 Mi2 F2 E2 M2]; subst;
      [now destruct (N2 _ U) | |]; assert (p = q) by exact (uses_fun _ _ _ _ _ U U2); subst q; [tauto|].
    assert (l = l2) by exact (first_named_fun _ _ _ _ F F2). subst l2.
    rewrite E in E2. injection E2 as <- <-. auto.
Qed.

(** ** The whole macro *)
Lemma macro_default ms : exists dv, value_map_macro (ms_default ms) = Done dv /\ default_map ms dv.
Proof.
  destruct (value_map_spec (ms_default ms)) as (v & E & M & _ & _ & H & _).
  exists v. split; auto. split; auto. intros. now rewrite <- H.
Qed.

Lemma create_config_spec tc ms w : exists dv h r cfg w',
  value_map_macro (ms_default ms) = Done dv /\ default_map ms dv
  /\ create_config tc ms w = Done (cfg, w')
  /\ macro_run tc (ms_file_name ms) dv [(lit "default", LMemory dv)] w (ms_layers ms) h w'
  /\ keeps_first (h ++ env_registration ms) r /\ registered cfg r.
Proof.
  destruct (macro_default ms) as (dv & E & D). unfold create_config. rewrite E.
  assert (K0 : keeps_first [(lit "default", LMemory dv)] [(lit "default", LMemory dv)])
    by (apply (KeepNew [] []); [constructor | cbn; tauto]).
  assert (R0 : registered (add_memory_layer config_new (lit "default") dv) [(lit "default", LMemory dv)]).
  { apply (proj1 (registered_push config_new [] (lit "default") (LMemory dv) registered_new)). cbn; tauto. }
  destruct (run_layers_spec tc (ms_file_name ms) dv (ms_layers ms) _ _ _ w K0 R0) as (h & r & c & w' & Ru & M & K & R).
  rewrite Ru. cbn [obind fst snd]. unfold env_registration. destruct (ms_env ms) as [prefix|].
  - destruct (push_keeps c h r (lit "environment") (env_layer_new prefix) K R) as (r' & K' & R').
    exists dv, h, r', (add_environment_layer c (lit "environment") prefix), w'. auto 7.
  - exists dv, h, r, c, w'. rewrite app_nil_r. auto 7.
Qed.

(** Any run of the program is the specified run. *)
Lemma create_config_run tc ms w cfg w' dv : create_config tc ms w = Done (cfg, w') ->
  value_map_macro (ms_default ms) = Done dv ->
  exists h r, macro_run tc (ms_file_name ms) dv [(lit "default", LMemory dv)] w (ms_layers ms) h w'
  /\ keeps_first (h ++ env_registration ms) r /\ registered cfg r.
Proof.
  intros E V. destruct (create_config_spec tc ms w) as (dv' & h & r & cfg' & w1 & V' & _ & E' & M & K & R).
  assert (dv' = dv) by congruence. subst dv'.
  rewrite E in E'. injection E' as <- <-. eauto.
Qed.

(** ** Effects of a run *)
Lemma same_system_refl w : same_system w w.
Proof. repeat split. Qed.
Lemma same_system_trans a b c : same_system a b -> same_system b c -> same_system a c.
Proof. intros (A0 & A1 & A2 & A3 & A4 & A5) (B0 & B1 & B2 & B3 & B4 & B5). repeat split; congruence. Qed.
Lemma same_but_system p w w' : same_but p w w' -> same_system w w'.
Proof. intros (_ & T & A & B & C & D & E). repeat split; auto. Qed.

Lemma same_system_sym w w' : same_system w w' -> same_system w' w.
Proof. intros (T & A & B & C & D & E). repeat split; auto. Qed.

Lemma first_named_new {A} (h : list (str * A)) n l l' : ~ In n (map fst h) ->
  first_named (h ++ [(n, l)]) n l' -> l' = l.
Proof.
  intros N F. eapply first_named_fun; [exact F|]. exists h, []. auto.
Qed.

Lemma first_named_In {A} (h : list (str * A)) n l : first_named h n l -> In (n, l) h.
Proof. intros (b & a & -> & _). apply in_or_app; right; left; auto. Qed.

(** A write to a file layer: either the world stays as it is or the file ends up
    holding a prefix of the text. *)
Lemma file_write_prefix tc w p dv w1 r : layer_write w (LFile (toml_handler tc) p) dv = (w1, r) ->
  same_but p w w1 /\ (w1 = w \/ exists s k, toml_to_string tc dv = Ok s /\
     forall q, same_file w p q -> w_fs w1 q = Some (NFile (firstn k (utf8_encode s)))).
Proof.
  intros E. split; [eapply file_write_effect; exact E|].
  cbn in E. unfold toml_write, fs_write in E.
  destruct (toml_to_string tc dv) as [s|m]; [|injection E as <- _; auto].
  assert (F : forall l : list byte, l = firstn (List.length l) l) by (intros; now rewrite firstn_all).
  assert (T : forall l k, l = firstn k (utf8_encode s) ->
    exists s0 k, @Ok str str s = Ok s0 /\ forall q, same_file w p q -> w_fs (set_node w p (NFile l)) q = Some (NFile (firstn k (utf8_encode s0)))).
  { intros l k ->. exists s, k. split; auto. intros q Q. now rewrite set_node_same. }
  destruct (w_fs w p) as [[bs|]|]; [|injection E as <- _; auto|];
    (destruct (w_can_open w p); [|injection E as <- _; auto];
     destruct (w_space w p) as [n|]; [destruct (Nat.leb _ n)|]; injection E as <- _; right;
     eapply T; first [apply F | reflexivity]).
Qed.

Lemma same_file_dec w p q : {same_file w p q} + {~ same_file w p q}.
Proof. unfold same_file. apply str_eq_dec. Qed.

Lemma NoDup_snoc_assoc {A} (h : list A) n ns : NoDup (h ++ n :: ns) -> NoDup ((h ++ [n]) ++ ns).
Proof. now rewrite <- app_assoc. Qed.

Lemma uses_missing w fname ls p : uses w fname ls p -> missing w p ->
  exists rest, clause_candidates w fname ls (p :: rest) /\ (forall x, In x (p :: rest) -> missing w x) /\ has_extension p (lit "toml").
Proof.
  intros (ps & C & Ch & X) M. destruct (chosen_missing _ _ _ Ch M) as [A [rest ->]]. eauto.
Qed.

Lemma run_effect tc fname dv h w cs h' w' : macro_run tc fname dv h w cs h' w' ->
  NoDup (map fst h ++ map ls_name cs) ->
  same_system w w' /\ forall q, w_fs w' q = w_fs w q \/ created tc fname dv w w' cs q.
Proof.
  induction 1 as [h w|h w ls cs h' w' N M IH|h w ls p cs h' w' U N M IH|h w ls p l w1 r cs h' w' U EI Mi F E M IH]; intros D.
  - split; [apply same_system_refl | auto].
  - cbn [map] in D. apply NoDup_remove in D as [D _]. destruct (IH D) as [A B]. split; auto.
    intros q. destruct (B q) as [|(Mq & ls' & p' & rest & s & k & I & T)]; auto.
    right. split; auto. exists ls', p', rest, s, k. split; [now right | auto].
  - cbn [map] in D. assert (D' : NoDup (map fst (h ++ [(ls_name ls, LFile (toml_handler tc) p)]) ++ map ls_name cs)).
    { rewrite map_app. cbn [map fst]. now apply NoDup_snoc_assoc. }
    destruct (IH D') as [A B]. split; auto.
    intros q. destruct (B q) as [|(Mq & ls' & p' & rest & s & k & I & T)]; auto.
    right. split; auto. exists ls', p', rest, s, k. split; [now right | auto].
  - cbn [map] in D. assert (D' : NoDup (map fst (h ++ [(ls_name ls, LFile (toml_handler tc) p)]) ++ map ls_name cs)).
    { rewrite map_app. cbn [map fst]. now apply NoDup_snoc_assoc. }
    assert (NI : ~ In (ls_name ls) (map fst h)).
    { intros I. apply NoDup_remove_2 in D. apply D. apply in_or_app; auto. }
    apply first_named_new in F; auto. subst l.
    destruct (file_write_prefix _ _ _ _ _ _ E) as [SB W1].
    destruct (IH D') as [A B]. split; [eapply same_system_trans; [eapply same_but_system; eauto | auto]|].
    destruct (uses_missing _ _ _ _ U Mi) as (rest & C & AM & X).
    destruct (same_but_system _ _ _ SB) as (TG & _ & PF & _).
    intros q. destruct (same_file_dec w p q) as [Sq|Nq].
    + destruct W1 as [->|(s & k & S & F1)].
      * destruct (B q) as [|(Mq & ls' & p' & rest' & s & k & I & T)]; auto.
        right. split; auto. exists ls', p', rest', s, k. split; [now right | auto].
      * specialize (F1 q Sq). destruct (B q) as [Eq|(Mq & _)]; [|unfold missing in Mq; congruence].
        right. split; [unfold missing in *; now rewrite <- (same_file_fs w p q Sq)|].
        exists ls, p, rest, s, k. rewrite Eq. split; [now left|]. auto 8.
    + assert (F1 : w_fs w1 q = w_fs w q) by now apply SB.
      destruct (B q) as [Eq|(Mq & ls' & p' & rest' & s & k & I & EI' & C' & AM' & X' & S' & T)]; [left; congruence|].
      right. split; [unfold missing in *; congruence|]. exists ls', p', rest', s, k. split; [now right|]. split; auto.
      split; [exact (clause_platform w1 w fname ls' _ (eq_sym PF) C')|]. split; [|split; auto; split; auto].
      * intros x Ix. specialize (AM' x Ix). destruct (same_file_dec w p x) as [Sx|Nx].
        -- unfold missing in *. now rewrite <- (same_file_fs w p x Sx).
        -- destruct SB as [SB _]. unfold missing in *. now rewrite SB in AM' by auto.
      * unfold same_file in *. now rewrite TG in S'.
Qed.

Lemma run_monotone tc fname dv h w cs h' w' : macro_run tc fname dv h w cs h' w' ->
  NoDup (map fst h ++ map ls_name cs) -> forall q, missing w' q -> missing w q.
Proof.
  intros M D q Q. destruct (run_effect _ _ _ _ _ _ _ _ M D) as [_ B].
  destruct (B q) as [E|(Mq & _)]; auto. unfold missing in *. congruence.
Qed.

(** A write that leaves the file missing would also change nothing later. *)
Lemma failed_create_again tc w p dv w1 r w2 : layer_write w (LFile (toml_handler tc) p) dv = (w1, r) ->
  missing w p -> missing w1 p -> missing w2 p -> same_system w w2 ->
  fst (layer_write w2 (LFile (toml_handler tc) p) dv) = w2.
Proof.
  intros E M M1 M2 (_ & _ & _ & _ & CO & _). cbn in *. unfold toml_write, fs_write, missing in *.
  destruct (toml_to_string tc dv) as [s|m]; [|auto]. rewrite M in E. rewrite M2, CO.
  destruct (w_can_open w p); [|auto].
  destruct (w_space w p) as [n|]; [destruct (Nat.leb _ n)|]; injection E as <- _; rewrite set_node_at in M1; discriminate.
Qed.

Lemma run_twice tc fname dv h w cs h1 w1 : macro_run tc fname dv h w cs h1 w1 ->
  NoDup (map fst h ++ map ls_name cs) ->
  forall k w2 k' w2', macro_run tc fname dv k w2 cs k' w2' -> NoDup (map fst k ++ map ls_name cs) ->
  same_system w w2 -> (forall q, missing w2 q -> missing w1 q) -> w2' = w2.
Proof.
  induction 1 as [h w|h w ls cs h' w' N M IH|h w ls p cs h' w' U N M IH|h w ls p l w1 r cs h' w' U EI Mi F E M IH];
    intros D k w2 k' w2' H2 D2 SS MM.
  - inversion H2; auto.
  - cbn [map] in D. assert (D' := NoDup_remove_1 _ _ _ D).
    assert (DD2 : forall p, NoDup (map fst (k ++ [(ls_name ls, LFile (toml_handler tc) p)]) ++ map ls_name cs)).
    { intros p. rewrite map_app. now apply NoDup_snoc_assoc. }
    inversion H2 as [|? ? ? ? ? ? N2 M2|? ? ? q ? ? ? U2 N2 M2|? ? ? q l2 wm2 r2 ? ? ? U2 EI2 Mi2 F2 E2 M2]; subst.
    + eapply (IH D' _ _ _ _ M2); eauto. cbn [map] in D2. exact (NoDup_remove_1 _ _ _ D2).
    + eapply (IH D' _ _ _ _ M2); eauto.
    + exfalso. destruct (uses_missing _ _ _ _ U2 Mi2) as (rest & C & AM & X).
      apply (N q). exists (q :: rest). split; [|split; auto].
      * eapply clause_platform; [|exact C]. symmetry. apply SS.
      * apply ChosenFirst. intros x Ix. apply (run_monotone _ _ _ _ _ _ _ _ M D'), MM, AM, Ix.
  - cbn [map] in D. assert (D' : NoDup (map fst (h ++ [(ls_name ls, LFile (toml_handler tc) p)]) ++ map ls_name cs)).
    { rewrite map_app. now apply NoDup_snoc_assoc. }
    assert (DD2 : forall p, NoDup (map fst (k ++ [(ls_name ls, LFile (toml_handler tc) p)]) ++ map ls_name cs)).
    { intros x. rewrite map_app. now apply NoDup_snoc_assoc. }
    inversion H2 as [|? ? ? ? ? ? N2 M2|? ? ? q ? ? ? U2 N2 M2|? ? ? q l2 wm2 r2 ? ? ? U2 EI2 Mi2 F2 E2 M2]; subst.
    + eapply (IH D' _ _ _ _ M2); eauto. cbn [map] in D2. exact (NoDup_remove_1 _ _ _ D2).
    + eapply (IH D' _ _ _ _ M2); eauto.
    + exfalso. destruct (uses_missing _ _ _ _ U2 Mi2) as (rest & C & AM & X).
      assert (MW : forall x, In x (q :: rest) -> missing w x).
      { intros x Ix. apply (run_monotone _ _ _ _ _ _ _ _ M D'), MM, AM, Ix. }
      assert (Uq : uses w fname ls q).
      { exists (q :: rest). split; [eapply clause_platform; [|exact C]; symmetry; apply SS|].
        split; auto. now apply ChosenFirst. }
      assert (p = q) by exact (uses_fun _ _ _ _ _ U Uq). subst q. apply N. split; auto. apply MW. now left.
  - cbn [map] in D. assert (D' : NoDup (map fst (h ++ [(ls_name ls, LFile (toml_handler tc) p)]) ++ map ls_name cs)).
    { rewrite map_app. now apply NoDup_snoc_assoc. }
    assert (DD2 : forall p, NoDup (map fst (k ++ [(ls_name ls, LFile (toml_handler tc) p)]) ++ map ls_name cs)).
    { intros x. rewrite map_app. now apply NoDup_snoc_assoc. }
    assert (NI : ~ In (ls_name ls) (map fst h)).
    { intros I. apply NoDup_remove_2 in D. apply D. apply in_or_app; auto. }
    assert (NI2 : ~ In (ls_name ls) (map fst k)).
    { intros I. cbn [map] in D2. apply NoDup_remove_2 in D2. apply D2. apply in_or_app; auto. }
    apply first_named_new in F; auto. subst l.
    destruct (file_write_prefix _ _ _ _ _ _ E) as [SB _].
    assert (SS1 : same_system w1 w2).
    { eapply same_system_trans; [|exact SS]. apply same_system_sym. eapply same_but_system; eauto. }
    inversion H2 as [|? ? ? ? ? ? N2 M2|? ? ? q ? ? ? U2 N2 M2|? ? ? q l2 wm2 r2 ? ? ? U2 EI2 Mi2 F2 E2 M2]; subst.
    + eapply (IH D' _ _ _ _ M2); eauto. cbn [map] in D2. exact (NoDup_remove_1 _ _ _ D2).
    + eapply (IH D' _ _ _ _ M2); eauto.
    + apply first_named_new in F2; auto. subst l2.
      destruct (uses_missing _ _ _ _ U2 Mi2) as (rest & C & AM & X).
      assert (M1 : forall x, In x (q :: rest) -> missing w1 x).
      { intros x Ix. apply (run_monotone _ _ _ _ _ _ _ _ M D'), MM, AM, Ix. }
      assert (MW : forall x, In x (q :: rest) -> missing w x).
      { intros x Ix. destruct (same_file_dec w p x) as [Sx|Nx]; [unfold missing in *; now rewrite <- (same_file_fs w p x Sx)|].
        specialize (M1 x Ix). destruct SB as [SB _]. unfold missing in *. now rewrite SB in M1 by auto. }
      assert (Uq : uses w fname ls q).
      { exists (q :: rest). split; [eapply clause_platform; [|exact C]; symmetry; apply SS|].
        split; auto. now apply ChosenFirst. }
      assert (p = q) by exact (uses_fun _ _ _ _ _ U Uq). subst q.
      pose proof (failed_create_again tc w p dv w1 r w2 E Mi (M1 p (or_introl eq_refl)) Mi2 SS) as FA.
      rewrite E2 in FA. cbn in FA. subst wm2.
      eapply (IH D' _ _ _ _ M2); eauto.
Qed.

Lemma second_run tc ms w cfg w' cfg' w'' : distinct_names ms ->
  create_config tc ms w = Done (cfg, w') -> create_config tc ms w' = Done (cfg', w'') -> w'' = w'.
Proof.
  intros D E E'. destruct (macro_default ms) as (dv & V & _).
  destruct (create_config_run _ _ _ _ _ _ E V) as (h & r & M & _).
  destruct (create_config_run _ _ _ _ _ _ E' V) as (h' & r' & M' & _).
  refine (run_twice _ _ _ _ _ _ _ _ M D _ _ _ _ M' D _ _); [|auto].
  apply (run_effect _ _ _ _ _ _ _ _ M D).
Qed.

(** ** No init clause, no change *)
Lemma run_no_init tc fname dv h w cs h' w' : macro_run tc fname dv h w cs h' w' ->
  (forall ls, In ls cs -> ls_init ls <> Some true) -> w' = w.
Proof.
  induction 1 as [h w|h w ls cs h' w' N M IH|h w ls p cs h' w' U N M IH|h w ls p l w1 r cs h' w' U EI Mi F E M IH]; intros A; auto.
  - apply IH. intros; apply A; now right.
  - apply IH. intros; apply A; now right.
  - destruct (A ls (or_introl eq_refl) EI).
Qed.

(** ** init creates the file *)
Lemma run_app tc fname dv c1 : forall h w c2 h' w', macro_run tc fname dv h w (c1 ++ c2) h' w' ->
  exists h1 w1, macro_run tc fname dv h w c1 h1 w1 /\ macro_run tc fname dv h1 w1 c2 h' w'.
Proof.
  induction c1 as [|ls c1 IH]; intros h w c2 h' w' M; [exists h, w; split; [constructor | auto]|].
  cbn in M. inversion M as [|? ? ? ? ? ? N2 M2|? ? ? q ? ? ? U2 N2 M2|? ? ? q l2 wm2 r2 ? ? ? U2 EI2 Mi2 F2 E2 M2]; subst;
    destruct (IH _ _ _ _ _ M2) as (h1 & w1 & A & B); exists h1, w1; split; auto.
  - now apply RunSkip. - eapply RunAdd; eauto. - eapply RunInit; eauto.
Qed.
Lemma nodup_app_l {A} (a b : list A) : NoDup (a ++ b) -> NoDup a.
Proof.
  induction a as [|x a IH]; intros D; [constructor|]. cbn in D. inversion D; subst. constructor; auto.
  intros I. apply H1, in_or_app; auto.
Qed.
Lemma run_nodup tc fname dv c1 c2 h w h1 w1 : macro_run tc fname dv h w c1 h1 w1 ->
  NoDup (map fst h ++ map ls_name (c1 ++ c2)) ->
  NoDup (map fst h1 ++ map ls_name c2) /\ NoDup (map fst h ++ map ls_name c1).
Proof.
  intros M D. split; [|rewrite map_app, app_assoc in D; now apply nodup_app_l in D].
  revert D. induction M as [h w|h w ls cs h' w' N M IH|h w ls p cs h' w' U N M IH|h w ls p l w1 r cs h' w' U EI Mi F E M IH]; intros D; auto.
  - apply IH. cbn in D. exact (NoDup_remove_1 _ _ _ D).
  - apply IH. rewrite map_app. now apply NoDup_snoc_assoc.
  - apply IH. rewrite map_app. now apply NoDup_snoc_assoc.
Qed.

Lemma after_frame tc fname dv h w cs h' w' q n : macro_run tc fname dv h w cs h' w' ->
  NoDup (map fst h ++ map ls_name cs) -> w_fs w q = Some n -> w_fs w' q = Some n.
Proof.
  intros M D Q. destruct (run_effect _ _ _ _ _ _ _ _ M D) as [_ B].
  destruct (B q) as [E|(Mq & _)]; [congruence|]. unfold missing in Mq; congruence.
Qed.

Lemma init_creates tc ms w cfg w' dv s before ls after p rest :
  distinct_names ms -> create_config tc ms w = Done (cfg, w') ->
  value_map_macro (ms_default ms) = Done dv ->
  ms_layers ms = before ++ ls :: after -> ls_init ls = Some true ->
  clause_candidates w (ms_file_name ms) ls (p :: rest) -> (forall q, In q (p :: rest) -> missing w q) ->
  has_extension p (lit "toml") ->
  (forall ls' q rest', In ls' before -> ls_init ls' = Some true ->
     clause_candidates w (ms_file_name ms) ls' (q :: rest') -> forall x, In x (p :: rest) -> ~ same_file w q x) ->
  toml_to_string tc dv = Ok s -> w_can_open w p = true -> room_for w p s ->
  w_fs w' p = Some (NFile (utf8_encode s)).
Proof.
  intros D E V L EI C AM X DJ TS O SP.
  destruct (create_config_run _ _ _ _ _ _ E V) as (h & r & M & _).
  unfold distinct_names in D. rewrite L in M, D.
  destruct (run_app _ _ _ _ _ _ _ _ _ M) as (h1 & w1 & M1 & M2).
  destruct (run_nodup _ _ _ _ (ls :: after) _ _ _ _ M1 D) as [D2 D1].
  destruct (run_effect _ _ _ _ _ _ _ _ M1 D1) as [SS B].
  assert (AM1 : forall q, In q (p :: rest) -> missing w1 q).
  { intros q I. destruct (B q) as [Eq|(_ & ls' & p' & rest' & s' & k & I' & EI' & C' & _ & _ & S' & _)].
    - specialize (AM q I). unfold missing in *. congruence.
    - now destruct (DJ ls' p' rest' I' EI' C' q I). }
  assert (U : uses w1 (ms_file_name ms) ls p).
  { exists (p :: rest). split; [eapply clause_platform; [|exact C]; apply SS|]. split; auto. now apply ChosenFirst. }
  assert (Mp : missing w1 p) by (apply AM1; now left).
  assert (NI : ~ In (ls_name ls) (map fst h1)).
  { intros I. cbn [map] in D2. apply NoDup_remove_2 in D2. apply D2. apply in_or_app; auto. }
  assert (D3 : NoDup (map fst (h1 ++ [(ls_name ls, LFile (toml_handler tc) p)]) ++ map ls_name after)).
  { rewrite map_app. now apply NoDup_snoc_assoc. }
  inversion M2 as [|? ? ? ? ? ? N' M'|? ? ? q ? ? ? U' N' M'|? ? ? q l' wm' r' ? ? ? U' EI' Mi' F' E' M']; subst.
  - now destruct (N' p).
  - assert (p = q) by exact (uses_fun _ _ _ _ _ U U'). subst q. tauto.
  - assert (p = q) by exact (uses_fun _ _ _ _ _ U U'). subst q.
    apply first_named_new in F'; auto. subst l'.
    destruct SS as (_ & _ & _ & _ & SO & SPC).
    rewrite (write_succeeds tc w1 p dv s) in E'; auto.
    + injection E' as <- <-. apply (after_frame _ _ _ _ _ _ _ _ p _ M' D3). apply set_node_at.
    + now rewrite SO.
    + unfold missing in Mp. congruence.
    + unfold room_for in SP. now rewrite SPC.
Qed.

Lemma init_exists tc ms w cfg w' dv s before ls after p rest :
  distinct_names ms -> create_config tc ms w = Done (cfg, w') ->
  value_map_macro (ms_default ms) = Done dv ->
  ms_layers ms = before ++ ls :: after -> ls_init ls = Some true ->
  clause_candidates w (ms_file_name ms) ls (p :: rest) ->
  has_extension p (lit "toml") -> toml_to_string tc dv = Ok s -> w_can_open w p = true ->
  exists q, In q (p :: rest) /\ ~ missing w' q.
Proof.
  intros D E V L EI C X TS O.
  destruct (create_config_run _ _ _ _ _ _ E V) as (h & r & M & _).
  unfold distinct_names in D. rewrite L in M, D.
  destruct (run_effect _ _ _ _ _ _ _ _ M D) as [SS _].
  destruct (run_app _ _ _ _ _ _ _ _ _ M) as (h1 & w1 & M1 & M2).
  destruct (run_nodup _ _ _ _ (ls :: after) _ _ _ _ M1 D) as [D2 D1].
  destruct (run_effect _ _ _ _ _ _ _ _ M1 D1) as [SS1 _].
  assert (DD : (exists q, In q (p :: rest) /\ ~ missing w1 q) \/ forall q, In q (p :: rest) -> missing w1 q).
  { clear. induction (p :: rest) as [|x l IH]; [right; intros q []|].
    destruct (missing_dec w1 x) as [A|A]; [|left; exists x; split; auto; now left].
    destruct IH as [(q & I & N)|A']; [left; exists q; split; auto; now right | right; intros q [<-|I]; auto]. }
  destruct DD as [(q & I & N)|AM1].
  { exists q. split; auto. intros Mq. apply N. exact (run_monotone _ _ _ _ _ _ _ _ M2 D2 q Mq). }
  exists p. split; [now left|].
  assert (U : uses w1 (ms_file_name ms) ls p).
  { exists (p :: rest). split; [eapply clause_platform; [|exact C]; apply SS1|]. split; auto. now apply ChosenFirst. }
  assert (Mp : missing w1 p) by (apply AM1; now left).
  assert (NI : ~ In (ls_name ls) (map fst h1)).
  { intros I. cbn [map] in D2. apply NoDup_remove_2 in D2. apply D2. apply in_or_app; auto. }
  assert (D3 : NoDup (map fst (h1 ++ [(ls_name ls, LFile (toml_handler tc) p)]) ++ map ls_name after)).
  { rewrite map_app. now apply NoDup_snoc_assoc. }
  inversion M2 as [|? ? ? ? ? ? N' M'|? ? ? q ? ? ? U' N' M'|? ? ? q l' wm' r' ? ? ? U' EI' Mi' F' E' M']; subst.
  - now destruct (N' p).
  - assert (p = q) by exact (uses_fun _ _ _ _ _ U U'). subst q. tauto.
  - assert (p = q) by exact (uses_fun _ _ _ _ _ U U'). subst q.
    apply first_named_new in F'; auto. subst l'.
    intros Mq. apply (run_monotone _ _ _ _ _ _ _ _ M' D3) in Mq.
    cbn in E'. unfold toml_write, fs_write in E'. rewrite TS in E'. unfold missing in Mp, Mq. rewrite Mp in E'.
    destruct SS1 as (_ & _ & _ & _ & SO & _). rewrite SO, O in E'.
    destruct (w_space w1 p) as [n|]; [destruct (Nat.leb _ n)|]; injection E' as <- _; rewrite set_node_at in Mq; discriminate.
Qed.

(** ** Contents written by a run, whatever the names *)
Definition plain (tc : codec) (h : list (str * layer)) : Prop :=
  forall n l, In (n, l) h -> (exists v, l = LMemory v) \/ exists p, l = LFile (toml_handler tc) p.

Lemma plain_snoc tc h n p : plain tc h -> plain tc (h ++ [(n, LFile (toml_handler tc) p)]).
Proof. intros P n' l I. apply in_app_or in I as [I|[I|[]]]; [eauto | injection I as <- <-; eauto]. Qed.

Lemma write_content tc w p dv w1 r : layer_write w (LFile (toml_handler tc) p) dv = (w1, r) ->
  w1 = w \/ exists s bs, toml_to_string tc dv = Ok s /\ forall q, same_file w p q -> w_fs w1 q = Some (NFile bs)
     /\ (room_for w q s -> bs = utf8_encode s).
Proof.
  intros E. cbn in E. unfold toml_write, fs_write in E.
  destruct (toml_to_string tc dv) as [s|m]; [|injection E as <- _; auto].
  assert (T : forall bs, (room_for w p s -> bs = utf8_encode s) ->
    exists s0 bs0, @Ok str str s = Ok s0 /\ forall q, same_file w p q -> w_fs (set_node w p (NFile bs)) q = Some (NFile bs0) /\ (room_for w q s0 -> bs0 = utf8_encode s0)).
  { intros bs H. exists s, bs. split; auto. intros q Q. rewrite set_node_same by auto. split; auto.
    unfold room_for, w_space. rewrite <- Q. exact H. }
  assert (RF : forall n, w_space w p = Some n -> (n < List.length (utf8_encode s))%nat -> ~ room_for w p s).
  { intros n Sn L [N|(m & Sm & Lm)]; [congruence|]. rewrite Sn in Sm. injection Sm as <-. lia. }
  destruct (w_fs w p) as [[bs|]|]; [|injection E as <- _; auto|];
    (destruct (w_can_open w p); [|injection E as <- _; auto];
     destruct (w_space w p) as [n|] eqn:Sn; [destruct (Nat.leb_spec (List.length (utf8_encode s)) n)|]; injection E as <- _; right;
     apply T; auto; intros R; exfalso; eapply RF; eauto).
Qed.

Lemma run_content tc fname dv h w cs h' w' : macro_run tc fname dv h w cs h' w' -> plain tc h ->
  plain tc h' /\ same_system w w'
  /\ (exists new, h' = h ++ new /\ forall n l, In (n, l) new -> exists ls ps p, In ls cs
        /\ l = LFile (toml_handler tc) p /\ clause_candidates w fname ls ps /\ In p ps)
  /\ forall q, w_fs w' q = w_fs w q \/ exists s bs, toml_to_string tc dv = Ok s /\ w_fs w' q = Some (NFile bs)
       /\ (room_for w q s -> bs = utf8_encode s).
Proof.
  assert (ADD : forall w fname ls p cs h (new : list (str * layer)) w0, uses w fname ls p -> w_platform w = w_platform w0 ->
    (forall n l, In (n, l) new -> exists ls ps p, In ls cs /\ l = LFile (toml_handler tc) p
       /\ clause_candidates w0 fname ls ps /\ In p ps) ->
    exists new', (h ++ [(ls_name ls, LFile (toml_handler tc) p)]) ++ new = h ++ new' /\
      forall n l, In (n, l) new' -> exists ls0 ps p, In ls0 (ls :: cs) /\ l = LFile (toml_handler tc) p
       /\ clause_candidates w fname ls0 ps /\ In p ps).
  { intros w0 f ls p cs0 h0 new w2 (ps & C & Ch & _) PE H.
    exists ((ls_name ls, LFile (toml_handler tc) p) :: new). split; [now rewrite <- app_assoc|].
    intros n l [I|I].
    - injection I as _ <-. exists ls, ps, p. split; [now left|]. split; auto. split; auto. eapply chosen_In; eauto.
    - destruct (H n l I) as (ls' & ps' & p' & I' & -> & C' & J). exists ls', ps', p'. split; [now right|].
      split; auto. split; auto. eapply clause_platform; [|exact C']. auto. }
  induction 1 as [h w|h w ls cs h' w' N M IH|h w ls p cs h' w' U N M IH|h w ls p l w1 r cs h' w' U EI Mi F E M IH]; intros P.
  - split; auto. split; [apply same_system_refl|]. split; auto. exists []. split; [now rewrite app_nil_r | intros n l []].
  - destruct (IH P) as (A & B & (new & -> & C) & D). split; auto. split; auto. split; auto.
    exists new. split; auto. intros n l I. destruct (C n l I) as (ls' & ps & p & I' & T). exists ls', ps, p. split; [now right | auto].
  - destruct (IH (plain_snoc _ _ _ _ P)) as (A & B & (new & -> & C) & D). split; auto. split; auto. split; auto.
    eapply ADD; eauto.
  - destruct (IH (plain_snoc _ _ _ _ P)) as (A & B & (new & -> & C) & D).
    assert (Pl := plain_snoc tc h (ls_name ls) p P _ _ (first_named_In _ _ _ F)).
    assert (EFF : same_system w w1 /\ forall q, w_fs w1 q = w_fs w q \/ exists s bs, toml_to_string tc dv = Ok s
        /\ w_fs w1 q = Some (NFile bs) /\ (room_for w q s -> bs = utf8_encode s)).
    { destruct Pl as [[v ->]|[p' ->]].
      - cbn in E. injection E as <- _. split; [apply same_system_refl | auto].
      - pose proof (file_write_effect _ _ _ _ _ _ E) as [SB _]. split; [eapply same_but_system; eauto|].
        intros q. destruct (same_file_dec w p' q) as [Sq|Nq]; [|left; now apply SB].
        destruct (write_content _ _ _ _ _ _ E) as [->|(s & bs & TS & H)]; auto. right. exists s, bs. split; auto. }
    destruct EFF as [SS1 EF]. split; auto. split; [eapply same_system_trans; eauto|]. split.
    + refine (ADD w fname ls p cs h new w1 U _ C). symmetry. apply SS1.
    + intros q. destruct (D q) as [Eq|(s & bs & T & Fq & R)].
      * rewrite Eq. apply EF.
      * right. exists s, bs. split; auto. split; auto. intros RF. apply R. unfold room_for in *.
        destruct SS1 as (_ & _ & _ & _ & _ & ->). auto.
Qed.

(** ** Effective values before and after *)
Lemma requiv_refl_err {E} (e : E) : @requiv E (Err e) (Err e).
Proof. reflexivity. Qed.

Lemma build_list_congr w w' skip ls : 
  (forall l, In l ls -> layer_read w' l = layer_read w l /\ forall x, layer_read w l = Ok x -> uniq x) ->
  forall acc acc', vequiv acc acc' -> uniq acc -> uniq acc' ->
  requiv (build_list w skip acc ls) (build_list w' skip acc' ls).
Proof.
  induction ls as [|l ls IH]; intros H acc acc' V U U'; cbn [build_list]; [exact V|].
  destruct (H l (or_introl eq_refl)) as [-> Q].
  assert (H' : forall l, In l ls -> layer_read w' l = layer_read w l /\ forall x, layer_read w l = Ok x -> uniq x)
    by (intros; apply H; now right).
  destruct (layer_read w l) as [v|e]; [|destruct skip; [auto | reflexivity]].
  specialize (Q v eq_refl). apply IH; auto; [now apply v_merge_congr; auto using vequiv_refl | now apply v_merge_uniq | now apply v_merge_uniq].
Qed.

Lemma build_list_defaults tc w' skip dv dv' (r1 : list layer) : uniq dv -> uniq dv' -> vequiv dv' dv ->
  (forall l, In l r1 -> exists p, l = LFile (toml_handler tc) p /\ (layer_read w' l = Ok (VMap []) \/ layer_read w' l = Ok dv')) ->
  forall acc, uniq acc -> vequiv dv acc -> exists acc', build_list w' skip acc r1 = Ok acc' /\ uniq acc' /\ vequiv dv acc'.
Proof.
  intros U U' V. induction r1 as [|l r1 IH]; intros H acc Ua Va; cbn [build_list]; [eauto|].
  assert (H' : forall l, In l r1 -> exists p, l = LFile (toml_handler tc) p /\ (layer_read w' l = Ok (VMap []) \/ layer_read w' l = Ok dv'))
    by (intros; apply H; now right).
  destruct (H l (or_introl eq_refl)) as (p & _ & [->| ->]).
  - rewrite v_merge_empty_r. auto.
  - apply IH; auto; [now apply v_merge_uniq|].
    apply vequiv_trans with (v_merge dv dv); [apply vequiv_sym, v_merge_self; auto|].
    apply v_merge_congr; auto. now apply vequiv_sym.
Qed.

Lemma file_read_frame tc w w' p : w_fs w' p = w_fs w p -> w_can_read w' = w_can_read w ->
  layer_read w' (LFile (toml_handler tc) p) = layer_read w (LFile (toml_handler tc) p).
Proof. intros E R. cbn. unfold toml_read, fs_read_to_string, fs_exists. now rewrite E, R. Qed.

Lemma file_read_uniq tc w p x : (forall t v, toml_from_str tc t = Ok v -> uniq v) ->
  layer_read w (LFile (toml_handler tc) p) = Ok x -> uniq x.
Proof.
  intros T. cbn. destruct (negb (fs_exists w p)).
  - intros E. injection E as <-. apply UMap; [constructor | intros k y []].
  - unfold toml_read. destruct (fs_read_to_string w p) as [t|]; [|discriminate].
    destruct (toml_from_str tc t) as [v|] eqn:E'; [|discriminate]. intros E. injection E as <-. eauto.
Qed.

Lemma env_read_uniq p env x : env_read p env = Ok x -> uniq x.
Proof.
  unfold env_read. destruct p; [discriminate|]. intros E. injection E as <-.
  assert (G : forall env m, (NoDup (map fst m) /\ forall k y, In (k, y) m -> exists t, y = VStr t) ->
    NoDup (map fst (fold_left (env_step (c :: p)) env m)) /\ forall k y, In (k, y) (fold_left (env_step (c :: p)) env m) -> exists t, y = VStr t).
  { clear. intros env. induction env as [|kv env IH]; intros m H; cbn [fold_left]; auto. apply IH.
    unfold env_step. destruct (utf8_decode (fst kv)) as [k0|]; auto. cbv zeta. destruct (negb _); auto.
    destruct (utf8_decode (snd kv)) as [v|]; auto. destruct H as [D S]. split; [now apply minsert_nodup|].
    intros k y I. apply In_minsert in I as [[-> ->]|I]; eauto. }
  destruct (G env []) as [D S]; [split; [constructor | intros k y []]|].
  apply UMap; auto. intros k y I. destruct (S k y I) as [t ->]. now apply UScalar.
Qed.

Lemma effective_unchanged tc ms w cfg w' dv s dv' r1 r2 skip :
  create_config tc ms w = Done (cfg, w') -> value_map_macro (ms_default ms) = Done dv -> uniq dv ->
  toml_to_string tc dv = Ok s -> is_text s = true -> toml_from_str tc s = Ok dv' -> vequiv dv' dv ->
  (forall t v, toml_from_str tc t = Ok v -> uniq v) ->
  registered cfg ((lit "default", LMemory dv) :: r1 ++ r2) ->
  (forall n l, In (n, l) r1 -> exists p, l = LFile (toml_handler tc) p /\ missing w p
     /\ room_for w p s /\ w_can_read w p = true) ->
  (forall n l, In (n, l) r2 -> (exists prefix, l = LEnv prefix)
     \/ exists p, l = LFile (toml_handler tc) p /\ w_fs w' p = w_fs w p) ->
  requiv (build_value w cfg skip) (build_value w' cfg skip).
Proof.
  intros E V Ud TS TX TF VE TU R H1 H2.
  destruct (create_config_run _ _ _ _ _ _ E V) as (h & r & M & _).
  assert (P0 : plain tc [(lit "default", LMemory dv)]) by (intros n l [I|[]]; injection I as _ <-; eauto).
  destruct (run_content _ _ _ _ _ _ _ _ M P0) as (_ & (_ & Env & _ & Rd & _) & _ & B).
  assert (Ud' : uniq dv') by eauto.
  assert (Md : mapv dv).
  { destruct (value_map_spec (ms_default ms)) as (v0 & E0 & M0 & _). congruence. }
  rewrite !(build_value_list _ _ _ skip R). cbn [map snd build_list layer_read]. rewrite map_app.
  unfold new_map. rewrite (v_merge_empty_l_eq dv Ud Md), !build_list_app.
  assert (A : build_list w skip dv (map snd r1) = Ok dv).
  { clear - H1. induction r1 as [|[n l] r1 IH]; cbn [map build_list snd]; auto.
    destruct (H1 n l (or_introl eq_refl)) as (p & -> & Mp & _). unfold missing in Mp.
    cbn [layer_read]. unfold fs_exists. rewrite Mp. cbn [negb]. unfold new_map. rewrite v_merge_empty_r. apply IH.
    intros; eapply H1; right; eauto. }
  rewrite A.
  destruct (build_list_defaults tc w' skip dv dv' (map snd r1) Ud Ud' VE) with (acc := dv) as (acc' & -> & U' & V'); auto using vequiv_refl.
  { intros l I. apply in_map_iff in I as ([n l'] & <- & I). cbn [snd].
    destruct (H1 n l' I) as (p & -> & Mp & RF & CR). exists p. split; auto. unfold missing in Mp.
    cbn [layer_read toml_handler fh_read]. unfold toml_read, fs_exists, fs_read_to_string. rewrite Rd, CR.
    destruct (B p) as [->|(s' & bs & TS' & -> & RR)]; [rewrite Mp; auto|].
    assert (s' = s) by congruence. subst s'. rewrite (RR RF). cbn [negb]. rewrite decode_encode by auto. rewrite TF. auto. }
  apply build_list_congr; auto.
  intros l I. apply in_map_iff in I as ([n l'] & <- & I). cbn [snd].
  destruct (H2 n l' I) as [[prefix ->]|(p & -> & F)].
  - cbn. rewrite Env. split; auto. intros x Hx. eapply env_read_uniq; eauto.
  - split; [now apply file_read_frame | intros x Hx; eapply file_read_uniq; eauto].
Qed.

Lemma keeps_first_app {A} (h2 : list (str * A)) : forall h1 r, keeps_first (h1 ++ h2) r ->
  exists r1 r2, r = r1 ++ r2 /\ keeps_first h1 r1 /\ incl r2 h2.
Proof.
  induction h2 as [|[n l] h2 IH] using rev_ind; intros h1 r K.
  - rewrite app_nil_r in K. exists r, []. rewrite app_nil_r. repeat split; auto. intros x [].
  - rewrite app_assoc in K. inversion K as [E|h0 r0 n0 l0 K0 N0 E|h0 r0 n0 l0 K0 N0 E].
    + destruct (h1 ++ h2); discriminate.
    + apply app_inj_tail in E as [E1 E2]. injection E2 as -> ->. rewrite E1 in K0.
      destruct (IH _ _ K0) as (r1 & r2 & -> & K1 & I). exists r1, (r2 ++ [(n, l)]). rewrite app_assoc.
      repeat split; auto. intros x J. apply in_app_or in J as [J|J]; apply in_or_app; auto.
    + apply app_inj_tail in E as [E1 E2]. injection E2 as -> ->. rewrite E1 in K0.
      destruct (IH _ _ K0) as (r1 & r2 & -> & K1 & I). exists r1, r2.
      repeat split; auto. intros x J. apply in_or_app; auto.
Qed.

Lemma run_prefix tc fname dv h w cs h' w' : macro_run tc fname dv h w cs h' w' -> exists new, h' = h ++ new.
Proof.
  induction 1 as [h w|h w ls cs h' w' N M IH|h w ls p cs h' w' U N M IH|h w ls p l w1 r cs h' w' U EI Mi F E M IH]; auto.
  - exists []. now rewrite app_nil_r.
  - destruct IH as [new ->]. eexists. rewrite <- app_assoc. reflexivity.
  - destruct IH as [new ->]. eexists. rewrite <- app_assoc. reflexivity.
Qed.

Lemma keeps_first_one {A} (n : str) (l : A) r : keeps_first [(n, l)] r -> r = [(n, l)].
Proof.
  intros K. inversion K as [E|h0 r0 n0 l0 K0 N0 E|h0 r0 n0 l0 K0 N0 E].
  - apply (app_inj_tail h0 []) in E as [-> E]. injection E as -> ->.
    inversion K0 as [E'|h1 ? ? ? ? ? E'|h1 ? ? ? ? ? E']; auto; destruct h1; discriminate.
  - apply (app_inj_tail h0 []) in E as [-> E]. destruct N0.
Qed.

(** Nothing existed before: the effective value is the same. *)
Lemma effective_unchanged_fresh tc ms w cfg w' dv s dv' skip :
  create_config tc ms w = Done (cfg, w') -> value_map_macro (ms_default ms) = Done dv -> uniq dv ->
  toml_to_string tc dv = Ok s -> is_text s = true -> toml_from_str tc s = Ok dv' -> vequiv dv' dv ->
  (forall t v, toml_from_str tc t = Ok v -> uniq v) ->
  (forall ls ps p, In ls (ms_layers ms) -> clause_candidates w (ms_file_name ms) ls ps -> In p ps ->
     missing w p /\ room_for w p s /\ w_can_read w p = true) ->
  requiv (build_value w cfg skip) (build_value w' cfg skip).
Proof.
  intros E V Ud TS TX TF VE TU H.
  destruct (create_config_run _ _ _ _ _ _ E V) as (h & r & M & K & R).
  assert (P0 : plain tc [(lit "default", LMemory dv)]) by (intros n l [I|[]]; injection I as _ <-; eauto).
  destruct (run_content _ _ _ _ _ _ _ _ M P0) as (_ & _ & (new & -> & C) & _).
  destruct (keeps_first_app _ _ _ K) as (ra & r2 & -> & Ka & I2).
  destruct (keeps_first_app _ _ _ Ka) as (r0 & r1 & -> & K0 & I1).
  apply keeps_first_one in K0. subst r0. rewrite <- app_assoc in R. cbn [app] in R.
  eapply (effective_unchanged tc ms w cfg w' dv s dv' r1 r2 skip); eauto.
  - intros n l I. destruct (C n l (I1 _ I)) as (ls & ps & p & J & -> & CC & Ip). exists p. split; auto. eapply H; eauto.
  - intros n l I. apply I2 in I. unfold env_registration in I. destruct (ms_env ms); [|destruct I].
    destruct I as [I|[]]. injection I as _ <-. left. unfold env_layer_new. eauto.
Qed.

(** ** Crashes *)
Lemma crash_same_but w p bs w' : write_crash w p bs w' -> same_but p w w'.
Proof. destruct 1; [apply same_but_refl | apply same_but_set]. Qed.

Lemma crash_lenient tc w p s w' c n r1 r2 :
  write_crash w p (utf8_encode s) w' -> registered c (r1 ++ (n, LFile (toml_handler tc) p) :: r2) ->
  same_but p w w'
  /\ (exists v, build_value w' c true = Ok v)
  /\ (w' = w \/ exists k, w_fs w' p = Some (NFile (firstn k (utf8_encode s))) /\
       ((exists e, layer_read w' (LFile (toml_handler tc) p) = Err e /\
           forall c', registered c' (r1 ++ r2) -> build_value w' c true = build_value w' c' true)
        \/ exists t v, utf8 (firstn k (utf8_encode s)) t /\ toml_from_str tc t = Ok v
            /\ layer_read w' (LFile (toml_handler tc) p) = Ok v)).
Proof.
  intros W R. split; [eapply crash_same_but; eauto|]. split.
  { rewrite (build_value_list _ _ _ true R). apply build_list_lenient. }
  destruct W as [|k ND O]; [auto|]. right. exists k. split; [apply set_node_at|].
  cbn [layer_read toml_handler fh_read]. unfold toml_read, fs_read_to_string, fs_exists. rewrite set_node_at. cbn [negb].
  assert (SK : forall e, layer_read (set_node w p (NFile (firstn k (utf8_encode s)))) (LFile (toml_handler tc) p) = Err e ->
    forall c', registered c' (r1 ++ r2) ->
    build_value (set_node w p (NFile (firstn k (utf8_encode s)))) c true = build_value (set_node w p (NFile (firstn k (utf8_encode s)))) c' true).
  { intros e He c' R'. rewrite (build_value_list _ _ _ true R), (build_value_list _ _ _ true R').
    rewrite !map_app. cbn [map snd]. rewrite !build_list_app.
    destruct (build_list _ true new_map (map snd r1)); auto. cbn [build_list]. now rewrite He. }
  cbn [layer_read toml_handler fh_read] in SK. unfold toml_read, fs_read_to_string, fs_exists in SK. rewrite set_node_at in SK. cbn [negb] in SK.
  destruct (w_can_read _ p); [|left; eexists; split; [reflexivity | exact (SK _ eq_refl)]].
  destruct (utf8_decode (firstn k (utf8_encode s))) as [t|] eqn:D; [|left; eexists; split; [reflexivity | exact (SK _ eq_refl)]].
  apply utf8_decode_spec in D.
  destruct (toml_from_str tc t) as [v|m] eqn:T; [right; eauto | left; eexists; split; [reflexivity | exact (SK _ eq_refl)]].
Qed.

(** Every other layer that comes with the library reads as before. *)
Lemma crash_others tc w p bs w' l : write_crash w p bs w' -> built_in tc l -> (forall q, l = LFile (toml_handler tc) q -> ~ same_file w p q) ->
  layer_read w' l = layer_read w l.
Proof.
  intros W B N. apply crash_same_but in W as (F & _ & En & _ & Rd & _). inversion B; subst; cbn [layer_read env_layer_new].
  - reflexivity. - now rewrite En. - apply file_read_frame; auto.
Qed.

Lemma macro_crash_effect tc ms dv w w' : distinct_names ms ->
  macro_crash tc (ms_file_name ms) dv [(lit "default", LMemory dv)] w (ms_layers ms) w' ->
  same_system w w' /\ forall q, w_fs w' q = w_fs w q \/ created tc (ms_file_name ms) dv w w' (ms_layers ms) q.
Proof.
  unfold distinct_names. change (lit "default" :: map ls_name (ms_layers ms)) with
    (map fst [(lit "default", LMemory dv)] ++ map ls_name (ms_layers ms)).
  generalize (ms_layers ms) as cs, [(lit "default", LMemory dv)] as h. intros cs h D C.
  assert (WEAK : forall w w' c1 c2 q, created tc (ms_file_name ms) dv w w' c1 q -> created tc (ms_file_name ms) dv w w' (c1 ++ c2) q).
  { intros ? ? c1 c2 q (A & ls & p' & rest & s & k & I & T). split; auto. exists ls, p', rest, s, k. split; auto. apply in_or_app; auto. }
  inversion C as [before after h1 w1 L M|before ls after h1 w1 p q s w2 L M U EI Mi F TS W]; subst.
  - destruct (run_nodup _ _ _ _ after _ _ _ _ M D) as [_ D1].
    destruct (run_effect _ _ _ _ _ _ _ _ M D1) as [SS B]. split; auto.
    intros q. destruct (B q); auto.
  - destruct (run_nodup _ _ _ _ (ls :: after) _ _ _ _ M D) as [D2 D1].
    destruct (run_effect _ _ _ _ _ _ _ _ M D1) as [SS B].
    assert (NI : ~ In (ls_name ls) (map fst h1)).
    { intros I. cbn [map] in D2. apply NoDup_remove_2 in D2. apply D2. apply in_or_app; auto. }
    apply first_named_new in F; auto. injection F as ->.
    pose proof (crash_same_but _ _ _ _ W) as SB.
    split; [eapply same_system_trans; [exact SS | eapply same_but_system; exact SB]|].
    destruct SS as (TG & SS).
    intros x. destruct (same_file_dec w1 p x) as [Sx|Nx].
    + inversion W as [|k ND O]; subst.
      * destruct (B x); auto.
      * right. destruct (uses_missing _ _ _ _ U Mi) as (rest & CC & AM & X).
        assert (Mw : forall y, In y (p :: rest) -> missing w y).
        { intros y Iy. exact (run_monotone _ _ _ _ _ _ _ _ M D1 y (AM y Iy)). }
        assert (Sw : same_file w p x) by (unfold same_file in *; now rewrite TG in Sx).
        split; [unfold missing; rewrite <- (same_file_fs w p x Sw); apply Mw; now left|].
        exists ls, p, rest, s, k. split; [apply in_or_app; right; now left|]. split; auto.
        split; [eapply clause_platform; [|exact CC]; symmetry; apply SS|]. split; auto. split; auto. split; auto. split; auto.
        now apply set_node_same.
    + destruct SB as [SB _]. rewrite (SB x Nx). destruct (B x) as [|(A & ls' & p' & rest & s' & k & I & T)]; auto.
      right. split; auto. exists ls', p', rest, s', k. split; [apply in_or_app; auto|]. rewrite (SB x Nx). auto.
Qed.

(** ** Names *)
Lemma keeps_first_last {A} (h : list (str * A)) n l r : keeps_first (h ++ [(n, l)]) r -> ~ In n (map fst h) ->
  exists r0, r = r0 ++ [(n, l)] /\ keeps_first h r0.
Proof.
  intros K N. inversion K as [E|h0 r0 n0 l0 K0 N0 E|h0 r0 n0 l0 K0 N0 E].
  - destruct h; discriminate.
  - apply app_inj_tail in E as [-> E]. injection E as -> ->. eauto.
  - apply app_inj_tail in E as [-> E]. injection E as -> ->. contradiction.
Qed.
Lemma run_new_names tc fname dv h w cs h' w' : macro_run tc fname dv h w cs h' w' ->
  forall n, In n (map fst h') -> In n (map fst h) \/ In n (map ls_name cs).
Proof.
  induction 1 as [h w|h w ls cs h' w' N M IH|h w ls p cs h' w' U N M IH|h w ls p l w1 r cs h' w' U EI Mi F E M IH]; intros n I; auto;
    (destruct (IH n I) as [J|J]; [|right; now right]); auto;
    rewrite map_app in J; apply in_app_or in J as [J|[J|[]]]; auto; right; left; auto.
Qed.
Lemma macro_layers tc ms w cfg w' dv : create_config tc ms w = Done (cfg, w') ->
  value_map_macro (ms_default ms) = Done dv ->
  (exists rest, layers_names cfg = lit "default" :: rest) /\ get_layer cfg (lit "default") = Some (LMemory dv)
  /\ (forall prefix, ms_env ms = Some prefix -> ~ In (lit "environment") (map ls_name (ms_layers ms)) ->
       (exists init, layers_names cfg = init ++ [lit "environment"])
       /\ get_layer cfg (lit "environment") = Some (env_layer_new prefix)).
Proof.
  intros E V. destruct (create_config_run _ _ _ _ _ _ E V) as (h & r & M & K & R).
  destruct (run_prefix _ _ _ _ _ _ _ _ M) as [new ->].
  pose proof R as (LN & _ & _).
  split; [|split].
  - destruct (keeps_first_app _ _ _ K) as (ra & r2 & -> & Ka & _).
    destruct (keeps_first_app _ _ _ Ka) as (r0 & r1 & -> & K0 & _). apply keeps_first_one in K0. subst r0.
    rewrite LN. cbn. eauto.
  - unfold get_layer. rewrite (registered_get _ _ _ R). apply (first_named_get _ _ _ _ K).
    exists [], (new ++ env_registration ms). split; auto.
  - intros prefix EP NI.
    assert (N : ~ In (lit "environment") (map fst ([(lit "default", LMemory dv)] ++ new))).
    { intros I. destruct (run_new_names _ _ _ _ _ _ _ _ M _ I) as [[J|[]]|J]; [discriminate | contradiction]. }
    unfold env_registration in K. rewrite EP in K. split.
    + destruct (keeps_first_last _ _ _ _ K N) as (r0 & -> & _). rewrite LN, map_app. cbn. eauto.
    + unfold get_layer. rewrite (registered_get _ _ _ R). apply (first_named_get _ _ _ _ K). eexists _, []. split; eauto.
Qed.
