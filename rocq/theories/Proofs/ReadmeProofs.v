(** The README's long program against [create_config!] (C117). *)
From Coq Require Import ZArith Bool String Lia Permutation.
From Coq Require Import List.
Import ListNotations.
From Verif.Model Require Import Text Value Merge Paths Finder World Layers Config Macro Readme.
From Verif.Spec Require Import Spec ConfigSpec FinderSpec PathSpec MacroSpec.
From Verif.Proofs Require Import Basics PathLemmas FinderProofs FinderTop FinderMore Merge ConfigBuild MacroProofs.
Local Open Scope nat_scope.

Lemma clause_search_strict w fname ls ps : clause_candidates w fname ls ps ->
  (ps = [] -> find_first (fun _ => fs_exists w) (layer_finder w fname ls) false = Fail NoFoldersDefined)
  /\ (forall p, chosen w ps p ->
        (~ missing w p -> exists fr, find_first (fun _ => fs_exists w) (layer_finder w fname ls) false = Done fr /\ fr_path fr = p)
        /\ (missing w p -> find_first (fun _ => fs_exists w) (layer_finder w fname ls) false = Fail NoFilesFound)).
Proof.
  intros (ds & cs & R & C & ->). rewrite (layer_finder_eq _ _ _ _ R).
  set (f := {| ff_folders := ds; ff_name := fname; ff_exts := [lit "toml"] |}) in *.
  split.
  - intros E. destruct cs; [|discriminate]. apply candidates_length in C. cbn in C.
    destruct ds; [|cbn in C; lia]. reflexivity.
  - intros p Ch.
    assert (K : complete f).
    { split; [|discriminate]. cbn. intros ->. apply candidates_length in C. cbn in C.
      destruct cs; [|discriminate]. apply chosen_In in Ch. destruct Ch. }
    destruct (find_first_still (fs_exists w) f cs C K false) as [A B]. fold (still (fs_exists w)). split.
    + intros M. inversion Ch as [b q a Hb Hq E|q rest H E]; [|subst q; destruct (M (H p (or_introl eq_refl)))].
      subst q. symmetry in E. apply map_eq_app in E as (b' & a' & -> & Eb & Ea).
      destruct a' as [|c a']; [discriminate|]. injection Ea as Ec _. subst b.
      exists (result_of c 0 true). split; [|now rewrite <- Ec].
      apply (A b' c a' eq_refl); [|rewrite Ec; now apply not_missing_exists].
      intros x I. apply missing_exists, Hb. now apply in_map.
    + intros M. destruct (chosen_missing w _ p Ch M) as [N _]. apply B.
      intros x I. apply missing_exists, N. now apply in_map.
Qed.

(** One clause as a step on the ordered layers. *)
Definition gspec : layer_spec := {| ls_name := lit "global"; ls_dirs := [UserHome; UserConfig]; ls_init := Some true |}.
Definition lspec : layer_spec := {| ls_name := lit "local"; ls_dirs := [WorkingDirectory]; ls_init := None |}.
Definition rspec fname defaults prefix : macro_spec :=
  {| ms_file_name := fname; ms_default := defaults; ms_env := Some prefix; ms_layers := [gspec; lspec] |}.

Lemma add_file_ok tc c n p : has_extension p (lit "toml") -> add_file_layer tc c n p = (push_layer c n (LFile (toml_handler tc) p), Ok tt).
Proof. intros H. unfold add_file_layer. rewrite (proj2 (ext_match_toml p)); [reflexivity|]. exact H. Qed.
Lemma add_file_refused tc c n p : ~ has_extension p (lit "toml") -> exists e, add_file_layer tc c n p = (c, Err e).
Proof.
  intros H. unfold add_file_layer. destruct (ext_match_path ExtToml p) eqn:E; [|eauto].
  exfalso. apply H. now apply ext_match_toml.
Qed.

Section Phases.
Variables (tc : codec) (fname : str) (dv : value).
Definition write_fails (w : world) : Prop :=
  exists p e, uses w fname gspec p /\ missing w p /\ snd (layer_write w (LFile (toml_handler tc) p) dv) = Err e.
Definition readme_global (c0 : config) (w : world) : outcome (config * world) finder_error :=
  match find_first (fun _ => fs_exists w) (layer_finder w fname gspec) true with
  | Done result =>
    let config1 := fst (add_file_layer tc c0 (lit "global") (fr_path result)) in
    if negb (fs_exists w (fr_path result)) then
      match get_layer config1 (lit "global") with
      | Some cfg => match layer_write w cfg dv with (w1, Ok _) => Done (config1, w1) | (_, Err _) => Panic end
      | None => Done (config1, w)
      end
    else Done (config1, w)
  | Fail _ => Done (c0, w)
  | Panic => Panic
  end.
Definition readme_local (c1 : config) (w1 : world) : outcome config finder_error :=
  match find_first (fun _ => fs_exists w1) (layer_finder w1 fname lspec) false with
  | Done result => Done (fst (add_file_layer tc c1 (lit "local") (fr_path result)))
  | Fail _ => Done c1
  | Panic => Panic
  end.

Lemma global_phase c0 r0 w : registered c0 r0 -> ~ In (lit "global") (map fst r0) ->
  exists c1 w1 r1, run_layer tc fname dv (c0, w) gspec = Done (c1, w1) /\ registered c1 (r0 ++ r1)
    /\ (r1 = [] \/ exists p, r1 = [(lit "global", LFile (toml_handler tc) p)])
    /\ ((readme_global c0 w = Done (c1, w1) /\ ~ write_fails w) \/ (readme_global c0 w = Panic /\ write_fails w)).
Proof.
  intros R N. unfold run_layer, readme_global. cbn [ls_name gspec ls_init].
  destruct (clause_total w fname gspec) as [ps C]. destruct (clause_search _ _ _ _ C) as [S0 S1].
  assert (CASE : ps = [] \/ exists p, chosen w ps p) by (destruct ps; [auto | right; apply chosen_total; discriminate]).
  destruct CASE as [->|[p Ch]].
  - rewrite (S0 eq_refl). exists c0, w, []. rewrite app_nil_r. split; [reflexivity|]. split; auto. split; auto. left. split; auto.
    intros (p & e & (ps & C' & Ch & _) & _). rewrite (clause_fun _ _ _ _ _ C' C) in Ch. now apply chosen_In in Ch.
  - destruct (S1 p Ch) as (fr & -> & ->).
    assert (FUN : forall q, uses w fname gspec q -> q = p).
    { intros q (ps' & C' & Ch' & _). rewrite (clause_fun _ _ _ _ _ C' C) in Ch'. now apply (chosen_fun _ _ _ _ Ch' Ch). }
    destruct (has_ext_dec p (lit "toml")) as [X|X].
    + rewrite (add_file_ok tc c0 _ p X). cbn [fst andb]. rewrite andb_true_r.
      set (l := LFile (toml_handler tc) p).
      assert (U : uses w fname gspec p) by (exists ps; auto).
      pose proof (proj1 (registered_push c0 r0 (lit "global") l R) N) as R1.
      assert (G : get_layer (push_layer c0 (lit "global") l) (lit "global") = Some l).
      { unfold get_layer. rewrite (registered_get _ _ _ R1). apply In_mget; [apply R1|]. apply in_or_app. right. left. reflexivity. }
      destruct (fs_exists w p) eqn:E; cbn [negb].
      * do 3 eexists. split; [reflexivity|]. split; [exact R1|]. split; [right; eexists; reflexivity|]. left. split; [reflexivity|].
        intros (q & e & Uq & Mq & _). rewrite (FUN q Uq) in Mq. apply missing_exists in Mq. congruence.
      * rewrite G. destruct (layer_write w l dv) as [w1 res] eqn:W. do 3 eexists. split; [reflexivity|]. split; [exact R1|].
        split; [right; eexists; reflexivity|]. cbn [fst]. destruct res as [u|e].
        -- left. split; [reflexivity|]. intros (q & e & Uq & Mq & F). rewrite (FUN q Uq) in F. fold l in F. rewrite W in F. discriminate F.
        -- right. split; [reflexivity|]. exists p, e. split; auto. split; [now apply missing_exists|]. fold l. now rewrite W.
    + destruct (add_file_refused tc c0 (lit "global") p X) as (e & ->). cbn [fst andb].
      assert (G : get_layer c0 (lit "global") = None).
      { unfold get_layer. rewrite (registered_get _ _ _ R). apply mget_None. exact N. }
      rewrite G. exists c0, w, []. rewrite app_nil_r. split; [reflexivity|]. split; auto. split; auto. left. split; [now destruct (negb _)|].
      intros (q & e' & Uq & _). pose proof (FUN q Uq) as ->. destruct Uq as (? & _ & _ & X'). contradiction.
Qed.

Lemma local_phase c1 r1 w : registered c1 r1 -> ~ In (lit "local") (map fst r1) ->
  exists c2 c2' r2 r2', run_layer tc fname dv (c1, w) lspec = Done (c2, w) /\ registered c2 (r1 ++ r2)
    /\ readme_local c1 w = Done c2' /\ registered c2' (r1 ++ r2')
    /\ (r2 = [] /\ r2' = [] \/ exists p, uses w fname lspec p /\ r2 = [(lit "local", LFile (toml_handler tc) p)]
          /\ (~ missing w p /\ r2' = r2 \/ missing w p /\ r2' = [])).
Proof.
  intros R N. unfold run_layer, readme_local. cbn [ls_name lspec ls_init].
  destruct (clause_total w fname lspec) as [ps C]. destruct (clause_search _ _ _ _ C) as [S0 S1]. destruct (clause_search_strict _ _ _ _ C) as [T0 T1].
  assert (CASE : ps = [] \/ exists p, chosen w ps p) by (destruct ps; [auto | right; apply chosen_total; discriminate]).
  destruct CASE as [->|[p Ch]].
  - rewrite (S0 eq_refl), (T0 eq_refl). exists c1, c1, [], []. rewrite app_nil_r. auto 10.
  - destruct (S1 p Ch) as (fr & -> & ->). destruct (T1 p Ch) as [Tp Tm].
    destruct (has_ext_dec p (lit "toml")) as [X|X].
    + assert (U : uses w fname lspec p) by (exists ps; auto). rewrite (add_file_ok tc c1 _ p X).
      pose proof (proj1 (registered_push c1 r1 (lit "local") (LFile (toml_handler tc) p) R) N) as R2.
      destruct (missing_dec w p) as [M|M].
      * rewrite (Tm M). do 4 eexists. split; [reflexivity|]. split; [exact R2|]. split; [reflexivity|].
        split; [instantiate (1 := []); now rewrite app_nil_r|]. right. exists p. auto.
      * destruct (Tp M) as (fr' & -> & ->). rewrite (add_file_ok tc c1 _ p X). cbn [fst]. do 4 eexists. split; [reflexivity|]. split; [exact R2|].
        split; [reflexivity|]. split; [exact R2|]. right. exists p. auto.
    + destruct (add_file_refused tc c1 (lit "local") p X) as (e & ->).
      exists c1, c1, [], []. rewrite app_nil_r. split; [reflexivity|]. split; auto. split; [|auto].
      destruct (missing_dec w p) as [M|M]; [now rewrite (Tm M)|]. destruct (Tp M) as (fr' & -> & ->).
      destruct (add_file_refused tc c1 (lit "local") p X) as (e' & ->). reflexivity.
Qed.
End Phases.

Lemma build_list_missing w skip h p a b acc : missing w p ->
  build_list w skip acc (a ++ [LFile h p] ++ b) = build_list w skip acc (a ++ b).
Proof.
  intros M. rewrite !build_list_app. destruct (build_list w skip acc a) as [v|e]; [|reflexivity].
  cbn [app build_list layer_read]. rewrite (proj1 (missing_exists w p) M). cbn [negb]. now rewrite v_merge_empty_r.
Qed.

Lemma lit_neq a b : String.eqb a b = false -> lit a <> lit b.
Proof.
  intros H E. assert (L : forall a b : string, lit a = lit b -> a = b).
  { clear. induction a as [|x a IH]; intros [|y b] E; cbn in E; try discriminate; auto. injection E as E1 E2. f_equal; auto.
    apply N2Z.inj in E1. rewrite <- (Ascii.ascii_N_embedding x), <- (Ascii.ascii_N_embedding y). now f_equal. }
  apply L in E. subst. now rewrite String.eqb_refl in H.
Qed.

Lemma readme_same tc fname defaults prefix w : exists dv cfg w',
  value_map_macro defaults = Done dv
  /\ create_config tc (rspec fname defaults prefix) w = Done (cfg, w')
  /\ (readme_start tc fname defaults prefix w = Panic <-> write_fails tc fname dv w)
  /\ (readme_start tc fname defaults prefix w = Panic \/
      exists cfg', readme_start tc fname defaults prefix w = Done (cfg', w')
        /\ forall w2 skip, (forall p, uses w' fname lspec p -> missing w' p -> missing w2 p) ->
             build_value w2 cfg' skip = build_value w2 cfg skip).
Proof.
  destruct (macro_default (rspec fname defaults prefix)) as (dv & Ed & _). cbn [ms_default rspec] in Ed.
  unfold create_config, readme_start. cbn [ms_default ms_layers ms_env ms_file_name rspec]. rewrite Ed.
  set (c0 := add_memory_layer config_new (lit "default") dv).
  assert (R0 : registered c0 [(lit "default", LMemory dv)]).
  { apply (proj1 (registered_push config_new [] (lit "default") (LMemory dv) registered_new)). intros []. }
  change (finder_with_user_config (w_platform w) (finder_with_user_home (w_platform w) (finder_with_supported (finder_new fname))))
    with (layer_finder w fname gspec).
  fold (readme_global tc fname dv c0 w).
  destruct (global_phase tc fname dv c0 _ w R0) as (c1 & w1 & r1 & E1 & R1 & Q1 & G).
  { cbn [map fst In]. intros [E|[]]. revert E. now apply (lit_neq "default" "global"). }
  assert (N1 : ~ In (lit "local") (map fst ([(lit "default", LMemory dv)] ++ r1))).
  { destruct Q1 as [->|[p ->]]; cbn [app map fst]; intros I; repeat (destruct I as [E|I]; [revert E; apply lit_neq; reflexivity|]); destruct I. }
  destruct (local_phase tc fname dv c1 _ w1 R1 N1) as (c2 & c2' & r2 & r2' & E2 & R2 & E2' & R2' & Q2).
  cbn [run_layers]. rewrite E1. cbn [obind]. rewrite E2. cbn [obind fst snd].
  exists dv. do 2 eexists. split; [reflexivity|]. split; [reflexivity|].
  change (fun st : config * world => let '(config1, w2) := st in _) with
    (fun st : config * world => let '(config1, w1) := st in
       obind (readme_local tc fname config1 w1) (fun config2 => @Done _ finder_error (add_environment_layer config2 (lit "env") prefix, w1))).
  destruct G as [[-> NF]|[-> F]].
  2: { cbn [obind]. split; [tauto | auto]. }
  cbn [obind]. rewrite E2'. cbn [obind]. split; [split; [discriminate | tauto]|]. right. eexists. split; [reflexivity|].
  intros w2 skip Hm.
  set (d := (lit "default", LMemory dv)) in *.
  assert (NN : forall n : string, String.eqb n "default" = false -> String.eqb n "global" = false -> String.eqb n "local" = false -> forall rr, rr = r2 \/ rr = r2' -> ~ In (lit n) (map fst (([d] ++ r1) ++ rr))).
  { intros n H1 H2 H3 rr Hr. rewrite map_app. intros I. apply in_app_or in I as [I|I].
    - destruct Q1 as [->|[p ->]]; cbn [app map fst d] in I; repeat (destruct I as [E|I]; [symmetry in E; revert E; apply lit_neq; assumption|]); destruct I.
    - assert (I' : In (lit n) [lit "local"]).
      { destruct Q2 as [[-> ->]|(p & _ & -> & [[_ ->]|[_ ->]])]; destruct Hr as [->| ->]; cbn in I |- *; tauto. }
      destruct I' as [E|[]]. symmetry in E; revert E; apply lit_neq; assumption. }
  pose proof (proj1 (registered_push c2 _ (lit "environment") (env_layer_new prefix) R2) (NN "environment"%string eq_refl eq_refl eq_refl r2 (or_introl eq_refl))) as F.
  pose proof (proj1 (registered_push c2' _ (lit "env") (env_layer_new prefix) R2') (NN "env"%string eq_refl eq_refl eq_refl r2' (or_intror eq_refl))) as F'.
  unfold add_environment_layer. rewrite (build_value_list w2 _ _ skip F), (build_value_list w2 _ _ skip F').
  destruct Q2 as [[-> ->]|(p & U & -> & [[_ ->]|[M ->]])]; rewrite !map_app; [reflexivity | reflexivity|].
  cbn [map snd]. rewrite app_nil_r, <- !app_assoc. symmetry. rewrite !(app_assoc [snd d] (map snd r1)). apply build_list_missing. now apply Hm.
Qed.
