(** C103: several paths that lead to one file (links, "a//b" and "a/b", relative
    and absolute paths). *)
From Coq Require Import ZArith Bool String Permutation List Lia.
Import ListNotations.
From Verif.Model Require Import Text Value Merge Paths Finder World Layers Config Macro Concurrent.
From Verif.Spec Require Import Spec ConfigSpec EnvSpec PathSpec MacroSpec ConcurrentSpec AliasSpec.
From Verif.Proofs Require Import Basics Merge ConfigBuild Files MacroProofs EndToEnd ConcurrentProofs Aliases.

(** Whatever is written, through whichever layers: two paths to one file keep
    leading to one file, and layers on them read alike. *)
Theorem C103_paths_to_one_file_read_alike : forall tc w h w' p q,
  writes w h w' -> (forall l v, In (l, v) h -> built_in tc l) ->
  same_file w p q -> w_can_read w p = w_can_read w q ->
  same_file w' p q
  /\ layer_read w' (LFile (toml_handler tc) p) = layer_read w' (LFile (toml_handler tc) q)
  /\ layer_has_value w' (LFile (toml_handler tc) p) = layer_has_value w' (LFile (toml_handler tc) q).
Proof. exact alias_stays. Qed.
Print Assumptions C103_paths_to_one_file_read_alike.

(** A successful write through one path is a write to every layer on that file:
    the next build is that of the same layers with each of them replaced by the
    new value. *)
Theorem C103_a_write_replaces_every_layer_on_its_file : forall tc w w' c c' p r r' v s v' skip,
  registered c r -> registered c' r' -> Forall2 (with_new_value tc w p v') r r' ->
  layer_write w (LFile (toml_handler tc) p) v = (w', Ok tt) ->
  toml_to_string tc v = Ok s -> is_text s = true -> toml_from_str tc s = Ok v' ->
  build_value w' c skip = build_value w c' skip.
Proof. exact write_everywhere. Qed.
Print Assumptions C103_a_write_replaces_every_layer_on_its_file.

(** Two layers in a row on one file count once. *)
Theorem C103_one_file_twice_in_a_row_counts_once : forall tc w c c' r1 n1 p n2 q r2 skip,
  registered c (r1 ++ (n1, LFile (toml_handler tc) p) :: (n2, LFile (toml_handler tc) q) :: r2) ->
  registered c' (r1 ++ (n2, LFile (toml_handler tc) q) :: r2) ->
  same_file w p q -> w_can_read w p = w_can_read w q ->
  (forall n l v, In (n, l) (r1 ++ (n2, LFile (toml_handler tc) q) :: r2) -> layer_read w l = Ok v -> uniq v) ->
  requiv (build_value w c skip) (build_value w c' skip).
Proof.
  intros tc w c c' r1 n1 p n2 q r2 skip R R' S C U.
  exact (twice_the_same w c c' r1 n1 _ n2 _ r2 skip _ R R' (proj1 (alias_reads tc w p q S C)) eq_refl U).
Qed.
Print Assumptions C103_one_file_twice_in_a_row_counts_once.

(** create_config!: of two own writes that reach one file, through whichever
    paths, the first one had changed nothing; also while other processes act, as
    long as they neither remove the file nor redirect paths to it. *)
Theorem C103_a_file_is_created_at_most_once : forall others tc ms w dv cfg s a e1 b e2 z p q, distinct_names ms ->
  value_map_macro (ms_default ms) = Done dv -> c_create_config others tc ms (run_start w) = Done (cfg, s) ->
  r_log s = a ++ e1 :: b ++ e2 :: z ->
  we_layer e1 = LFile (toml_handler tc) p -> we_layer e2 = LFile (toml_handler tc) q ->
  never_remove others p -> never_redirect others p -> same_file (we_before e2) q p ->
  we_after e1 = we_before e1.
Proof. exact created_once. Qed.
Print Assumptions C103_a_file_is_created_at_most_once.

Theorem C103_alone_nothing_is_removed_or_redirected : forall p, never_remove alone p /\ never_redirect alone p.
Proof. split; intros ? ?; auto. Qed.
Print Assumptions C103_alone_nothing_is_removed_or_redirected.

(** link.toml leads to b.toml, /l/app.toml to the missing /n/app.toml. *)
Definition al_codec : codec :=
  {| toml_from_str := fun s => if str_eqb s (lit "x = 1") then Ok (VMap [(lit "x", VInt 1)])
       else if str_eqb s (lit "x = 2") then Ok (VMap [(lit "x", VInt 2)]) else Err (lit "bad");
     toml_to_string := fun v => match v with VMap [(_, VInt 1)] => Ok (lit "x = 1") | _ => Err (lit "no") end |}.
Definition al_world : world :=
  {| w_files := fun f => if str_eqb f (lit "b.toml") then Some (NFile (utf8_encode (lit "x = 2"))) else None;
     w_target := fun p => if str_eqb p (lit "link.toml") then lit "b.toml"
       else if str_eqb p (lit "/l/app.toml") then lit "/n/app.toml" else p;
     w_can_read := fun _ => true; w_can_open := fun _ => true; w_room := fun _ => None; w_env := [];
     w_platform := {| pf_base := Some {| bd_home := lit "/h"; bd_config := lit "/c"; bd_pref := lit "/p" |}; pf_cwd := None |} |}.
Definition al_file (p : string) : layer := LFile (toml_handler al_codec) (lit p).
Definition al_config (r : list (str * layer)) : config := {| layers_names := map fst r; layers := r |}.
Definition al_v (z : Z) : value := VMap [(lit "x", VInt z)].

Lemma al_registered r : NoDup (map fst r) -> registered (al_config r) r.
Proof. intros D. split; [reflexivity|]. split; [exact D | apply Permutation_refl]. Qed.

(** "Writing one layer leaves what the other layers read as it was" is false. *)
Theorem C103_writing_one_layer_leaves_the_others_refuted : exists tc w w' c n1 n2 l1 l2 v,
  n1 <> n2 /\ l1 <> l2 /\ get_layer c n1 = Some l1 /\ get_layer c n2 = Some l2
  /\ layer_write w l1 v = (w', Ok tt) /\ built_in tc l1 /\ built_in tc l2
  /\ layer_read w l2 = Ok (al_v 2) /\ layer_read w' l2 = Ok (al_v 1).
Proof.
  exists al_codec, al_world, (fst (layer_write al_world (al_file "link.toml") (al_v 1))).
  exists (al_config [(lit "a", al_file "link.toml"); (lit "b", al_file "b.toml")]), (lit "a"), (lit "b").
  exists (al_file "link.toml"), (al_file "b.toml"), (al_v 1).
  split; [discriminate|]. split; [intros E; injection E; discriminate|].
  split; [reflexivity|]. split; [reflexivity|]. split; [reflexivity|]. split; [constructor|]. split; [constructor|]. split; reflexivity.
Qed.
Print Assumptions C103_writing_one_layer_leaves_the_others_refuted.

(** "One file registered twice counts once" is false when another layer stands
    in between: the second registration overrides that layer again. *)
Theorem C103_one_file_twice_counts_once_refuted : exists tc w c c' n1 p n2 q m,
  same_file w p q /\ registered c [(n1, LFile (toml_handler tc) p); (lit "m", LMemory m); (n2, LFile (toml_handler tc) q)]
  /\ registered c' [(n1, LFile (toml_handler tc) p); (lit "m", LMemory m)]
  /\ build_value w c false = Ok (al_v 2) /\ build_value w c' false = Ok (al_v 1).
Proof.
  exists al_codec, al_world.
  exists (al_config [(lit "a", al_file "b.toml"); (lit "m", LMemory (al_v 1)); (lit "b", al_file "link.toml")]).
  exists (al_config [(lit "a", al_file "b.toml"); (lit "m", LMemory (al_v 1))]).
  exists (lit "a"), (lit "b.toml"), (lit "b"), (lit "link.toml"), (al_v 1).
  split; [reflexivity|].
  split; [apply (al_registered [_; _; _]); repeat constructor; cbn; intuition discriminate|].
  split; [apply (al_registered [_; _]); repeat constructor; cbn; intuition discriminate|].
  split; reflexivity.
Qed.
Print Assumptions C103_one_file_twice_counts_once_refuted.

(** The hypotheses are met: three layers, two of them on one file. *)
Example C103_example :
  let r := [(lit "a", al_file "link.toml"); (lit "b", al_file "b.toml"); (lit "c", al_file "c.toml")] in
  let r' := [(lit "a", LMemory (al_v 1)); (lit "b", LMemory (al_v 1)); (lit "c", al_file "c.toml")] in
  let w' := fst (layer_write al_world (al_file "link.toml") (al_v 1)) in
  registered (al_config r) r /\ registered (al_config r') r'
  /\ Forall2 (with_new_value al_codec al_world (lit "link.toml") (al_v 1)) r r'
  /\ layer_write al_world (al_file "link.toml") (al_v 1) = (w', Ok tt)
  /\ build_value al_world (al_config r) false = Ok (al_v 2) /\ build_value w' (al_config r) false = Ok (al_v 1)
  /\ same_file al_world (lit "link.toml") (lit "b.toml") /\ ~ same_file al_world (lit "link.toml") (lit "c.toml").
Proof.
  cbv zeta. split; [apply al_registered; repeat constructor; cbn; intuition discriminate|].
  split; [apply al_registered; repeat constructor; cbn; intuition discriminate|].
  split.
  { constructor; [apply NewValue; reflexivity|]. constructor; [apply NewValue; reflexivity|].
    constructor; [|constructor]. apply OtherLayer; [constructor|]. intros q E. injection E as <-. unfold same_file. cbn. discriminate. }
  split; [reflexivity|]. split; [reflexivity|]. split; [reflexivity|]. split; [reflexivity|]. unfold same_file; cbn; discriminate.
Qed.

(** Two clauses whose paths lead to one missing file: the first creates it
    through a dangling link, the second finds it. *)
Definition al_macro : macro_spec :=
  {| ms_file_name := lit "app"; ms_default := [(lit "x", VInt 1)]; ms_env := None;
     ms_layers := [{| ls_name := lit "l"; ls_dirs := [DirPath (lit "/l")]; ls_init := Some true |};
                   {| ls_name := lit "n"; ls_dirs := [DirPath (lit "/n")]; ls_init := Some true |}] |}.
Example C103_create_example : distinct_names al_macro /\ exists cfg s,
  c_create_config alone al_codec al_macro (run_start al_world) = Done (cfg, s)
  /\ layers_names cfg = map lit ["default"; "l"; "n"]%string /\ List.length (r_log s) = 1%nat
  /\ missing al_world (lit "/n/app.toml") /\ missing al_world (lit "/l/app.toml")
  /\ w_fs (r_world s) (lit "/n/app.toml") = Some (NFile (utf8_encode (lit "x = 1")))
  /\ w_fs (r_world s) (lit "/l/app.toml") = Some (NFile (utf8_encode (lit "x = 1"))).
Proof.
  split; [unfold distinct_names; repeat constructor; cbn; intuition discriminate|].
  do 2 eexists. split; [reflexivity|]. repeat split; reflexivity.
Qed.

(** A first own write that changed nothing, followed by one that reaches the
    same file: the link's folder is not writable, the file's own folder is. *)
Definition al_world_locked : world :=
  {| w_files := w_files al_world; w_target := w_target al_world; w_can_read := fun _ => true;
     w_can_open := fun p => negb (str_eqb p (lit "/l/app.toml")); w_room := fun _ => None; w_env := [];
     w_platform := {| pf_base := Some {| bd_home := lit "/h"; bd_config := lit "/c"; bd_pref := lit "/p" |}; pf_cwd := None |} |}.
Example C103_twice_example : exists cfg s e1 e2,
  c_create_config alone al_codec al_macro (run_start al_world_locked) = Done (cfg, s)
  /\ r_log s = [] ++ e1 :: [] ++ e2 :: [] /\ we_layer e1 = al_file "/l/app.toml" /\ we_layer e2 = al_file "/n/app.toml"
  /\ same_file (we_before e2) (lit "/n/app.toml") (lit "/l/app.toml")
  /\ w_fs (r_world s) (lit "/l/app.toml") = Some (NFile (utf8_encode (lit "x = 1"))).
Proof. do 4 eexists. split; [reflexivity|]. split; [reflexivity|]. repeat split; reflexivity. Qed.
