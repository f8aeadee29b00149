(** C85, C86: what each kind of layer reads, and what a build depends on. *)
From Coq Require Import ZArith Bool String Permutation.
From Coq Require Import List.
Import ListNotations.
From Verif.Model Require Import Text Num Flt Value Merge Paths Finder World Layers Config.
From Verif.Spec Require Import Spec MergeSpec ConfigSpec EnvSpec PathSpec ReadsSpec.
From Verif.Proofs Require Import Basics Merge ConfigBuild Utf8 Env Files Reads.

(** ** C85.  (Environment layers: C33.) *)
Theorem C85_file_layers_answer : forall tc w p x,
  layer_read w (LFile (toml_handler tc) p) = x <-> file_answer tc w p x.
Proof. exact file_answer_iff. Qed.
Print Assumptions C85_file_layers_answer.

Theorem C85_memory_layers_answer : forall w v, layer_read w (mem_layer_new v) = Ok v.
Proof. exact (fun w v => eq_refl). Qed.
Print Assumptions C85_memory_layers_answer.

(** So the error of a strict build tells what is wrong with the file. *)
Theorem C85_a_strict_build_reports_the_file : forall tc w c r1 n p r2 e, registered c (r1 ++ (n, LFile (toml_handler tc) p) :: r2) ->
  (forall n' l, In (n', l) r1 -> exists v, layer_read w l = Ok v) ->
  file_answer tc w p (Err e) -> build_value w c false = Err e.
Proof.
  intros tc w c r1 n p r2 e R H A. rewrite (build_value_list w c _ false R), map_app. cbn [map snd].
  assert (exists vs, Forall2 (fun l v => layer_read w l = Ok v) (map snd r1) vs) as [vs F].
  { clear - H. induction r1 as [|[n l] r1 IH]; [exists []; constructor|].
    destruct IH as [vs F]; [intros; eapply H; right; eauto|].
    destruct (H n l (or_introl eq_refl)) as [v E]. exists (v :: vs). constructor; auto. }
  eapply build_list_first_error; eauto. now apply file_answer_iff.
Qed.
Print Assumptions C85_a_strict_build_reports_the_file.

Definition ex_codec85 : codec :=
  {| toml_from_str := fun s => if str_eqb s (lit "x = 1") then Ok (VMap [(lit "x", VInt 1)]) else Err (lit "bad");
     toml_to_string := fun _ => Err [] |}.
Definition ex_world85 : world :=
  {| w_files := fun p => if str_eqb p (lit "/a.toml") then Some (NFile (utf8_encode (lit "x = 1")))
                      else if str_eqb p (lit "/b.toml") then Some (NFile (utf8_encode (lit "x =")))
                      else if str_eqb p (lit "/c.toml") then Some (NFile [255%Z])
                      else if str_eqb p (lit "/d.toml") then Some NDir else None;
     w_target := fun p => p; w_can_read := fun _ => true; w_can_open := fun _ => true; w_room := fun _ => None;
     w_env := [(utf8_encode (lit "APP_x"), utf8_encode (lit "2")); (utf8_encode (lit "PATH"), utf8_encode (lit "/bin"))];
     w_platform := {| pf_base := None; pf_cwd := None |} |}.
Example C85_example :
  file_answer ex_codec85 ex_world85 (lit "/a.toml") (Ok (VMap [(lit "x", VInt 1)]))
  /\ file_answer ex_codec85 ex_world85 (lit "/b.toml") (Err (BLayer (LParseError (lit "bad"))))
  /\ file_answer ex_codec85 ex_world85 (lit "/c.toml") (Err (BIo IoInvalidUtf8))
  /\ file_answer ex_codec85 ex_world85 (lit "/d.toml") (Err (BIo IoIsDirectory))
  /\ file_answer ex_codec85 ex_world85 (lit "/e.toml") (Ok (VMap [])).
Proof. repeat (apply conj); apply file_answer_iff; reflexivity. Qed.

(** ** C86 *)
(** A build depends only on the files of its file layers and on what the
    environment gives to the keys of its environment layers. *)
Theorem C86_a_build_depends_only_on_its_sources : forall tc w w' c r skip, registered c r ->
  (forall n l, In (n, l) r -> looks_alike tc w w' l) ->
  (forall n l x, In (n, l) r -> layer_read w l = Ok x -> wf x) ->
  requiv (build_value w c skip) (build_value w' c skip).
Proof. exact build_alike. Qed.
Print Assumptions C86_a_build_depends_only_on_its_sources.

(** A variable that no environment layer of the configuration exposes makes no
    difference, wherever the environment lists it. *)
Theorem C86_other_variables_make_no_difference : forall tc w c r skip a kv b, registered c r ->
  (forall n l, In (n, l) r -> built_in tc l) -> (forall n l x, In (n, l) r -> layer_read w l = Ok x -> wf x) ->
  w_env w = a ++ b -> (forall p, prefix_of r p -> forall k s, ~ exposes p kv k s) ->
  requiv (build_value w c skip) (build_value (with_env w (a ++ kv :: b)) c skip).
Proof.
  intros tc w c r skip a kv b R B W E N. apply (env_change tc _ _ c r); auto.
  intros p P k s. rewrite E. apply unexposed_insert; [|now apply N]. destruct P as (? & ? & _ & _ & ?); auto.
Qed.
Print Assumptions C86_other_variables_make_no_difference.

(** The order (and repetition) of the variables makes no difference unless two
    variables give different texts to one key. *)
Theorem C86_order_of_variables_is_irrelevant : forall tc w env c r skip, registered c r ->
  (forall n l, In (n, l) r -> built_in tc l) -> (forall n l x, In (n, l) r -> layer_read w l = Ok x -> wf x) ->
  (forall kv, In kv (w_env w) <-> In kv env) ->
  (forall p, prefix_of r p -> forall kv kv' k s s', In kv env -> In kv' env -> exposes p kv k s -> exposes p kv' k s' -> s = s') ->
  requiv (build_value w c skip) (build_value (with_env w env) c skip).
Proof.
  intros tc w env c r skip R B W E H. apply (env_change tc _ _ c r); auto.
  intros p P k s. assert (Np : p <> []) by (destruct P as (? & ? & _ & _ & ?); auto).
  rewrite !exposed_in; auto.
  - split; intros (kv & I & X); exists kv; split; auto; now apply E.
  - intros kv kv' s1 s2 I I'. apply (H p P); auto.
  - intros kv kv' s1 s2 I I'. apply (H p P); now apply E.
Qed.
Print Assumptions C86_order_of_variables_is_irrelevant.

(** With two such variables it does: the last one counts. *)
Theorem C86_order_never_matters_refuted : exists w env c r, registered c r /\ (forall n l, In (n, l) r -> built_in ex_codec85 l)
  /\ Permutation (w_env w) env /\ ~ requiv (build_value w c false) (build_value (with_env w env) c false).
Proof.
  pose (kv1 := (utf8_encode (lit "APP_x"), utf8_encode (lit "1"))).
  pose (kv2 := (utf8_encode (lit " APP_x"), utf8_encode (lit "2"))).
  pose (r := [(lit "env", env_layer_new (lit "APP_"))]).
  exists (with_env ex_world85 [kv1; kv2]), [kv2; kv1], {| layers_names := map fst r; layers := r |}, r. split; [|split; [|split]].
  - split; [reflexivity|]. split; [repeat constructor; cbn; tauto | apply Permutation_refl].
  - intros n l [E|[]]. injection E as <- <-. constructor.
  - apply perm_swap.
  - intros H. vm_compute in H. inversion H as [|? ? ?|? ? F _]; subst.
    destruct (F _ _ (or_introl eq_refl)) as (y & [E|[]] & V). injection E as <-. inversion V.
Qed.
Print Assumptions C86_order_never_matters_refuted.

Example C86_example : let r := [(lit "f", LFile (toml_handler ex_codec85) (lit "/a.toml")); (lit "env", env_layer_new (lit "APP_"))] in
  let c := {| layers_names := map fst r; layers := r |} in
  registered c r /\ (forall n l, In (n, l) r -> built_in ex_codec85 l)
  /\ (forall p, prefix_of r p -> p = lit "APP_")
  /\ (forall k s, ~ exposes (lit "APP_") (utf8_encode (lit "HOME"), utf8_encode (lit "/root")) k s)
  /\ build_value ex_world85 c false = Ok (VMap [(lit "x", VStr (lit "2"))]).
Proof.
  cbv zeta. split; [|split; [|split; [|split]]].
  - split; [reflexivity|]. split; [repeat constructor; cbn; intuition discriminate | apply Permutation_refl].
  - intros n l [E|[E|[]]]; injection E as <- <-; constructor.
  - intros p (n & prefix & [E|[E|[]]] & T & _); [discriminate|]. apply trimmed_iff in T. unfold env_layer_new in E.
    injection E as _ E. rewrite T in E. now rewrite <- E.
  - intros k s X. apply expose_spec in X; [|discriminate]. vm_compute in X. discriminate.
  - reflexivity.
Qed.
