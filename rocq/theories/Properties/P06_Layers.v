(** C32-C38: environment, memory and file layers. *)
From Coq Require Import ZArith Bool String Permutation List Lia.
Import ListNotations.
From Verif.Model Require Import Text Num Flt Value Merge Paths Finder World Layers Config.
From Verif.Spec Require Import Spec MergeSpec ConfigSpec EnvSpec PathSpec.
From Verif.Proofs Require Import Basics Merge ConfigBuild Utf8 Env PathLemmas Files.

(** ** C32.  [c] is [c0] with an environment layer registered last. *)
Theorem C32_environment_overrides_earlier_layers : forall w c c0 r n prefix p v v0 skip,
  registered c (r ++ [(n, env_layer_new prefix)]) -> registered c0 r ->
  (forall n' l x, In (n', l) r -> layer_read w l = Ok x -> wf x) ->
  trimmed prefix p -> p <> [] ->
  build_value w c skip = Ok v -> build_value w c0 skip = Ok v0 ->
  forall k,
    (forall s, last_exposed p (w_env w) k s -> holds v k (VStr s) /\ v_get v k = VStr s)
    /\ ((forall kv s, In kv (w_env w) -> ~ exposes p kv k s) ->
          (forall x, holds v k x <-> holds v0 k x) /\ v_get v k = v_get v0 k).
Proof. exact env_overrides. Qed.
Print Assumptions C32_environment_overrides_earlier_layers.

(** The environment APP_db=x, " APP_port"=8080 (bytes). *)
Definition ex_env : list (list byte * list byte) :=
  [(utf8_encode (lit "APP_db"), utf8_encode (lit "x")); (utf8_encode (lit "HOME"), utf8_encode (lit "/"));
   ([255%Z], [49%Z]); (utf8_encode (lit " APP_port"), utf8_encode (lit "8080"))].
Definition ex_env_world : world :=
  {| w_files := fun _ => None; w_target := fun p => p; w_can_read := fun _ => true; w_can_open := fun _ => true;
     w_room := fun _ => None; w_env := ex_env; w_platform := {| pf_base := None; pf_cwd := None |} |}.
Definition ex_defaults := VMap [(lit "db", VMap [(lit "host", VStr (lit "a"))]); (lit "keep", VInt 1)].
Example C32_example :
  let r := [(lit "m", LMemory ex_defaults)] in
  let r' := r ++ [(lit "e", env_layer_new (lit " APP_ "))] in
  registered {| layers_names := map fst r'; layers := r' |} r'
  /\ trimmed (lit " APP_ ") (lit "APP_")
  /\ last_exposed (lit "APP_") ex_env (lit "db") (lit "x")
  /\ build_value ex_env_world {| layers_names := map fst r'; layers := r' |} false
     = Ok (VMap [(lit "db", VStr (lit "x")); (lit "keep", VInt 1); (lit "port", VStr (lit "8080"))]).
Proof.
  cbv zeta. split; [|split; [|split]].
  - split; [reflexivity|]. split; [repeat constructor; cbn; intuition discriminate | apply Permutation_refl].
  - apply trimmed_iff. reflexivity.
  - exists [], (utf8_encode (lit "APP_db"), utf8_encode (lit "x")), (tl ex_env). split; [reflexivity|]. split.
    + apply expose_spec; [discriminate | reflexivity].
    + intros kv H s X. apply expose_spec in X; [|discriminate].
      destruct H as [<-|[<-|[<-|[]]]]; vm_compute in X; discriminate.
  - reflexivity.
Qed.

(** ** C33. *)
Theorem C33_environment_layer_reads_exactly_the_matching_variables : forall w prefix p,
  trimmed prefix p -> p <> [] ->
  exists v, layer_read w (env_layer_new prefix) = Ok v /\ mapv v /\ wf v
    /\ forall k x, holds v k x <-> exists s, last_exposed p (w_env w) k s /\ x = VStr s.
Proof. exact env_layer_read. Qed.
Print Assumptions C33_environment_layer_reads_exactly_the_matching_variables.

Theorem C33_blank_prefix_always_fails : forall w prefix, trimmed prefix [] ->
  layer_read w (env_layer_new prefix)
    = Err (BLayer (LErrorReadingValue (lit "Environment prefix cannot be empty"))).
Proof. exact (fun w prefix T => proj1 (env_layer_blank w prefix VNone T)). Qed.
Print Assumptions C33_blank_prefix_always_fails.

Theorem C33_environment_layer_never_writes : forall w prefix v,
  layer_write w (env_layer_new prefix) v = (w, Err (BLayer LWriteNotSupported)).
Proof. exact env_layer_write. Qed.
Print Assumptions C33_environment_layer_never_writes.

(** A variable under two names: the last one listed by the OS counts, and a
    variable whose name or value is not UTF-8 is skipped. *)
Theorem C33_each_key_has_one_value : forall p env k s s', p <> [] ->
  last_exposed p env k s -> last_exposed p env k s' -> s = s'.
Proof. exact last_exposed_fun. Qed.
Print Assumptions C33_each_key_has_one_value.

Theorem C33_undecodable_variables_are_ignored : forall p kv k s,
  (forall t, ~ utf8 (fst kv) t) \/ (forall t, ~ utf8 (snd kv) t) -> ~ exposes p kv k s.
Proof. intros p kv k s H (name & t & U & _ & _ & V). destruct H as [H|H]; eapply H; eauto. Qed.
Print Assumptions C33_undecodable_variables_are_ignored.

Example C33_example : (forall t, ~ utf8 [255%Z] t)
  /\ layer_read ex_env_world (env_layer_new (lit "APP_"))
     = Ok (VMap [(lit "db", VStr (lit "x")); (lit "port", VStr (lit "8080"))]).
Proof. split; [|reflexivity]. intros t H. apply utf8_decode_spec in H. discriminate. Qed.

(** ** C34: which key the variable P+k gets. *)
Theorem C34_prefix_is_removed_as_often_as_it_repeats : forall p k s name val, p <> [] ->
  trimmed (p ++ k) (p ++ k) -> utf8 name (p ++ k) -> utf8 val s ->
  forall k' s', exposes p (name, val) k' s' <->
    s' = s /\ exists n, k = concat (repeat p n) ++ k' /\ ~ begins_with p k'.
Proof. intros p k s name val Np T U V. apply utf8_iff in U as [U <-], V as [V <-]. exact (prefix_once p k s Np T U V). Qed.
Print Assumptions C34_prefix_is_removed_as_often_as_it_repeats.

Theorem C34_exposed_under_k_iff_k_does_not_begin_with_prefix : forall p k s name val, p <> [] ->
  trimmed (p ++ k) (p ++ k) -> utf8 name (p ++ k) -> utf8 val s ->
  (exposes p (name, val) k s <-> ~ begins_with p k).
Proof. intros p k s name val Np T U V. apply utf8_iff in U as [U <-], V as [V <-]. exact (prefix_once_iff p k s Np T U V). Qed.
Print Assumptions C34_exposed_under_k_iff_k_does_not_begin_with_prefix.

(** The claim "P+k is exposed under k" is false: A_A_x and A_x collide. *)
Theorem C34_prefix_removed_once_refuted : exists p k s env env',
  p <> [] /\ k <> [] /\ env = [(utf8_encode (p ++ k), utf8_encode s)]
  /\ (forall s', ~ last_exposed p env k s')
  /\ exists v v', layer_read (Build_world (fun _ => None) (fun p => p) (fun _ => true) (fun _ => true) (fun _ => None) env
                    (Build_platform None None)) (env_layer_new p) = Ok v
     /\ env' = [(utf8_encode (lit "A_x"), utf8_encode s)]
     /\ layer_read (Build_world (fun _ => None) (fun p => p) (fun _ => true) (fun _ => true) (fun _ => None) env'
                    (Build_platform None None)) (env_layer_new p) = Ok v'
     /\ v = v'.
Proof.
  exists (lit "A_"), (lit "A_x"), (lit "1"). do 2 eexists.
  split; [discriminate|]. split; [discriminate|]. split; [reflexivity|]. split.
  - intros s' (b & kv & a & E & X & _). apply expose_spec in X; [|discriminate].
    assert (kv = (utf8_encode (lit "A_" ++ lit "A_x"), utf8_encode (lit "1"))).
    { destruct b as [|b0 [|b1 b]]; [injection E as <- _; reflexivity | discriminate | discriminate]. }
    subst kv. vm_compute in X. discriminate.
  - do 2 eexists. split; [reflexivity|]. split; [reflexivity|]. split; reflexivity.
Qed.
Print Assumptions C34_prefix_removed_once_refuted.

(** A variable named exactly like the prefix is exposed under the empty key. *)
Theorem C34_bare_prefix_is_the_empty_key : forall p s name val, p <> [] -> trimmed p p ->
  utf8 name p -> utf8 val s -> exposes p (name, val) [] s.
Proof.
  intros p s name val Np T U V. apply utf8_iff in U as [Tp <-], V as [Ts <-]. assert (X := prefix_once p [] s Np). rewrite app_nil_r in X.
  apply X; auto. split; auto. exists 0%nat. split; auto. intros [r E].
  symmetry in E. apply app_eq_nil in E as [E _]. contradiction.
Qed.
Print Assumptions C34_bare_prefix_is_the_empty_key.

Example C34_example : trimmed (lit "APP_" ++ lit "db") (lit "APP_" ++ lit "db")
  /\ utf8 [65; 80; 80; 95; 100; 98]%Z (lit "APP_" ++ lit "db") /\ ~ begins_with (lit "APP_") (lit "db").
Proof.
  split; [apply trimmed_iff; reflexivity|]. split; [now apply utf8_decode_spec|].
  rewrite <- starts_with_iff. discriminate.
Qed.

(** ** C35. *)
Theorem C35_write_touches_only_its_own_file : forall tc w p v w' r,
  layer_write w (LFile (toml_handler tc) p) v = (w', r) ->
  same_but p w w' /\
  match r with
  | Ok _ => exists s, toml_to_string tc v = Ok s /\ forall q, same_file w p q -> w_fs w' q = Some (NFile (utf8_encode s))
  | Err (BIo IoWriteFault) => exists s n, toml_to_string tc v = Ok s /\ (n < List.length (utf8_encode s))%nat
      /\ forall q, same_file w p q -> w_fs w' q = Some (NFile (firstn n (utf8_encode s)))
  | Err _ => w' = w
  end.
Proof. exact file_write_effect. Qed.
Print Assumptions C35_write_touches_only_its_own_file.

(** The bytes in the file are the UTF-8 encoding of the serialised text. *)
Theorem C35_file_holds_the_utf8_of_the_text : forall tc w p v w' s, is_text s = true ->
  toml_to_string tc v = Ok s -> layer_write w (LFile (toml_handler tc) p) v = (w', Ok tt) ->
  exists bs, w_fs w' p = Some (NFile bs) /\ utf8 bs s.
Proof.
  intros tc w p v w' s T S H. destruct (proj2 (file_write_effect tc w p v w' _ H)) as (s' & S' & F).
  rewrite S in S'. injection S' as <-. exists (utf8_encode s). split; [now apply F | now apply utf8_of_text].
Qed.
Print Assumptions C35_file_holds_the_utf8_of_the_text.

Theorem C35_unserialisable_value_changes_nothing : forall tc w p v,
  (forall s, toml_to_string tc v <> Ok s) ->
  exists m, layer_write w (LFile (toml_handler tc) p) v = (w, Err (BLayer (LSerializeError m))).
Proof. exact write_refused. Qed.
Print Assumptions C35_unserialisable_value_changes_nothing.

Theorem C35_unopenable_file_changes_nothing : forall tc w p v,
  w_can_open w p = false \/ w_fs w p = Some NDir ->
  exists e, layer_write w (LFile (toml_handler tc) p) v = (w, Err e).
Proof. exact write_not_openable. Qed.
Print Assumptions C35_unopenable_file_changes_nothing.

Theorem C35_write_succeeds_when_it_can : forall tc w p v s,
  toml_to_string tc v = Ok s -> w_can_open w p = true -> w_fs w p <> Some NDir ->
  (w_space w p = None \/ exists n, w_space w p = Some n /\ (List.length (utf8_encode s) <= n)%nat) ->
  exists w', layer_write w (LFile (toml_handler tc) p) v = (w', Ok tt).
Proof. exact (fun tc w p v s A B C D => ex_intro _ _ (write_succeeds tc w p v s A B C D)). Qed.
Print Assumptions C35_write_succeeds_when_it_can.

Theorem C35_history_leaves_other_files_alone : forall tc w h w',
  writes w h w' -> (forall l v, In (l, v) h -> built_in tc l) ->
  forall q, (forall p v, In (LFile (toml_handler tc) p, v) h -> ~ same_file w p q) -> w_fs w' q = w_fs w q.
Proof. exact (fun tc w h w' H B q N => proj1 (writes_frame tc w h w' H B q N)). Qed.
Print Assumptions C35_history_leaves_other_files_alone.

(** A codec for the examples: TOML of one empty map, and an error otherwise. *)
Definition ex_codec : codec :=
  {| toml_from_str := fun s => if str_eqb s (lit "x = 1") then Ok (VMap [(lit "x", VInt 1)]) else Err (lit "bad");
     toml_to_string := fun v => match v with VMap [(_, VInt 1)] => Ok (lit "x = 1") | _ => Err (lit "no") end |}.
Definition full_disk (n : nat) : world :=
  {| w_files := fun p => if str_eqb p (lit "b.toml") then Some (NFile [65%Z]) else None;
     w_target := fun p => p; w_can_read := fun _ => true; w_can_open := fun _ => true;
     w_room := fun _ => Some n; w_env := []; w_platform := {| pf_base := None; pf_cwd := None |} |}.
Example C35_example :
  (let '(w', r) := layer_write (full_disk 3) (LFile (toml_handler ex_codec) (lit "b.toml")) (VMap [(lit "x", VInt 1)]) in
   r = Err (BIo IoWriteFault) /\ w_fs w' (lit "b.toml") = Some (NFile (utf8_encode (lit "x ="))))
  /\ (let '(w', r) := layer_write (full_disk 5) (LFile (toml_handler ex_codec) (lit "b.toml")) (VMap [(lit "x", VInt 1)]) in
      r = Ok tt /\ w_fs w' (lit "b.toml") = Some (NFile (utf8_encode (lit "x = 1"))))
  /\ (let '(w', r) := layer_write (full_disk 5) (LFile (toml_handler ex_codec) (lit "b.toml")) VNone in
      r = Err (BLayer (LSerializeError (lit "no"))) /\ w_fs w' (lit "b.toml") = Some (NFile [65%Z])).
Proof. repeat split. Qed.

(** A failing write can destroy the old content (there is no atomic rename). *)
Theorem C35_failed_write_preserves_the_file_refuted : exists tc w p v w' e,
  layer_write w (LFile (toml_handler tc) p) v = (w', Err e) /\ w_fs w p <> None /\ w_fs w' p <> w_fs w p.
Proof.
  exists ex_codec, (full_disk 3), (lit "b.toml"), (VMap [(lit "x", VInt 1)]). do 2 eexists.
  split; [reflexivity|]. split; vm_compute; discriminate.
Qed.
Print Assumptions C35_failed_write_preserves_the_file_refuted.

(** ** C36.  By whatever path the file is read, after whatever writes to other files. *)
Theorem C36_what_is_written_is_read_back : forall tc w p v w' s v',
  layer_write w (LFile (toml_handler tc) p) v = (w', Ok tt) ->
  toml_to_string tc v = Ok s -> is_text s = true -> toml_from_str tc s = Ok v' ->
  forall q, same_file w p q -> w_can_read w q = true ->
  forall h w'', writes w' h w'' -> (forall l x, In (l, x) h -> built_in tc l) ->
  (forall p' x, In (LFile (toml_handler tc) p', x) h -> ~ same_file w p' p) ->
  layer_read w'' (LFile (toml_handler tc) q) = Ok v' /\ layer_has_value w'' (LFile (toml_handler tc) q) = true.
Proof. exact read_after_write. Qed.
Print Assumptions C36_what_is_written_is_read_back.

Example C36_example :
  let v := VMap [(lit "x", VInt 1)] in
  let w' := fst (layer_write (full_disk 9) (LFile (toml_handler ex_codec) (lit "b.toml")) v) in
  let w'' := fst (layer_write w' (LFile (toml_handler ex_codec) (lit "c.toml")) v) in
  layer_write (full_disk 9) (LFile (toml_handler ex_codec) (lit "b.toml")) v = (w', Ok tt)
  /\ writes w' [(LMemory VNone, v); (LFile (toml_handler ex_codec) (lit "c.toml"), v)] w''
  /\ toml_to_string ex_codec v = Ok (lit "x = 1") /\ toml_from_str ex_codec (lit "x = 1") = Ok v
  /\ ~ same_file (full_disk 9) (lit "c.toml") (lit "b.toml").
Proof.
  cbv zeta. split; [reflexivity|]. split.
  - eapply WritesCons; [reflexivity|]. eapply WritesCons; [reflexivity|]. constructor.
  - repeat split. unfold same_file. cbn. discriminate.
Qed.

(** ** C37. *)
Theorem C37_can_write_is_false_for_every_built_in_layer : forall tc l,
  built_in tc l -> layer_can_write l = false.
Proof. exact can_write_false. Qed.
Print Assumptions C37_can_write_is_false_for_every_built_in_layer.

Theorem C37_writing_can_succeed_iff_file_layer : forall tc l, built_in tc l ->
  (exists v s, toml_to_string tc v = Ok s) ->
  ((exists w v w', layer_write w l v = (w', Ok tt)) <-> exists p, l = LFile (toml_handler tc) p).
Proof. exact write_possible_iff. Qed.
Print Assumptions C37_writing_can_succeed_iff_file_layer.

Theorem C37_read_only_layers_refuse_every_write : forall w v x prefix,
  layer_write w (LMemory x) v = (w, Err (BLayer LWriteNotSupported))
  /\ layer_write w (env_layer_new prefix) v = (w, Err (BLayer LWriteNotSupported)).
Proof. exact (fun w v x prefix => conj eq_refl eq_refl). Qed.
Print Assumptions C37_read_only_layers_refuse_every_write.

(** "can_write() is true iff write_value can succeed" is false of file layers. *)
Theorem C37_can_write_tells_the_truth_refuted : forall tc p,
  (exists v s, toml_to_string tc v = Ok s) ->
  layer_can_write (LFile (toml_handler tc) p) = false
  /\ exists w v w', layer_write w (LFile (toml_handler tc) p) v = (w', Ok tt).
Proof.
  intros tc p H. split; [reflexivity|]. apply (write_possible_iff tc); eauto. constructor.
Qed.
Print Assumptions C37_can_write_tells_the_truth_refuted.

Example C37_example : exists v s, toml_to_string ex_codec v = Ok s.
Proof. exists (VMap [(lit "x", VInt 1)]), (lit "x = 1"). reflexivity. Qed.

(** ** C38. *)
Theorem C38_toml_paths_are_accepted : forall tc c name p, has_extension p (lit "toml") ->
  add_file_layer tc c name p = (push_layer c name (LFile (toml_handler tc) p), Ok tt).
Proof. exact add_file_accepts. Qed.
Print Assumptions C38_toml_paths_are_accepted.

Theorem C38_other_paths_are_refused : forall tc c name p, ~ has_extension p (lit "toml") ->
  exists e, add_file_layer tc c name p = (c, Err (BLayer (LUnsupportedExtension e)))
    /\ (forall e', has_extension p e' -> e = e') /\ ((forall e', ~ has_extension p e') -> e = []).
Proof. exact add_file_refuses. Qed.
Print Assumptions C38_other_paths_are_refused.

Theorem C38_extension_is_unique : forall p e e', has_extension p e -> has_extension p e' -> e = e'.
Proof. exact has_extension_fun. Qed.
Print Assumptions C38_extension_is_unique.

Example C38_example :
  has_extension (lit "/etc/my.app.toml/") (lit "toml") /\ ~ has_extension (lit "/etc/app.TOML") (lit "toml")
  /\ ~ has_extension (lit "/etc/.toml") (lit "toml") /\ ~ has_extension (lit "toml") (lit "toml")
  /\ (forall e, ~ has_extension (lit "/a.toml/..") e).
Proof.
  rewrite <- !extension_iff. repeat split; try (vm_compute; congruence).
  apply no_extension_iff. reflexivity.
Qed.
