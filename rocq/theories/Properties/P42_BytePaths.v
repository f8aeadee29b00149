(** C121: paths are bytes. *)
From Coq Require Import ZArith Bool String Lia.
From Coq Require Import List.
Import ListNotations.
From Verif.Model Require Import Text Value Paths Finder World Layers Config BytePaths.
From Verif.Spec Require Import Spec EnvSpec PathSpec FinderSpec BytePathsSpec.
From Verif.Proofs Require Import Basics Utf8 PathLemmas Files FinderMore BytePathsProofs.
From Verif.Properties Require Import P07_Finder.
Local Open Scope Z_scope.

(** Folders given as texts: the searches over bytes are the searches of
    C39-C48, C89, C116, C120 with every path written as its bytes, also while
    the file system changes. *)
Theorem C121_text_paths_are_their_bytes : forall ex oc f allow, (forall e, In e (ff_exts f) -> is_text e = true) ->
  let ex' := fun t p => ex t (utf8_encode p) in
  b_find_first ex (finder_in_bytes f) allow = map_done result_in_bytes (find_first ex' f allow)
  /\ b_find_last ex (finder_in_bytes f) allow = map_done result_in_bytes (find_last ex' f allow)
  /\ b_find_all ex oc (finder_in_bytes f) allow = map_done (map result_in_bytes) (find_all ex' oc f allow)
  /\ b_find_all_or_first ex oc (finder_in_bytes f) = map_done (map result_in_bytes) (find_all_or_first ex' oc f).
Proof.
  intros ex oc f allow T ex'. split; [|split; [|split]]; apply same_outcome_map;
    [apply find_first_enc | apply find_last_enc | apply find_all_enc | apply find_aof_enc]; exact T.
Qed.
Print Assumptions C121_text_paths_are_their_bytes.
Theorem C121_os_directories_in_bytes : forall pf d,
  b_to_path_buf (platform_in_bytes pf) d = option_map utf8_encode (to_path_buf pf d).
Proof.
  intros pf d. unfold b_to_path_buf, to_path_buf, platform_in_bytes. cbn [pf_base pf_cwd]. destruct (pf_base pf) as [b|]; [|reflexivity].
  destruct d; cbn [bd_home bd_config bd_pref option_map]; rewrite ?path_join_enc; reflexivity.
Qed.
Print Assumptions C121_os_directories_in_bytes.

(** Any folder, whether its name is UTF-8 or not: the candidate is the bytes of
    the folder, the name, a dot and the extension, nothing normalised. *)
Theorem C121_candidate_bytes : forall (d pre : bpath) c n e, folder_prefix d pre ->
  no_sep (c :: n) -> no_dot n -> c :: n <> [DOT] -> no_sep e -> e <> [] ->
  with_extension (path_join d (utf8_encode (c :: n))) (utf8_encode e) = Some (pre ++ utf8_encode (c :: n) ++ DOT :: utf8_encode e).
Proof.
  intros d pre c n e P Ns Nd N1 Se Ne.
  assert (Ee : utf8_encode e <> []) by (intros X; apply (proj1 (enc_nil_iff e)) in X; contradiction).
  assert (Es : no_sep (utf8_encode e)) by (intros X; apply Se; apply (proj1 (in_enc SEP e eq_refl)); exact X).
  assert (En : no_sep (utf8_encode (c :: n))) by (intros X; apply Ns; apply (proj1 (in_enc SEP _ eq_refl)); exact X).
  assert (Dn : ~ In DOT (utf8_encode n)) by (intros X; apply Nd; apply (proj1 (in_enc DOT n eq_refl)); exact X).
  assert (N2 : utf8_encode (c :: n) <> [DOT]) by (intros X; apply N1; apply (proj1 (enc_ascii [DOT] (c :: n) ltac:(cbn; unfold DOT; intros x Hx; lia))); exact X).
  assert (Q : exists b bs, utf8_encode (c :: n) = b :: bs /\ ~ In DOT bs).
  { change (utf8_encode (c :: n)) with (utf8_encode_char c ++ utf8_encode n). destruct (Z_lt_dec c 128) as [L|H].
    - rewrite (code_low _ encode_ascii_code c L). exists c, (utf8_encode n). split; [reflexivity | exact Dn].
    - destruct (code_high _ encode_ascii_code c H) as (b & bs & E & Hb & Hbs). rewrite E. exists b, (bs ++ utf8_encode n). split; [reflexivity|].
      intros X. apply in_app_or in X as [X|X]; [apply Hbs in X; unfold DOT in X; lia | exact (Dn X)]. }
  destruct Q as (b & bs & Q & Db). rewrite Q in *. apply C45_plain_name; auto.
Qed.
Print Assumptions C121_candidate_bytes.
(** Different texts lead to different files, even if they look the same. *)
Theorem C121_no_two_texts_share_a_file : forall (pre : bpath) n e n' e',
  is_text n = true -> is_text e = true -> is_text n' = true -> is_text e' = true -> no_dot n -> no_dot n' ->
  pre ++ utf8_encode n ++ DOT :: utf8_encode e = pre ++ utf8_encode n' ++ DOT :: utf8_encode e' <-> n = n' /\ e = e'.
Proof.
  intros pre n e n' e' Tn Te Tn' Te' Dn Dn'. split; [|intros [-> ->]; reflexivity]. intros E. apply app_inv_head in E.
  assert (D : ~ In DOT (utf8_encode n)) by (intros X; apply Dn; apply (proj1 (in_enc DOT n eq_refl)); exact X).
  assert (D' : ~ In DOT (utf8_encode n')) by (intros X; apply Dn'; apply (proj1 (in_enc DOT n' eq_refl)); exact X).
  assert (C : forall a b a' b' : list Z, ~ In DOT a -> ~ In DOT a' -> a ++ DOT :: b = a' ++ DOT :: b' -> a = a' /\ b = b').
  { clear. induction a as [|x a IH]; intros b [|y a'] b' Da Da' E; cbn in E.
    - injection E as ->. auto.
    - injection E as <- _. destruct Da'. left; auto.
    - injection E as -> _. destruct Da. left; auto.
    - injection E as -> E. destruct (IH b a' b') as [-> ->]; auto; intros X; [apply Da | apply Da']; right; auto. }
  destruct (C _ _ _ _ D D' E) as [S1 S2].
  apply (f_equal utf8_decode) in S1, S2. rewrite !decode_encode in S1, S2 by assumption. split; congruence.
Qed.
Print Assumptions C121_no_two_texts_share_a_file.

(** [FileExtension::match_path] holds for the TOML extension and paths that
    have it; a custom extension matches no path, not even one that ends in it. *)
Theorem C121_match_path : forall e (p : bpath), b_match_path e p = true <-> e = ExtToml /\ has_extension p (lit "toml").
Proof.
  intros [x|] p; cbn [b_match_path]; [split; [discriminate | intros [[=] _]]|].
  unfold b_extension. rewrite <- extension_iff. destruct (extension p) as [e|]; [|split; [discriminate | intros [_ [=]]]].
  assert (T : utf8 (lit "toml") (lit "toml")) by (apply utf8_decode_spec; reflexivity).
  destruct (utf8_decode e) as [s|] eqn:D.
  - rewrite str_eqb_eq. apply utf8_decode_spec in D. split.
    + intros ->. split; auto. f_equal. apply utf8_iff in D as [_ <-]. reflexivity.
    + intros [_ [= ->]]. eapply utf8_fun; eauto.
  - split; [discriminate|]. intros [_ [= ->]]. discriminate D.
Qed.
Print Assumptions C121_match_path.
(** [add_file_layer] takes a path of any bytes if and only if its extension is
    "toml"; the error names the extension if that is text, and nothing otherwise. *)
Theorem C121_file_layers_of_any_path : forall (p : bpath),
  (b_add_file_layer p = Ok tt <-> has_extension p (lit "toml"))
  /\ (forall err, b_add_file_layer p = Err err <-> ~ has_extension p (lit "toml") /\
       exists x, err = BLayer (LUnsupportedExtension x) /\
         ((exists e, has_extension p e /\ utf8 e x) \/ (x = [] /\ forall e s, has_extension p e -> ~ utf8 e s))).
Proof.
  intros p.
  assert (T : utf8 (lit "toml") (lit "toml")) by (apply utf8_decode_spec; reflexivity).
  assert (K : b_match_path ExtToml p = true <-> has_extension p (lit "toml")).
  { unfold b_match_path, b_extension. rewrite <- extension_iff. destruct (extension p) as [e|]; [|split; discriminate].
    destruct (utf8_decode e) as [s|] eqn:D.
    - rewrite str_eqb_eq. apply utf8_decode_spec in D. split.
      + intros ->. f_equal. apply utf8_iff in D as [_ <-]. reflexivity.
      + intros [= ->]. eapply utf8_fun; eauto.
    - split; [discriminate|]. intros [= ->]. discriminate D. }
  unfold b_add_file_layer. destruct (b_match_path ExtToml p).
  - split; [tauto|]. intros err. split; [discriminate | intros [N _]; destruct N; now apply K].
  - assert (N : ~ has_extension p (lit "toml")) by (intros H; apply K in H; discriminate). split; [split; [discriminate | contradiction]|].
    intros err. unfold b_extension. destruct (extension p) as [e|] eqn:X.
    + apply extension_iff in X. destruct (utf8_decode e) as [s|] eqn:D.
      * apply utf8_decode_spec in D. split.
        -- intros [= <-]. split; auto. exists s. split; auto. left. eauto.
        -- intros [_ (x & -> & [(e' & H & U)|[-> H]])].
           ++ rewrite (has_extension_fun _ _ _ H X) in U. now rewrite (utf8_fun _ _ _ U D).
           ++ destruct (H e s X D).
      * assert (ND : forall s, ~ utf8 e s) by (intros s U; apply utf8_decode_spec in U; congruence). split.
        -- intros [= <-]. split; auto. exists []. split; auto. right. split; auto. intros e' s H. rewrite (has_extension_fun _ _ _ H X). apply ND.
        -- intros [_ (x & -> & [(e' & H & U)|[-> H]])]; [|reflexivity]. rewrite (has_extension_fun _ _ _ H X) in U. destruct (ND _ U).
    + pose proof (proj1 (no_extension_iff p) X) as X'. clear X; rename X' into X. split.
      * intros [= <-]. split; auto. exists []. split; auto. right. split; auto. intros e s H. destruct (X e H).
      * intros [_ (x & -> & [(e' & H & U)|[-> H]])]; [destruct (X e' H) | reflexivity].
Qed.
Print Assumptions C121_file_layers_of_any_path.
Theorem C121_text_file_layers : forall tc c name p,
  snd (add_file_layer tc c name p) = Ok tt <-> b_add_file_layer (utf8_encode p) = Ok tt.
Proof.
  intros tc c name p. unfold add_file_layer, b_add_file_layer, b_match_path, b_extension, ext_match_path. rewrite extension_enc.
  destruct (extension p) as [e|]; cbn [option_map snd]; [|split; discriminate].
  assert (A : forall x : char, In x (lit "toml") -> x < 128) by (cbn; intros x H; lia).
  destruct (utf8_decode (utf8_encode e)) as [s|] eqn:D.
  - assert (Q : str_eqb s (lit "toml") = str_eqb e (lit "toml")).
    { apply eq_true_iff_eq. rewrite !str_eqb_eq. apply utf8_decode_spec, utf8_iff in D as [T E]. rewrite <- (enc_ascii (lit "toml") e A), <- E, (enc_ascii (lit "toml") s A). reflexivity. }
    rewrite Q. destruct (str_eqb e (lit "toml")); cbn; [tauto | split; discriminate].
  - destruct (str_eqb e (lit "toml")) eqn:Q; cbn; [|split; discriminate]. apply str_eqb_eq in Q. subst e. discriminate D.
Qed.
Print Assumptions C121_text_file_layers.

(** Refuted: "the error names the extension": an extension that is no text is
    reported as if there were none. *)
Theorem C121_the_error_names_the_extension_refuted : exists p e, has_extension p e /\ e <> [] /\
  b_add_file_layer p = Err (BLayer (LUnsupportedExtension [])).
Proof. exists (lit "app." ++ [255]), [255]. split; [apply extension_iff; reflexivity|]. split; [discriminate | reflexivity]. Qed.
Print Assumptions C121_the_error_names_the_extension_refuted.

(** A folder with a byte that is no UTF-8 (255), the name "é" and the extension
    "toml"; the composed and the decomposed "é" are two files. *)
Example C121_example : folder_prefix (lit "/srv/" ++ [255]) (lit "/srv/" ++ [255; 47])
  /\ b_find_first (fun _ p => str_eqb p (lit "/srv/" ++ [255; 47; 195; 169] ++ lit ".toml"))
       {| bf_folders := [lit "/nowhere"; lit "/srv/" ++ [255]]; bf_name := [233]; bf_exts := [lit "json"; lit "toml"] |} false
     = Done {| fr_path := lit "/srv/" ++ [255; 47; 195; 169] ++ lit ".toml"; fr_extension := ExtCustom (lit "toml"); fr_index := 0; fr_exists := true |}
  /\ b_find_first (fun _ p => str_eqb p (lit "/srv/" ++ [255; 47; 195; 169] ++ lit ".toml"))
       {| bf_folders := [lit "/srv/" ++ [255]]; bf_name := [101; 769]; bf_exts := [lit "toml"] |} false = Fail NoFilesFound
  /\ b_add_file_layer (lit "/srv/" ++ [255] ++ lit ".toml") = Ok tt.
Proof.
  split; [|split; [reflexivity | split; reflexivity]]. right; right. split; [discriminate|]. split; [|reflexivity].
  intros d' E. change (lit "/srv/" ++ [255]) with ([47; 115; 114; 118; 47] ++ [255]) in E. apply app_inj_tail in E as [_ E]. discriminate E.
Qed.
