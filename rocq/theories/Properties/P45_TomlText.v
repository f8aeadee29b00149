(** C126-C128: the text of TOML files. *)
From Coq Require Import ZArith Bool String Lia.
From Coq Require Import List.
Import ListNotations.
From Verif.Model Require Import Text Num Flt Value Convert Serde Visitor Paths Finder World Merge Layers Config Macro Toml TomlText.
From Verif.Spec Require Import Spec Numerals MergeSpec ConfigSpec EnvSpec FinderSpec PathSpec MacroSpec StartSpec SerdeSpec FloatSpec ShapeSpec VisitorSpec TomlSpec TomlTextSpec.
From Verif.Proofs Require Import Basics Utf8 VisitorProofs FormatTrip Files TomlProofs TomlProper TomlFrame TomlHand.
From Verif.Properties Require Import P27_Toml.
Local Open Scope Z_scope.

(** ** C126: nothing need be assumed about the syntax.  [lim]: the crate's limit
    on nesting. *)
Theorem C126_the_syntax_is_right : forall lim, (2 <= lim)%nat -> right_syntax lim (toml_text lim).
Proof. exact toml_text_right. Qed.
Print Assumptions C126_the_syntax_is_right.

Theorem C126_what_is_saved_is_loaded : forall lim r w p v w', (2 <= lim)%nat -> wf v -> writable v -> shallow lim v ->
  layer_write w (LFile (toml_handler (toml_codec r (toml_text lim))) p) v = (w', Ok tt) ->
  forall p', same_file w p p' -> w_can_read w p' = true ->
  exists v', layer_read w' (LFile (toml_handler (toml_codec r (toml_text lim))) p') = Ok v' /\ wf v' /\ toml_plain v'
    /\ same_numbers true v v' /\ (vequiv v v' <-> toml_plain v).
Proof.
  intros lim r w p v w' L W Wr Sh Hw p' Sp CR.
  destruct (C98_what_is_written_is_read_back lim r _ w p v w' (toml_text_right lim L) W Wr Sh Hw p' Sp CR [] w' (WritesNil w') ltac:(intros ? ? []) ltac:(intros ? ? []))
    as (v' & R & W' & _ & Tp & Sn & _ & Eq). eauto 8.
Qed.
Print Assumptions C126_what_is_saved_is_loaded.

(** Values saved as the same text answer every question alike. *)
Theorem C126_the_text_tells_values_apart : forall lim r v1 v2 s, (2 <= lim)%nat ->
  wf v1 -> writable v1 -> shallow lim v1 -> wf v2 -> writable v2 -> shallow lim v2 ->
  toml_to_string (toml_codec r (toml_text lim)) v1 = Ok s -> toml_to_string (toml_codec r (toml_text lim)) v2 = Ok s ->
  exists v, wf v /\ same_numbers true v1 v /\ same_numbers true v2 v /\ (forall q, alike (follow v1 q) (follow v q) /\ alike (follow v2 q) (follow v q)).
Proof.
  intros lim r v1 v2 s L W1 Wr1 S1 W2 Wr2 S2 E1 E2. destruct (toml_text_right lim L) as [_ RB].
  assert (M : forall v, wf v -> writable v -> toml_to_string (toml_codec r (toml_text lim)) v = Ok s -> mapv v).
  { intros v W Wr E. cbn in E. unfold format_to_string in E. cbn in E. unfold toml_document in E.
    destruct (written v Wr W) as (t & T & (_ & _ & Mt)). rewrite T in E. apply Mt. destruct t; try discriminate E. eauto. }
  destruct (trip lim r _ v1 W1 (M _ W1 Wr1 E1) Wr1 S1 RB) as (s1 & v & E1' & _ & L1 & W & _ & _ & Sn1).
  destruct (trip lim r _ v2 W2 (M _ W2 Wr2 E2) Wr2 S2 RB) as (s2 & v' & E2' & _ & L2 & _ & _ & _ & Sn2).
  assert (s1 = s /\ s2 = s) as [-> ->] by (split; congruence). assert (v' = v) by congruence. subst v'.
  exists v. split; auto. split; auto. split; auto. intros q.
  destruct (sn_follow true q v1 v (wf_ranged _ W1) (wf_ranged _ W) Sn1) as (A1 & A2 & A3).
  destruct (sn_follow true q v2 v (wf_ranged _ W2) (wf_ranged _ W) Sn2) as (B1 & B2 & B3). split; eapply sn_alike; eauto.
Qed.
Print Assumptions C126_the_text_tells_values_apart.

(** What is saved is whole lines, so more can be added behind it (C127). *)
Theorem C126_saved_text_is_whole_lines : forall lim r v s, toml_to_string (toml_codec r (toml_text lim)) v = Ok s -> ends_line s.
Proof.
  intros lim r v s E. cbn in E. unfold format_to_string in E. cbn in E. destruct (toml_document r (value_calls v)) as [t|]; [|discriminate E]. injection E as <-. apply document_ends.
Qed.
Print Assumptions C126_saved_text_is_whole_lines.

(** ** C127: files written by hand *)
Theorem C127_comments_and_empty_lines_change_nothing : forall lim r a c b v, ends_line a -> quiet c -> is_text c = true -> no_mark b ->
  toml_from_str (toml_codec r (toml_text lim)) a = Ok v ->
  toml_from_str (toml_codec r (toml_text lim)) (a ++ c ++ b) = toml_from_str (toml_codec r (toml_text lim)) (a ++ b).
Proof.
  intros lim r a c b v E Q T N L. apply load_same. destruct (load_inv _ _ _ _ L) as (t & P). eapply parse_quiet; eauto.
Qed.
Print Assumptions C127_comments_and_empty_lines_change_nothing.

Theorem C127_line_ends_do_not_matter : forall lim r s s' v, crlf s s' ->
  (toml_from_str (toml_codec r (toml_text lim)) s = Ok v <-> toml_from_str (toml_codec r (toml_text lim)) s' = Ok v).
Proof.
  intros lim r s s' v C. split; intros L; destruct (load_inv _ _ _ _ L) as (t & P); rewrite <- L; apply load_same; rewrite P; now apply (parse_crlf lim s s' t C).
Qed.
Print Assumptions C127_line_ends_do_not_matter.

(** Settings written before a file (a) and the file (b): loaded exactly when both
    can be loaded and no key is in both, and then they are all there. *)
Theorem C127_settings_put_first_are_added : forall lim r a ma b, ends_line a -> no_mark b ->
  toml_from_str (toml_codec r (toml_text lim)) a = Ok (VMap ma) -> simple_settings ma ->
  (forall mb, toml_from_str (toml_codec r (toml_text lim)) b = Ok (VMap mb) -> no_key_in_common ma mb ->
     exists m, toml_from_str (toml_codec r (toml_text lim)) (a ++ b) = Ok (VMap m) /\ wf (VMap m) /\ vequiv (VMap (ma ++ mb)) (VMap m))
  /\ (forall v, toml_from_str (toml_codec r (toml_text lim)) (a ++ b) = Ok v ->
     exists mb, toml_from_str (toml_codec r (toml_text lim)) b = Ok (VMap mb) /\ no_key_in_common ma mb).
Proof.
  intros lim r a ma b E N La Si. destruct (load_iff _ _ _ _ La) as (na & Ta & Ra & Va & Wa). destruct (root_join lim a b na E N Ra) as (l & Sl & Rl & J).
  assert (Vl : vals na).
  { apply simple_vals; [exact (root_full _ _ Rl)|]. eapply simple_loads; [|exact Si]. apply loads_doc. exact Va. }
  assert (Ka : forall k, In k (keys na) <-> In k (map fst ma)).
  { intros k. rewrite <- table_keys. apply loads_keys. apply loads_doc. exact Va. }
  split.
  - intros mb Lb D. destruct (load_iff _ _ _ _ Lb) as (nb & Tb & Rb & Vb & Wb). unfold doc_root in Rb. rewrite (unmark_no b N) in Rb.
    destruct (stms lim b) as [l2|] eqn:Sb; [|discriminate Rb].
    assert (Kb : forall k, In k (keys nb) <-> In k (map fst mb)) by (intros k; rewrite <- table_keys; apply loads_keys; apply loads_doc; exact Vb).
    rewrite (proj1 (root_app l l2 na Rl Vl) nb Rb) in J.
    2:{ intros x Ix Iy. apply Ka in Ix. apply Kb in Iy. apply in_map_iff in Ix as ([k x1] & <- & Ix). apply in_map_iff in Iy as ([k' y1] & Q & Iy). cbn in Q. subst k'. exact (D _ _ _ Ix Iy). }
    destruct (load_root r lim (a ++ b) _ ltac:(rewrite is_text_app, Ta, Tb; reflexivity) J) as (v & Lv & Vv & Wv).
    assert (M : exists m, v = VMap m) by (eapply loads_map; [apply loads_doc; exact Vv | reflexivity]). destruct M as (m & ->).
    exists m. split; auto. split; auto. eapply vequiv_trans; [|exact Vv].
    unfold table_entries. cbn [doc_value]. rewrite !map_app. apply equiv_app; apply vequiv_sym; [exact Va | exact Vb].
  - intros v Lv. destruct (load_iff _ _ _ _ Lv) as (n & Tn & Rn & _). rewrite is_text_app in Tn. apply andb_true_iff in Tn as [_ Tb].
    rewrite J in Rn. destruct (stms lim b) as [l2|] eqn:Sb; [|discriminate Rn].
    destruct (proj2 (root_app l l2 na Rl Vl) n Rn) as (nb & Rb & -> & D).
    assert (Rb' : doc_root lim b = Some nb) by (unfold doc_root; now rewrite (unmark_no b N), Sb).
    destruct (load_root r lim b nb Tb Rb') as (vb & Lb & Vb & Wb).
    assert (M : exists m, vb = VMap m) by (eapply loads_map; [apply loads_doc; exact Vb | reflexivity]). destruct M as (mb & ->).
    exists mb. split; auto. intros k x y Ix Iy.
    assert (Kb : forall k, In k (keys nb) <-> In k (map fst mb)) by (intros k0; rewrite <- table_keys; apply loads_keys; apply loads_doc; exact Vb).
    apply (D k); [apply Ka | apply Kb]; apply in_map_iff; [exists (k, x) | exists (k, y)]; auto.
Qed.
Print Assumptions C127_settings_put_first_are_added.

(** Tables added at the end. *)
Theorem C127_sections_put_last_are_added : forall lim r a ma b mb, ends_line a -> begins_section b ->
  toml_from_str (toml_codec r (toml_text lim)) a = Ok (VMap ma) -> toml_from_str (toml_codec r (toml_text lim)) b = Ok (VMap mb) -> no_key_in_common ma mb ->
  exists m, toml_from_str (toml_codec r (toml_text lim)) (a ++ b) = Ok (VMap m) /\ wf (VMap m) /\ vequiv (VMap (ma ++ mb)) (VMap m).
Proof.
  intros lim r a ma b mb E Bs La Lb D. destruct (load_iff _ _ _ _ La) as (na & Ta & Ra & Va & Wa). destruct (load_iff _ _ _ _ Lb) as (nb & Tb & Rb & Vb & Wb).
  assert (N : no_mark b).
  { destruct Bs as (q & ws & t & Q & B & ->). intros u X. destruct q as [|c q].
    - destruct ws as [|c ws]; [discriminate X|]. injection X as -> _. destruct (B 65279 ltac:(now left)) as [Y|Y]; discriminate Y.
    - injection X as -> _. exact (quiet_char _ _ _ Q eq_refl eq_refl). }
  destruct (root_join lim a b na E N Ra) as (l & Sl & Rl & J). unfold doc_root in Rb. rewrite (unmark_no b N) in Rb.
  destruct (stms lim b) as [l2|] eqn:Sb; [|discriminate Rb].
  assert (Ka : forall k, In k (keys na) <-> In k (map fst ma)) by (intros k; rewrite <- table_keys; apply loads_keys; apply loads_doc; exact Va).
  assert (Kb : forall k, In k (keys nb) <-> In k (map fst mb)) by (intros k; rewrite <- table_keys; apply loads_keys; apply loads_doc; exact Vb).
  rewrite (root_app_head l l2 na nb Rl Rb (head_before lim b l2 Bs Sb)) in J.
  2:{ intros x Ix Iy. apply Ka in Ix. apply Kb in Iy. apply in_map_iff in Ix as ([k x1] & <- & Ix). apply in_map_iff in Iy as ([k' y1] & Q & Iy). cbn in Q. subst k'. exact (D _ _ _ Ix Iy). }
  destruct (load_root r lim (a ++ b) _ ltac:(rewrite is_text_app, Ta, Tb; reflexivity) J) as (v & Lv & Vv & Wv).
  assert (M : exists m, v = VMap m) by (eapply loads_map; [apply loads_doc; exact Vv | reflexivity]). destruct M as (m & ->).
  exists m. split; auto. split; auto. eapply vequiv_trans; [|exact Vv].
  unfold table_entries. cbn [doc_value]. rewrite !map_app. apply equiv_app; apply vequiv_sym; [exact Va | exact Vb].
Qed.
Print Assumptions C127_sections_put_last_are_added.

Definition nl (s : string) : str := lit s ++ [10].
(** Without the conditions this is false: settings added at the end of a file fall
    into its last table. *)
Theorem C127_settings_put_last_are_added_refuted : exists a b ma mb m x, ends_line a /\ ends_line b /\ no_mark b
  /\ toml_from_str (toml_codec false (toml_text 80)) a = Ok (VMap ma) /\ toml_from_str (toml_codec false (toml_text 80)) b = Ok (VMap mb) /\ no_key_in_common ma mb
  /\ toml_from_str (toml_codec false (toml_text 80)) (a ++ b) = Ok (VMap m) /\ In (lit "y", x) mb /\ lacks (VMap m) (lit "y").
Proof.
  exists (nl "[t]" ++ nl "x = 1"), (nl "y = 2"), [(lit "t", VMap [(lit "x", VInt 1)])], [(lit "y", VInt 2)], [(lit "t", VMap [(lit "x", VInt 1); (lit "y", VInt 2)])], (VInt 2).
  split; [right; unfold nl; eexists; rewrite !app_assoc; reflexivity|]. split; [right; unfold nl; eexists; reflexivity|]. split; [intros t; discriminate|].
  split; [vm_compute; reflexivity|]. split; [vm_compute; reflexivity|]. split; [intros k x y [[= <- <-]|[]] [E|[]]; discriminate E|].
  split; [vm_compute; reflexivity|]. split; [now left|]. intros x (m & [= <-] & [E|[]]). discriminate E.
Qed.
Print Assumptions C127_settings_put_last_are_added_refuted.

(** A file with comments, an empty line, both kinds of line ends, and a table put behind it. *)
Definition tt_head : str := nl "# my settings" ++ [10] ++ lit "name = 'x'" ++ [13; 10] ++ nl "n = 0x10 # sixteen".
Definition tt_tail : str := nl "  # more" ++ nl "[server]" ++ nl "ports = [1_000," ++ nl "  2]".
Example C127_example : ends_line tt_head /\ no_mark tt_tail /\ begins_section tt_tail
  /\ quiet (nl "# my settings" ++ [10]) /\ is_text (nl "# my settings" ++ [10]) = true
  /\ crlf (nl "n = 1") (lit "n = 1" ++ [13; 10])
  /\ toml_from_str (toml_codec false (toml_text 80)) tt_head = Ok (VMap [(lit "name", VStr (lit "x")); (lit "n", VInt 16)])
  /\ simple_settings [(lit "name", VStr (lit "x")); (lit "n", VInt 16)]
  /\ toml_from_str (toml_codec false (toml_text 80)) tt_tail = Ok (VMap [(lit "server", VMap [(lit "ports", VArr [VInt 1000; VInt 2])])])
  /\ no_key_in_common [(lit "name", VStr (lit "x")); (lit "n", VInt 16)] [(lit "server", VMap [(lit "ports", VArr [VInt 1000; VInt 2])])]
  /\ toml_from_str (toml_codec false (toml_text 80)) (tt_head ++ tt_tail)
     = Ok (VMap [(lit "name", VStr (lit "x")); (lit "n", VInt 16); (lit "server", VMap [(lit "ports", VArr [VInt 1000; VInt 2])])]).
Proof.
  split; [right; unfold tt_head, nl; eexists; rewrite !app_assoc; reflexivity|]. split; [intros t; discriminate|].
  assert (C1 : quiet (nl "  # more")).
  { apply (QuLine (lit "  ") (lit "# more") [10] []); [intros c [<-|[<-|[]]]; now left | | now left | constructor].
    right. eexists. split; [reflexivity|]. intros c I. vm_compute in I. repeat (destruct I as [<-|I]; [right; split; [lia | discriminate]|]). destruct I. }
  split; [exists (nl "  # more"), [], (lit "server]" ++ [10] ++ nl "ports = [1_000," ++ nl "  2]"); split; [exact C1|]; split; [intros c []|]; reflexivity|].
  split. { apply (QuLine [] (lit "# my settings") [10] [10]); [intros c [] | | now left |].
    - right. eexists. split; [reflexivity|]. intros c I. vm_compute in I. repeat (destruct I as [<-|I]; [right; split; [lia | discriminate]|]). destruct I.
    - apply (QuLine [] [] [10] []); [intros c [] | now left | now left | constructor]. }
  split; [reflexivity|]. split; [repeat (apply CrChar; [discriminate | discriminate |]); apply CrCrLf; constructor|].
  split; [vm_compute; reflexivity|]. split; [intros k x [[= <- <-]|[[= <- <-]|[]]]; split; intros; discriminate|].
  split; [vm_compute; reflexivity|]. split; [intros k x y [[= <- <-]|[[= <- <-]|[]]] [E|[]]; discriminate E|]. vm_compute. reflexivity.
Qed.

(** ** C128: the limit on nesting holds for reading only *)

(** A Value nested deeper is saved without an error, and the file cannot be
    loaded any more. *)
Theorem C128_what_is_saved_can_be_loaded_refuted : forall lim r w p, w_can_open w p = true -> w_can_read w p = true -> w_fs w p <> Some NDir -> w_space w p = None ->
  exists v w' msg, wf v /\ mapv v /\ writable v
    /\ layer_write w (LFile (toml_handler (toml_codec r (toml_text lim))) p) v = (w', Ok tt)
    /\ layer_read w' (LFile (toml_handler (toml_codec r (toml_text lim))) p) = Err (BLayer (LParseError msg)).
Proof.
  intros lim r w p O R D Sp. set (v := VMap [(lit "a", nested lim)]). set (s := lit "a = " ++ (List.repeat 91 (S lim) ++ List.repeat 93 (S lim)) ++ [10]).
  assert (Es : toml_to_string (toml_codec r (toml_text lim)) v = Ok s).
  { cbn [toml_codec toml_to_string]. unfold format_to_string. cbn [toml_format fmt_emit]. unfold toml_document. subst v.
    assert (K : toml_item r (value_calls (VMap [(lit "a", nested lim)])) = Ok (TvTab [(lit "a", tnested lim)])).
    { cbn [value_calls map toml_item toml_entries fst snd]. rewrite nested_item. reflexivity. }
    rewrite K. cbn [toml_text ts_print]. f_equal. subst s. cbn [print_document own_entries filter snd]. assert (Ns : is_section (tnested lim) = false) by (destruct lim as [|[|n]]; reflexivity).
    rewrite Ns. cbn [negb flat_map entry_sections snd]. rewrite Ns. cbn [print_sections]. unfold print_entry. cbn [fst snd]. rewrite tnested_print. rewrite !app_nil_r. reflexivity. }
  assert (Tx : is_text s = true).
  { subst s. unfold is_text. rewrite !forallb_app. assert (H : forall c n, is_scalar c = true -> forallb is_scalar (List.repeat c n) = true).
    { intros c n Hc. induction n as [|n IH]; [reflexivity|]. cbn [List.repeat forallb]. now rewrite Hc. }
    rewrite !H by reflexivity. reflexivity. }
  assert (Pf : exists msg, toml_from_str (toml_codec r (toml_text lim)) s = Err msg).
  { cbn [toml_codec toml_from_str]. unfold format_from_str. cbn [toml_format fmt_present toml_text ts_parse]. rewrite Tx, parse_root.
    assert (K : doc_root lim s = None); [|rewrite K; cbn; eauto].
    subst s. rewrite <- app_assoc. apply deep_root. }
  destruct Pf as (msg & Pf). exists v, (set_node w p (NFile (utf8_encode s))), msg.
  assert (Wn : forall n, wf (nested n) /\ writable (nested n)).
  { induction n as [|n [I1 I2]]; (split; [|constructor; intros x I; cbn in I]).
    - apply wf_arr. intros x [].
    - destruct I.
    - apply wf_arr. intros x [<-|[]]. exact I1.
    - destruct I as [<-|[]]. exact I2. }
  split; [apply wf_map; split; [repeat constructor; intros []|]; intros k x [[= <- <-]|[]]; split; [reflexivity | apply Wn]|].
  split; [eexists; reflexivity|]. split; [constructor; intros k x [[= <- <-]|[]]; right; apply Wn|].
  split; [apply write_succeeds; auto|]. cbn [layer_read toml_handler fh_read]. unfold toml_read, fs_exists, fs_read_to_string. rewrite set_node_at. cbn [negb].
  replace (w_can_read (set_node w p (NFile (utf8_encode s))) p) with (w_can_read w p) by reflexivity. rewrite R. rewrite decode_encode by exact Tx. now rewrite Pf.
Qed.
Print Assumptions C128_what_is_saved_can_be_loaded_refuted.

(** A file that can be loaded may be one that cannot be loaded any more once it
    was loaded and saved: an inline table in a deep table is saved as a table
    with a header of its own. *)
Theorem C128_a_loaded_file_stays_loadable_refuted : exists s v s', toml_from_str (toml_codec false (toml_text 80)) s = Ok v
  /\ toml_to_string (toml_codec false (toml_text 80)) v = Ok s' /\ forall x, toml_from_str (toml_codec false (toml_text 80)) s' <> Ok x.
Proof.
  exists (lit "[" ++ flat_map (fun _ => lit "a.") (List.repeat tt 78) ++ nl "a]" ++ nl "x = {}").
  assert (K : match toml_from_str (toml_codec false (toml_text 80)) (lit "[" ++ flat_map (fun _ => lit "a.") (List.repeat tt 78) ++ nl "a]" ++ nl "x = {}") with
    | Ok v => match toml_to_string (toml_codec false (toml_text 80)) v with
              | Ok s' => match toml_from_str (toml_codec false (toml_text 80)) s' with Ok _ => False | Err _ => True end
              | Err _ => False
              end
    | Err _ => False
    end) by (vm_compute; exact I).
  destruct (toml_from_str (toml_codec false (toml_text 80)) _) as [v|]; [|destruct K]. exists v.
  destruct (toml_to_string (toml_codec false (toml_text 80)) v) as [s'|]; [|destruct K]. exists s'. split; auto. split; auto.
  intros x E. rewrite E in K. exact K.
Qed.
Print Assumptions C128_a_loaded_file_stays_loadable_refuted.

(** Neither can happen within the limit. *)
Theorem C128_within_the_limit_both_hold : forall lim r v s, (2 <= lim)%nat -> shallow lim v ->
  wf v -> mapv v -> writable v \/ toml_from_str (toml_codec r (toml_text lim)) s = Ok v ->
  exists s' v', toml_to_string (toml_codec r (toml_text lim)) v = Ok s' /\ is_text s' = true
    /\ toml_from_str (toml_codec r (toml_text lim)) s' = Ok v' /\ same_numbers true v v' /\ toml_plain v'.
Proof.
  intros lim r v s L Sh W M H. destruct (toml_text_right lim L) as [PT RB]. assert (Wr : writable v).
  { destruct H as [H|E]; auto. destruct (C98_what_is_loaded r (toml_text lim) s PT) as [A B]. destruct (B v E) as (t & P & _).
    destruct (A t P) as (v0 & E0 & _ & _ & _ & Pl). assert (v0 = v) by congruence. subst v0. now apply plain_writable. }
  destruct (trip lim r _ v W M Wr Sh RB) as (s' & v' & Es & Tx & Ls & _ & _ & Pl & Sn). eauto 8.
Qed.
Print Assumptions C128_within_the_limit_both_hold.

(** The hypotheses of C126 and C128 are met: a write and the file it leaves. *)
Definition tt_value : value := VMap [(lit "n", VUInt 7); (lit "o", VNone); (lit "t", VMap [(lit "a b", VArr [VBool true; VStr (lit "x")])])].
Lemma tt_runs : match layer_write tx_world (LFile (toml_handler (toml_codec false (toml_text 80))) (lit "/m/app.toml")) tt_value with
  | (w', Ok tt) => w_fs w' (lit "/m/app.toml") = Some (NFile (utf8_encode (nl "n = 7" ++ [10] ++ nl "[t]" ++ nl """a b"" = [" ++ nl "    true," ++ nl "    ""x""," ++ nl "]")))
       /\ layer_read w' (LFile (toml_handler (toml_codec false (toml_text 80))) (lit "/m/app.toml"))
          = Ok (VMap [(lit "n", VInt 7); (lit "t", VMap [(lit "a b", VArr [VBool true; VStr (lit "x")])])])
  | _ => False
  end.
Proof. vm_compute. split; reflexivity. Qed.
Example C126_example : wf tt_value /\ mapv tt_value /\ writable tt_value /\ shallow 80 tt_value
  /\ exists w', layer_write tx_world (LFile (toml_handler (toml_codec false (toml_text 80))) (lit "/m/app.toml")) tt_value = (w', Ok tt)
       /\ w_fs w' (lit "/m/app.toml") = Some (NFile (utf8_encode (nl "n = 7" ++ [10] ++ nl "[t]" ++ nl """a b"" = [" ++ nl "    true," ++ nl "    ""x""," ++ nl "]")))
       /\ same_file tx_world (lit "/m/app.toml") (lit "/m/app.toml") /\ w_can_read tx_world (lit "/m/app.toml") = true
       /\ layer_read w' (LFile (toml_handler (toml_codec false (toml_text 80))) (lit "/m/app.toml"))
          = Ok (VMap [(lit "n", VInt 7); (lit "t", VMap [(lit "a b", VArr [VBool true; VStr (lit "x")])])]).
Proof.
  split; [vm_compute; repeat constructor; cbn; intuition discriminate|]. split; [eexists; reflexivity|].
  split. { constructor. intros k x [E|[E|[E|[]]]]; injection E as <- <-; [right; constructor; lia | now left |]. right. constructor. intros k x [E|[]]; injection E as <- <-. right. constructor. intros y [<-|[<-|[]]]; constructor. }
  split. { apply ShMap. intros k x [E|[E|[E|[]]]]; injection E as <- <-; [apply ShFlat; discriminate..|]. apply ShMap. intros k x [E|[]]; injection E as <- <-. apply ShArr. intros y [<-|[<-|[]]]; apply ShFlat; discriminate. }
  pose proof tt_runs as K. destruct (layer_write tx_world (LFile (toml_handler (toml_codec false (toml_text 80))) (lit "/m/app.toml")) tt_value) as [w' [[]|e]]; [|destruct K].
  exists w'. destruct K as [K1 K2]. repeat split; auto.
Qed.
