(** C137: what a saved TOML file looks like, character by character. *)
From Coq Require Import ZArith Bool String Lia.
From Coq Require Import Floats.SpecFloat.
From Coq Require Import List.
Import ListNotations.
From Verif.Model Require Import Text Num Flt Value Convert Serde Visitor Paths Finder World Merge Layers Config Toml TomlText.
From Verif.Spec Require Import Spec Numerals EnvSpec MergeSpec ConfigSpec PathSpec SerdeSpec TomlSpec TomlTextSpec TomlLook.
From Verif.Proofs Require Import Basics Conversions Utf8 Files TomlProofs TomlExact TomlProper TomlLook.
From Verif.Properties Require Import P43_TomlExact.
Local Open Scope Z_scope.

Theorem C137_saved_text_looks : forall lim r v s, wf v ->
  (toml_to_string (toml_codec r (toml_text lim)) v = Ok s <-> exists n, becomes r v (TvTab n) /\ file_look n s).
Proof.
  intros lim r v s W. rewrite (C122_written_exactly r (toml_text lim) v s W). cbn [ts_print toml_text].
  split; intros (n & B & E); exists n; (split; [exact B|]); apply (file_look_ok n); auto; exact (proj1 (becomes_proper r) _ _ B W).
Qed.
Print Assumptions C137_saved_text_looks.

(** In the file: the UTF-8 encoding of that text. *)
Theorem C137_saved_file_looks : forall lim r w p v w', wf v ->
  layer_write w (LFile (toml_handler (toml_codec r (toml_text lim))) p) v = (w', Ok tt) ->
  exists n s, becomes r v (TvTab n) /\ file_look n s
  /\ forall q, same_file w p q -> exists bs, w_fs w' q = Some (NFile bs) /\ utf8 bs s.
Proof.
  intros lim r w p v w' W H. destruct (proj2 (file_write_effect _ _ _ _ _ _ H)) as (s & S & F).
  destruct (proj1 (C137_saved_text_looks lim r v s W) S) as (n & B & L). exists n, s. split; auto. split; auto.
  intros q Q. exists (utf8_encode s). split; [now apply F | apply utf8_of_text].
  apply (C122_written_exactly r (toml_text lim) v s W) in S as (n' & B' & ->). pose proof (proj1 (becomes_proper r) _ _ B' W) as P.
  apply (print_document_txt (vdepth v)); [exact P|]. eapply shallow_plain; [apply (shallow_depth v (vdepth v) (le_n _)) | apply (proj1 (toml_complete r)), B'].
Qed.
Print Assumptions C137_saved_file_looks.

(** The rules fix every character. *)
Theorem C137_one_look_each : forall n, proper_toml (TvTab n) -> exists s, file_look n s /\ forall s', file_look n s' -> s' = s.
Proof.
  intros n P. exists (print_document (TvTab n)). split; [now apply file_look_ok|]. intros s' L. now apply file_look_ok in L.
Qed.
Print Assumptions C137_one_look_each.

(** A saved text has no control characters but tabs and line feeds, and its last
    line is ended: one may go on writing below it (C136). *)
Theorem C137_saved_text_is_plain : forall lim r v s, wf v -> toml_to_string (toml_codec r (toml_text lim)) v = Ok s ->
  plain_text s /\ ends_line s.
Proof.
  intros lim r v s W H. apply (C137_saved_text_looks lim r v s W) in H as (n & B & L).
  destruct (file_fine n s L) as [P E].
  { split; [exact (proj1 (becomes_proper r) _ _ B W) | exact (proj1 (becomes_dateless r) _ _ B)]. }
  split; auto. destruct n as [|e n]; [|right; apply E; discriminate]. left.
  apply file_look_ok in L; [now subst|]. constructor; [constructor | intros ? ? []].
Qed.
Print Assumptions C137_saved_text_is_plain.

Definition dq : str := [34].
Definition look_value : value :=
  VMap [(lit "name", VStr (lit "a 'b'")); (lit "a b", VMap [(lit "c", VMap [(lit "x", VFloat (S754_finite false 6755399441055744 (-52)))])]);
        (lit "n", VInt (-5)); (lit "l", VArr [VUInt 1; VMap []]); (lit "q", VStr ([34; 92])); (lit "e", VStr [10; 27; 9]);
        (lit "s", VArr [VMap [(lit "y", VArr [VBool true])]; VMap []])].
(** Every line of the text is given by the rules. *)
Definition look_text : str :=
  lit "name = " ++ dq ++ lit "a 'b'" ++ dq ++ [10] ++
  lit "n = -5" ++ [10] ++
  lit "l = [" ++ [10] ++ lit "    1," ++ [10] ++ lit "    {}," ++ [10] ++ lit "]" ++ [10] ++
  lit "q = '" ++ [34; 92] ++ lit "'" ++ [10] ++
  lit "e = " ++ dq ++ dq ++ dq ++ [10] ++ [10] ++ lit "\u001B\t" ++ dq ++ dq ++ dq ++ [10] ++
  [10] ++ lit "[" ++ dq ++ lit "a b" ++ dq ++ lit ".c]" ++ [10] ++ lit "x = 1.5" ++ [10] ++
  [10] ++ lit "[[s]]" ++ [10] ++ lit "y = [true]" ++ [10] ++
  [10] ++ lit "[[s]]" ++ [10].
Example C137_example : wf look_value /\ forall lim, toml_to_string (toml_codec true (toml_text lim)) look_value = Ok look_text.
Proof.
  split; [|intros lim; vm_compute; reflexivity]. cbn. repeat split; try (vm_compute; reflexivity); try (repeat constructor; cbn; intuition discriminate).
Qed.
(** The rules at work on one of its lines. *)
Example C137_rules : file_look [(lit "q", TvStr [34; 92])] (lit "q = '" ++ [34; 92] ++ lit "'" ++ [10]).
Proof.
  assert (N : ~ section_like (TvStr [34; 92])) by (intros [(m & E)|(l & E & _)]; discriminate E).
  replace (lit "q = '" ++ [34; 92] ++ lit "'" ++ [10]) with ((lit "q = '" ++ [34; 92] ++ lit "'" ++ [10]) ++ List.concat (map (fun b => [10] ++ b) [])) by reflexivity.
  apply FlSettings; [exists (lit "q"), (TvStr [34; 92]); split; [now left | exact N] | | apply BwSetting; [exact N | constructor]].
  apply (LlSetting (lit "q") (TvStr [34; 92]) [] (lit "q") (lit "'" ++ [34; 92] ++ lit "'") []); auto; [| |constructor].
  - apply KlBare. now apply (bare_key_iff 113 []).
  - apply VlStr, TkLiteral.
    + split; [left; now left|]. split; [intros a b E|]; [destruct a as [|? [|? [|? ?]]]; discriminate E|]. split; [intros a E; destruct a as [|? [|? [|? ?]]]; discriminate E|]. intros c [<-|[<-|[]]]; right; right; lia.
    + intros [E|[E|[]]]; discriminate E.
    + intros [E|[E|[]]]; discriminate E.
Qed.
