(** C136: the last line of a TOML file. *)
From Coq Require Import ZArith Bool String Lia.
From Coq Require Import List.
Import ListNotations.
From Verif.Model Require Import Text Num Flt Value Serde Visitor Layers Toml TomlText.
From Verif.Spec Require Import Spec TomlTextSpec.
From Verif.Proofs Require Import Basics TomlProofs TomlSim TomlJoin TomlHand.
Local Open Scope Z_scope.

(** Whether the last line is ended makes no difference. *)
Theorem C136_last_line_end_is_optional : forall lim r s n v, line_feed n -> no_cr_end s ->
  (toml_from_str (toml_codec r (toml_text lim)) (s ++ n) = Ok v <-> toml_from_str (toml_codec r (toml_text lim)) s = Ok v).
Proof.
  intros lim r s n v F N. split; intros L; destruct (load_inv _ _ _ _ L) as (t & P); rewrite <- L; apply load_same; rewrite P; now apply (parse_last lim s n t F N).
Qed.
Print Assumptions C136_last_line_end_is_optional.

(** A last line that is blank or a comment, and not ended. *)
Theorem C136_last_line_may_be_blank_or_a_comment : forall lim r s ws cm v, ends_line s -> blank ws -> cm = [] \/ comment cm -> is_text cm = true ->
  toml_from_str (toml_codec r (toml_text lim)) s = Ok v -> toml_from_str (toml_codec r (toml_text lim)) (s ++ ws ++ cm) = Ok v.
Proof.
  intros lim r s ws cm v E B C T L.
  assert (NW : forall c, In c (ws ++ cm) -> c <> 13).
  { intros c I ->. apply in_app_or in I as [I|I]; [destruct (B _ I); lia|]. destruct C as [->|(t & -> & H)]; [destruct I|]. destruct I as [I|I]; [discriminate I | destruct (H _ I); lia]. }
  assert (N : no_cr_end (s ++ ws ++ cm)).
  { intros t X. destruct (ws ++ cm) as [|c u] eqn:W.
    - rewrite app_nil_r in X. subst s. destruct E as [E|(w & E)]; [destruct t; discriminate E | apply app_inj_tail in E as [_ E]; discriminate E].
    - destruct (exists_last (l := c :: u) ltac:(discriminate)) as (w & d & Q). rewrite Q in X. rewrite app_assoc in X. apply app_inj_tail in X as [_ ->].
      apply (NW 13); [rewrite Q; apply in_or_app; right; now left | reflexivity]. }
  apply (C136_last_line_end_is_optional lim r _ [10] v (or_introl eq_refl) N).
  assert (Q : quiet (ws ++ cm ++ [10])) by (apply (QuLine ws cm [10] []); auto; [now left | constructor]).
  assert (Tq : is_text (ws ++ cm ++ [10]) = true).
  { rewrite !is_text_app, T. cbn [is_text forallb andb]. rewrite andb_true_r. apply forallb_forall. intros c I. destruct (B _ I) as [-> | ->]; reflexivity. }
  destruct (load_inv _ _ _ _ L) as (t & P). pose proof (parse_quiet lim s (ws ++ cm ++ [10]) [] t E ltac:(intros u; discriminate) Q Tq P) as K. rewrite !app_nil_r in K.
  rewrite <- L. apply load_same. rewrite <- !app_assoc in *. exact K.
Qed.
Print Assumptions C136_last_line_may_be_blank_or_a_comment.

(** What follows may then be put behind the ended line. *)
Theorem C136_the_next_text_needs_a_line_end : exists a b va vb, ends_line b /\ no_cr_end a
  /\ toml_from_str (toml_codec false (toml_text 80)) a = Ok va /\ toml_from_str (toml_codec false (toml_text 80)) b = Ok vb
  /\ (forall v, toml_from_str (toml_codec false (toml_text 80)) (a ++ b) <> Ok v)
  /\ (exists v, toml_from_str (toml_codec false (toml_text 80)) (a ++ [10] ++ b) = Ok v).
Proof.
  exists (lit "a = 1"), (lit "b = 2" ++ [10]), (VMap [(lit "a", VInt 1)]), (VMap [(lit "b", VInt 2)]).
  split; [right; eexists; reflexivity|]. split; [intros t X; apply (f_equal (@rev _)) in X; rewrite (rev_app_distr t) in X; vm_compute in X; discriminate X|].
  split; [vm_compute; reflexivity|]. split; [vm_compute; reflexivity|]. split; [intros v; vm_compute; discriminate|]. eexists. vm_compute. reflexivity.
Qed.
Print Assumptions C136_the_next_text_needs_a_line_end.

(** A carriage return alone is no line end: with it the last line is not complete
    until the line feed is there. *)
Theorem C136_last_line_end_is_optional_refuted : exists s v, (forall w, toml_from_str (toml_codec false (toml_text 80)) s <> Ok w)
  /\ toml_from_str (toml_codec false (toml_text 80)) (s ++ [10]) = Ok v.
Proof. exists (lit "a = 1" ++ [13]), (VMap [(lit "a", VInt 1)]). split; [intros w; vm_compute; discriminate | vm_compute; reflexivity]. Qed.
Print Assumptions C136_last_line_end_is_optional_refuted.

(** The last line is a setting with a date, the start of an unfinished time, or a comment. *)
Example C136_example :
  no_cr_end (lit "n = 1" ++ [10] ++ lit "d = 2024-05-06 ") /\ blank (lit " ") /\ comment (lit "# end") /\ is_text (lit "# end") = true
  /\ (exists v, toml_from_str (toml_codec false (toml_text 80)) (lit "n = 1" ++ [10] ++ lit "d = 2024-05-06 ") = Ok v
       /\ toml_from_str (toml_codec false (toml_text 80)) (lit "n = 1" ++ [10] ++ lit "d = 2024-05-06 " ++ [13; 10]) = Ok v)
  /\ ends_line (lit "n = 1" ++ [10])
  /\ toml_from_str (toml_codec false (toml_text 80)) (lit "n = 1" ++ [10] ++ lit " " ++ lit "# end") = Ok (VMap [(lit "n", VInt 1)]).
Proof.
  split; [intros t X; apply (f_equal (@rev _)) in X; rewrite (rev_app_distr t) in X; vm_compute in X; discriminate X|].
  split; [intros c [<-|[]]; now left|]. split. { eexists. split; [reflexivity|]. intros c I. vm_compute in I. repeat (destruct I as [<-|I]; [right; split; [lia | discriminate]|]). destruct I. }
  split; [reflexivity|]. split; [eexists; split; vm_compute; reflexivity|]. split; [right; eexists; reflexivity|]. vm_compute. reflexivity.
Qed.
