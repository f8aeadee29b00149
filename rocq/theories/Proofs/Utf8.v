(** UTF-8: the decoder inverts the encoder and accepts nothing else. *)
From Coq Require Import ZArith List Bool Lia.
Import ListNotations.
From Verif.Model Require Import Text.
From Verif.Spec Require Import EnvSpec.
Open Scope Z_scope.
Local Ltac Zify.zify_post_hook ::= Z.to_euclidean_division_equations.

Lemma decode_char c rest : is_scalar c = true ->
  utf8_decode (utf8_encode_char c ++ rest)
  = match utf8_decode rest with Some s => Some (c :: s) | None => None end.
Proof.
  intros S. assert (R : 0 <= c <= 1114111 /\ ~ 55296 <= c <= 57343) by (unfold is_scalar in S; lia).
  unfold utf8_encode_char.
  destruct (c <? 128) eqn:E1; [|destruct (c <? 2048) eqn:E2; [|destruct (c <? 65536) eqn:E3]]; cbn [app utf8_decode].
  - replace ((0 <=? c) && (c <? 128)) with true by lia. reflexivity.
  - replace ((0 <=? 192 + c / 64) && (192 + c / 64 <? 128)) with false by lia.
    replace ((194 <=? 192 + c / 64) && (192 + c / 64 <=? 223)) with true by lia.
    unfold is_cont. replace ((128 <=? 128 + c mod 64) && (128 + c mod 64 <=? 191)) with true by lia.
    replace ((192 + c / 64 - 192) * 64 + (128 + c mod 64 - 128)) with c by lia. reflexivity.
  - replace ((0 <=? 224 + c / 4096) && (224 + c / 4096 <? 128)) with false by lia.
    replace ((194 <=? 224 + c / 4096) && (224 + c / 4096 <=? 223)) with false by lia.
    replace ((224 <=? 224 + c / 4096) && (224 + c / 4096 <=? 239)) with true by lia.
    replace ((224 + c / 4096 - 224) * 4096 + (128 + (c / 64) mod 64 - 128) * 64 + (128 + c mod 64 - 128)) with c by lia.
    unfold is_cont. rewrite S.
    replace ((128 <=? 128 + (c / 64) mod 64) && (128 + (c / 64) mod 64 <=? 191) && ((128 <=? 128 + c mod 64) && (128 + c mod 64 <=? 191)) && (2048 <=? c) && true) with true by lia.
    reflexivity.
  - replace ((0 <=? 240 + c / 262144) && (240 + c / 262144 <? 128)) with false by lia.
    replace ((194 <=? 240 + c / 262144) && (240 + c / 262144 <=? 223)) with false by lia.
    replace ((224 <=? 240 + c / 262144) && (240 + c / 262144 <=? 239)) with false by lia.
    replace ((240 <=? 240 + c / 262144) && (240 + c / 262144 <=? 244)) with true by lia.
    replace ((240 + c / 262144 - 240) * 262144 + (128 + (c / 4096) mod 64 - 128) * 4096 + (128 + (c / 64) mod 64 - 128) * 64 + (128 + c mod 64 - 128)) with c by lia.
    unfold is_cont. rewrite S.
    replace ((128 <=? 128 + (c / 4096) mod 64) && (128 + (c / 4096) mod 64 <=? 191) && ((128 <=? 128 + (c / 64) mod 64) && (128 + (c / 64) mod 64 <=? 191)) && ((128 <=? 128 + c mod 64) && (128 + c mod 64 <=? 191)) && (65536 <=? c) && true) with true by lia.
    reflexivity.
Qed.

Lemma decode_encode s : is_text s = true -> utf8_decode (utf8_encode s) = Some s.
Proof.
  induction s as [|c s IH]; intros T; [reflexivity|].
  cbn in T. apply andb_true_iff in T as [Tc Ts]. change (utf8_encode (c :: s)) with (utf8_encode_char c ++ utf8_encode s).
  rewrite decode_char by auto. now rewrite IH.
Qed.

Lemma encode_decode n : forall bs s, (length bs <= n)%nat -> utf8_decode bs = Some s -> is_text s = true /\ utf8_encode s = bs.
Proof.
  induction n as [|n IH]; intros bs s L H.
  - destruct bs; [|cbn in L; lia]. injection H as <-. auto.
  - destruct bs as [|b0 t0]; [injection H as <-; auto|]. cbn [utf8_decode] in H. cbn [length] in L.
    destruct ((0 <=? b0) && (b0 <? 128)) eqn:E0.
    { destruct (utf8_decode t0) as [s0|] eqn:D; [|discriminate]. injection H as <-.
      destruct (IH t0 s0 ltac:(lia) D) as [T E]. split.
      - change (is_text (b0 :: s0)) with (is_scalar b0 && is_text s0). rewrite T. unfold is_scalar. lia.
      - change (utf8_encode (b0 :: s0)) with (utf8_encode_char b0 ++ utf8_encode s0). rewrite E.
        unfold utf8_encode_char. replace (b0 <? 128) with true by lia. reflexivity. }
    destruct t0 as [|b1 t1]; [discriminate|]. cbn [length] in L.
    destruct ((194 <=? b0) && (b0 <=? 223)) eqn:E1.
    { destruct (is_cont b1) eqn:C1; [|discriminate]. destruct (utf8_decode t1) as [s0|] eqn:D; [|discriminate]. injection H as <-.
      destruct (IH t1 s0 ltac:(lia) D) as [T E]. unfold is_cont in C1.
      set (c := (b0 - 192) * 64 + (b1 - 128)). assert (Hc : c = (b0 - 192) * 64 + (b1 - 128)) by reflexivity. clearbody c.
      split.
      - change (is_text (c :: s0)) with (is_scalar c && is_text s0). rewrite T. unfold is_scalar. lia.
      - change (utf8_encode (c :: s0)) with (utf8_encode_char c ++ utf8_encode s0). rewrite E.
        unfold utf8_encode_char. replace (c <? 128) with false by lia. replace (c <? 2048) with true by lia.
        cbn [app]. f_equal; [lia|]. f_equal. lia. }
    destruct t1 as [|b2 t2]; [discriminate|]. cbn [length] in L.
    destruct ((224 <=? b0) && (b0 <=? 239)) eqn:E2.
    { set (c := (b0 - 224) * 4096 + (b1 - 128) * 64 + (b2 - 128)) in *.
      assert (Hc : c = (b0 - 224) * 4096 + (b1 - 128) * 64 + (b2 - 128)) by reflexivity. clearbody c.
      destruct (is_cont b1 && is_cont b2 && (2048 <=? c) && is_scalar c) eqn:G; [|discriminate].
      destruct (utf8_decode t2) as [s0|] eqn:D; [|discriminate]. injection H as <-.
      destruct (IH t2 s0 ltac:(lia) D) as [T E]. unfold is_cont in G.
      apply andb_true_iff in G as [G Sc]. split.
      - change (is_text (c :: s0)) with (is_scalar c && is_text s0). now rewrite T, Sc.
      - change (utf8_encode (c :: s0)) with (utf8_encode_char c ++ utf8_encode s0). rewrite E.
        unfold utf8_encode_char. replace (c <? 128) with false by lia. replace (c <? 2048) with false by lia.
        replace (c <? 65536) with true by lia.
        cbn [app]. f_equal; [lia|]. f_equal; [lia|]. f_equal. lia. }
    destruct t2 as [|b3 t3]; [discriminate|]. cbn [length] in L.
    destruct ((240 <=? b0) && (b0 <=? 244)) eqn:E3; [|discriminate].
    set (c := (b0 - 240) * 262144 + (b1 - 128) * 4096 + (b2 - 128) * 64 + (b3 - 128)) in *.
    assert (Hc : c = (b0 - 240) * 262144 + (b1 - 128) * 4096 + (b2 - 128) * 64 + (b3 - 128)) by reflexivity. clearbody c.
    destruct (is_cont b1 && is_cont b2 && is_cont b3 && (65536 <=? c) && is_scalar c) eqn:G; [|discriminate].
    destruct (utf8_decode t3) as [s0|] eqn:D; [|discriminate]. injection H as <-.
    destruct (IH t3 s0 ltac:(lia) D) as [T E]. unfold is_cont in G.
    apply andb_true_iff in G as [G Sc]. split.
    + change (is_text (c :: s0)) with (is_scalar c && is_text s0). now rewrite T, Sc.
    + change (utf8_encode (c :: s0)) with (utf8_encode_char c ++ utf8_encode s0). rewrite E.
      unfold utf8_encode_char. replace (c <? 128) with false by lia. replace (c <? 2048) with false by lia.
      replace (c <? 65536) with false by lia.
      cbn [app]. f_equal; [lia|]. f_equal; [lia|]. f_equal; [lia|]. f_equal. lia.
Qed.

(** The specification's UTF-8 is the model's encoder on sequences of scalar values. *)
Lemma char_utf8_enc c : is_scalar c = true -> char_utf8 c (utf8_encode_char c).
Proof.
  intros S. assert (R : 0 <= c <= 1114111 /\ ~ 55296 <= c <= 57343) by (unfold is_scalar in S; lia). clear S.
  unfold utf8_encode_char.
  destruct (c <? 128) eqn:E1; [|destruct (c <? 2048) eqn:E2; [|destruct (c <? 65536) eqn:E3]].
  - constructor. lia.
  - assert (E : c = 64 * (c / 64) + c mod 64) by lia. rewrite E at 1. constructor; lia.
  - assert (E : c = 4096 * (c / 4096) + 64 * ((c / 64) mod 64) + c mod 64) by lia. rewrite E at 1. constructor; lia.
  - assert (E : c = 262144 * (c / 262144) + 4096 * ((c / 4096) mod 64) + 64 * ((c / 64) mod 64) + c mod 64) by lia.
    rewrite E at 1. constructor; lia.
Qed.
Lemma char_utf8_dec c bs : char_utf8 c bs -> is_scalar c = true /\ utf8_encode_char c = bs.
Proof.
  intros H. inversion H; subst; clear H; (split; [unfold is_scalar; lia|]); unfold utf8_encode_char.
  - replace (c <? 128) with true by lia. reflexivity.
  - replace (64 * a + b <? 128) with false by lia. replace (64 * a + b <? 2048) with true by lia.
    f_equal; [lia|]. f_equal. lia.
  - set (x := 4096 * a + 64 * b + c0) in *. assert (Hx : x = 4096 * a + 64 * b + c0) by reflexivity. clearbody x.
    replace (x <? 128) with false by lia. replace (x <? 2048) with false by lia. replace (x <? 65536) with true by lia.
    f_equal; [lia|]. f_equal; [lia|]. f_equal. lia.
  - set (x := 262144 * a + 4096 * b + 64 * c0 + d) in *. assert (Hx : x = 262144 * a + 4096 * b + 64 * c0 + d) by reflexivity. clearbody x.
    replace (x <? 128) with false by lia. replace (x <? 2048) with false by lia. replace (x <? 65536) with false by lia.
    f_equal; [lia|]. f_equal; [lia|]. f_equal; [lia|]. f_equal. lia.
Qed.
Lemma utf8_iff bs s : utf8 bs s <-> is_text s = true /\ utf8_encode s = bs.
Proof.
  split.
  - induction 1 as [|c bc bs s C U [T E]]; [split; reflexivity|].
    apply char_utf8_dec in C as [S <-]. split.
    + change (is_scalar c && is_text s = true). now rewrite S, T.
    + change (utf8_encode_char c ++ utf8_encode s = utf8_encode_char c ++ bs). now rewrite E.
  - intros [T <-]. induction s as [|c s IH]; [constructor|].
    change (is_scalar c && is_text s = true) in T. apply andb_true_iff in T as [Tc Ts].
    change (utf8_encode (c :: s)) with (utf8_encode_char c ++ utf8_encode s). constructor; [now apply char_utf8_enc | auto].
Qed.
Lemma utf8_of_text s : is_text s = true -> utf8 (utf8_encode s) s.
Proof. intros T. apply utf8_iff. auto. Qed.

Lemma utf8_decode_spec bs s : utf8_decode bs = Some s <-> utf8 bs s.
Proof.
  rewrite utf8_iff. split.
  - intros H. exact (encode_decode (length bs) bs s (le_n _) H).
  - intros [T <-]. now apply decode_encode.
Qed.
Lemma utf8_fun bs s s' : utf8 bs s -> utf8 bs s' -> s = s'.
Proof. rewrite <- !utf8_decode_spec. congruence. Qed.
