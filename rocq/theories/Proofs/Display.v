(** Wrappers used by Properties/P01_Containers.v. *)
From Coq Require Import ZArith List Bool Lia String.
Import ListNotations.
From Verif.Model Require Import Text Num Flt Value Convert.
From Verif.Spec Require Import Spec Containers.
From Verif.Proofs Require Import Basics Containers.

Lemma nth_error_seq_map {A} (l : list A) : map (nth_error l) (seq 0 (List.length l)) = map Some l.
Proof.
  induction l as [|a l IH]; cbn; [auto|].
  f_equal. rewrite <- seq_shift, map_map. exact IH.
Qed.

Lemma push_history_new h v rs : push_calls new_array h = (v, rs) ->
  v = VArr h /\ v_len v = List.length h
  /\ (forall i x, nth_error h i = Some x -> v_at v i = x)
  /\ (forall i, (List.length h <= i)%nat -> v_at v i = VNone)
  /\ (forall extra, next_calls (v_iter v) (List.length h + extra) = map Some h ++ repeat None extra).
Proof.
  intros E. pose proof E as E0. unfold new_array in E0; rewrite push_calls_arr in E0; injection E0 as <- _.
  destruct (push_history [] h _ _ E) as (_ & _ & A & B & C & D). cbn in A, B, C, D.
  split; [auto|]. split; [auto|]. split; [auto|]. split; [auto|].
  intros extra. rewrite D, seq_app, map_app, nth_error_seq_map. f_equal.
  cbn [plus]. assert (H : (List.length h <= List.length h)%nat) by lia. revert H.
  generalize (List.length h) at 2 3. induction extra as [|e IH]; intros n Hn; cbn; [auto|].
  rewrite (proj2 (nth_error_None h n)) by auto. f_equal. apply IH; lia.
Qed.

Lemma wrong_kind v k x i n :
  (~ mapv v -> v_set v k x = (v, Err EMapOnly) /\ v_get v k = VNone)
  /\ (~ arrayv v -> v_push v x = (v, Err EArrayOnly) /\ v_at v i = VNone
                    /\ next_calls (v_iter v) n = repeat None n)
  /\ (scalarv v -> v_len v = match v with
                             | VStr s => List.length (utf8_encode s)
                             | _ => 0%nat
                             end).
Proof.
  split; [|split].
  - intros N; split; [now apply set_nonmap | now apply get_nonmap].
  - intros N; split; [now apply push_nonarray | split; [now apply at_nonarray | now apply next_calls_other]].
  - apply len_scalar.
Qed.

Lemma v_eqb_rust_eq_wf a b : wf a -> wf b -> (v_eqb a b = true <-> rust_eq a b).
Proof. intros; apply v_eqb_rust_eq; now apply wf_uniq. Qed.
Lemma v_eqb_sym_wf a b : wf a -> wf b -> v_eqb a b = v_eqb b a.
Proof. intros; apply v_eqb_sym; now apply wf_uniq. Qed.
Lemma v_eqb_trans_wf a b c : wf a -> wf b -> wf c ->
  v_eqb a b = true -> v_eqb b c = true -> v_eqb a c = true.
Proof. intros ? ? ?; apply v_eqb_trans; now apply wf_uniq. Qed.
Lemma v_eqb_vequiv_wf a a' b b' :
  wf a -> wf a' -> wf b -> wf b' -> vequiv a a' -> vequiv b b' -> v_eqb a b = v_eqb a' b'.
Proof. intros ? ? ? ?; apply v_eqb_vequiv; now apply wf_uniq. Qed.
Lemma v_eqb_refl_nan_wf v : wf v -> (v_eqb v v = true <-> ~ has_nan v).
Proof. intros; apply v_eqb_refl_nan; now apply wf_uniq. Qed.
Lemma numeric_kinds_differ x y :
  v_eqb (VInt x) (VUInt y) = false /\ v_eqb (VInt x) (VLong y) = false
  /\ v_eqb (VUInt x) (VULong y) = false /\ v_eqb (VLong x) (VULong y) = false
  /\ (forall f, v_eqb (VInt x) (VFloat f) = false) /\ (forall s, v_eqb (VInt x) (VStr s) = false).
Proof. repeat split. Qed.
Lemma nested_get v p : wf v ->
  (forall x, at_path v p x -> get_path v p = x)
  /\ ((forall x, ~ at_path v p x) -> get_path v p = VNone).
Proof. intros W%wf_uniq; split; intros; [now apply get_path_at | now apply get_path_nothing]. Qed.

Lemma display_scalar v : scalarv v -> v <> VNone -> into_string v = Ok (v_display v).
Proof. destruct v; cbn; tauto. Qed.
Lemma display_containers :
  v_display VNone = lit "none"
  /\ (forall l, exists body, v_display (VArr l) = lit "[" ++ body ++ lit "]"
        /\ separated (lit ", ") (map v_display l) body)
  /\ (forall m, exists body, v_display (VMap m) = lit "{" ++ body ++ lit "}"
        /\ separated (lit ", ") (map (fun e => fst e ++ lit ": " ++ v_display (snd e)) m) body).
Proof.
  split; [reflexivity|]. split; intros; eexists; (split; [reflexivity | apply join_separated]).
Qed.
Lemma display_str_bool :
  (forall s, v_display (VStr s) = s)
  /\ v_display (VBool true) = lit "true" /\ v_display (VBool false) = lit "false".
Proof. auto. Qed.
