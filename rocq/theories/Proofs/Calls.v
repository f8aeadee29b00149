(** [de] is what serde's visitors make of the calls of [deserialize] (C95). *)
From Coq Require Import ZArith Bool String Lia.
From Coq Require Import List.
Import ListNotations.
From Verif.Model Require Import Text Num Flt Value Convert Serde Deserializer.
From Verif.Spec Require Import Spec Numerals SerdeSpec CallsSpec.
From Verif.Proofs Require Import Basics DeProofs.
Local Open Scope nat_scope.

Lemma drain_seq_eq {A} fuel (f g : value -> mres A) l : List.length l < fuel -> (forall x, In x l -> f x = g x) ->
  drain_seq fuel f l = de_seq g l.
Proof.
  revert fuel. induction l as [|x l IH]; intros [|fuel] L H; cbn in L; try lia; [reflexivity|].
  cbn [drain_seq seq_access_step de_seq]. fold (de_seq g l). rewrite (H x) by (left; reflexivity). rewrite IH; [reflexivity | lia|].
  intros; apply H; right; auto.
Qed.
Lemma take_seq_eq e ts (f g : ty -> value -> mres data) : (forall t, In t ts -> forall x, f t x = g t x) ->
  forall i l, take_seq e i (map f ts) l = de_tuple e i (map g ts) l.
Proof.
  induction ts as [|t ts IH]; intros H i l; [destruct l; reflexivity|].
  cbn [map take_seq]. destruct l as [|x l]; [reflexivity|]. cbn [seq_access_step de_tuple]. rewrite (H t) by (left; reflexivity).
  rewrite IH by (intros; apply H; right; auto). reflexivity.
Qed.
Lemma drain_map_eq {A B} fuel (dek dek' : value -> mres A) (dev : A -> list (A * B) -> value -> mres B) (dev' : value -> mres B) ins m acc :
  List.length m < fuel -> (forall k, dek (VStr k) = dek' (VStr k)) -> (forall k x a s, In (k, x) m -> dev a s x = dev' x) ->
  drain_map fuel dek dev ins m acc = de_map_loop dek' dev' ins m acc.
Proof.
  revert fuel acc. induction m as [|[k x] m IH]; intros [|fuel] acc L Hk Hv; cbn in L; try lia; [reflexivity|].
  cbn [drain_map map_access_step obind fst snd de_map_loop]. rewrite Hk.
  destruct (dek' (VStr k)) as [kd|e|]; cbn [obind]; auto. rewrite (Hv k x) by (left; reflexivity).
  destruct (dev' x) as [d|e|]; cbn [obind]; auto. apply IH; auto; [lia|]. intros; eapply Hv; right; eauto.
Qed.

Lemma depth_arr l x : In x l -> depth x <= pred (depth (VArr l)).
Proof. cbn. induction l as [|y l IH]; cbn; [tauto|]. intros [->|H]; [lia|]. specialize (IH H). lia. Qed.
Lemma depth_map m k x : In (k, x) m -> depth x <= pred (depth (VMap m)).
Proof. cbn. induction m as [|[k' y] m IH]; cbn; [tauto|]. intros [[= -> ->]|H]; [lia|]. specialize (IH H). lia. Qed.
Lemma depth_pos v : 0 < depth v.
Proof. destruct v; cbn; lia. Qed.

Lemma drain_map_done {A B S} fuel (dek : value -> mres A) (dev : A -> S -> value -> mres B) a b (acc : S) m :
  List.length m < fuel -> (forall k x, In (k, x) m -> dek (VStr k) = Done a /\ forall y s, dev y s x = Done b) ->
  drain_map fuel dek dev (fun _ _ u => u) m acc = Done acc.
Proof.
  revert fuel. induction m as [|[k x] m IH]; intros [|fuel] L H; cbn in L; try lia; [reflexivity|].
  cbn [drain_map map_access_step obind fst snd]. destruct (H k x (or_introl eq_refl)) as [-> E]. cbn [obind]. rewrite E. cbn [obind].
  apply IH; [lia|]. intros; apply H; right; auto.
Qed.

Lemma ignore_done v : forall fuel, depth v <= fuel -> obind (deserialize HIgnoredAny v) (ignore_call fuel) = Done tt.
Proof.
  induction v as [v S|l IH|m IH] using value_ind'; intros fuel D; pose proof (depth_pos v) as P || idtac.
  - destruct fuel as [|fuel]; [lia|]. destruct v; cbn in S; try tauto; reflexivity.
  - destruct fuel as [|fuel]; [cbn in D; lia|]. cbn [deserialize deserialize_any obind ignore_call].
    rewrite (drain_seq_eq _ _ (fun _ => Done tt)); [| lia|].
    + assert (E : de_seq (fun _ : value => @Done unit model_error tt) l = Done (map (fun _ => tt) l)).
      { apply de_seq_done. clear. induction l; constructor; auto. }
      now rewrite E.
    + intros x H. apply IH; auto. pose proof (depth_arr l x H). lia.
  - destruct fuel as [|fuel]; [cbn in D; lia|]. cbn [deserialize deserialize_any obind ignore_call].
    apply (drain_map_done _ _ _ tt tt); [lia|]. intros k x H. pose proof (depth_map m k x H). pose proof (depth_pos x). split.
    + destruct fuel; [lia | reflexivity].
    + intros. apply (IH k x H). lia.
Qed.

Lemma value_calls_eq v : forall fuel, depth v <= fuel -> obind (deserialize HAny v) (value_of_call fuel) = de_value v.
Proof.
  induction v as [v S|l IH|m IH] using value_ind'; intros fuel D.
  - pose proof (depth_pos v). destruct fuel as [|fuel]; [lia|]. destruct v; cbn in S; try tauto; reflexivity.
  - destruct fuel as [|fuel]; [cbn in D; lia|]. cbn [deserialize deserialize_any obind value_of_call de_value].
    rewrite (drain_seq_eq _ _ de_value); [reflexivity | lia|]. intros x H. apply IH; auto. pose proof (depth_arr l x H). lia.
  - destruct fuel as [|fuel]; [cbn in D; lia|]. cbn [deserialize deserialize_any obind value_of_call de_value].
    rewrite (drain_map_eq _ _ (fun k => of_result (into_string k)) _ de_value); [reflexivity | lia | reflexivity|].
    intros k x _ _ H. apply (IH k x H). pose proof (depth_map m k x H). lia.
Qed.

Lemma struct_calls_eq fs m : forall fuel acc, List.length m < fuel ->
  drain_map fuel (fun k => obind (deserialize HIdentifier k) string_of_call) (struct_entry fs) fill_slot m acc = struct_loop fs m acc.
Proof.
  induction m as [|[k x] m IH]; intros [|fuel] acc L; cbn in L; try lia; [reflexivity|].
  cbn [drain_map map_access_step obind fst snd]. rewrite struct_loop_step.
  change (obind (deserialize HIdentifier (VStr k)) string_of_call) with (@Done str model_error k). cbn [obind].
  unfold struct_entry. destruct (find_field k fs) as [f|].
  - destruct (mget k acc); [reflexivity|]. destruct (fs_de f x) as [d|e|]; cbn [obind fill_slot]; auto. apply IH. lia.
  - rewrite ignore_done by lia. cbn [obind fill_slot]. apply IH. lia.
Qed.

Lemma find_field_map (d1 d2 : ty -> value -> mres data) fs : (forall n t, In (n, t) fs -> forall x, d1 t x = d2 t x) ->
  forall k, match find_field k (map (fun p => {| fs_name := fst p; fs_optional := is_option (snd p); fs_de := d1 (snd p) |}) fs),
                  find_field k (map (fun p => {| fs_name := fst p; fs_optional := is_option (snd p); fs_de := d2 (snd p) |}) fs) with
            | Some f, Some g => forall x, fs_de f x = fs_de g x
            | None, None => True
            | _, _ => False
            end.
Proof.
  induction fs as [|[n t] fs IH]; intros H k; cbn [map find_field fs_name fst snd]; auto.
  destruct (str_eqb k n); cbn [fs_de]; [apply (H n t); left; reflexivity|]. apply IH. intros; eapply H; right; eauto.
Qed.
Lemma struct_loop_ext fs gs : (forall k, match find_field k fs, find_field k gs with
    Some f, Some g => forall x, fs_de f x = fs_de g x | None, None => True | _, _ => False end) ->
  forall m acc, struct_loop fs m acc = struct_loop gs m acc.
Proof.
  intros H m. induction m as [|[k x] m IH]; intros acc; [reflexivity|]. rewrite !struct_loop_step. specialize (H k).
  destruct (find_field k fs) as [f|], (find_field k gs) as [g|]; try contradiction; auto.
  destruct (mget k acc); auto. rewrite H. destruct (fs_de g x); auto; apply IH.
Qed.
Lemma collect_ext (d1 d2 : ty -> value -> mres data) fs slots :
  collect_fields (map (fun p => {| fs_name := fst p; fs_optional := is_option (snd p); fs_de := d1 (snd p) |}) fs) slots =
  collect_fields (map (fun p => {| fs_name := fst p; fs_optional := is_option (snd p); fs_de := d2 (snd p) |}) fs) slots.
Proof. induction fs as [|[n t] fs IH]; [reflexivity|]. cbn [map collect_fields fs_name fs_optional fst snd]. now rewrite IH. Qed.

Lemma de_calls_eq t : forall v, de_calls t v = de t v.
Proof.
  induction t as [|i| | | | | | |t IH|t IH|ts IH|tk tv IHk IHv|fs IH|t IH|n ts IH| | |] using ty_ind'; intros v; cbn [de_calls hint_of de].
  - cbn [deserialize]. destruct (into_bool v); reflexivity.
  - destruct i; cbn [deserialize de_int]; try reflexivity; destruct (into_int _ v); reflexivity.
  - cbn [deserialize]. destruct (into_f64 v); reflexivity.
  - cbn [deserialize]. destruct (into_f64 v); reflexivity.
  - cbn [deserialize]. destruct (into_char v); reflexivity.
  - cbn [deserialize]. destruct (into_string v); reflexivity.
  - reflexivity.
  - destruct v; reflexivity.
  - cbn [deserialize obind]. destruct v; try reflexivity; now rewrite IH.
  - destruct v; try reflexivity. cbn [deserialize deserialize_seq obind]. rewrite (drain_seq_eq _ _ (de t)); [reflexivity | lia | auto].
  - destruct v; try reflexivity. cbn [deserialize deserialize_seq obind]. rewrite (take_seq_eq _ ts de_calls de); auto.
  - destruct v; try reflexivity. cbn [deserialize deserialize_map obind].
    rewrite (drain_map_eq _ _ (de tk) _ (de tv)); [reflexivity | lia | auto | auto].
  - destruct v as [| | | | | | | | |m]; try reflexivity. cbn [deserialize deserialize_map obind]. rewrite struct_calls_eq by lia.
    unfold de_struct. rewrite (struct_loop_ext _ _ (find_field_map de_calls de fs IH)).
    change (de_struct_loop ?fs m) with (struct_loop fs m []). destruct (struct_loop _ m []); cbn [obind]; auto.
    now rewrite (collect_ext de_calls de).
  - cbn [deserialize obind]. now rewrite IH.
  - destruct v; try reflexivity. cbn [deserialize deserialize_seq obind]. rewrite (take_seq_eq _ ts de_calls de); auto.
  - destruct v; reflexivity.
  - reflexivity.
  - pose proof (value_calls_eq v (S (depth v)) ltac:(lia)) as E. cbn [deserialize obind] in *. now rewrite E.
Qed.

(** ** The sequence handed to a visitor *)
Lemma seq_access_skip cs : forall l rs l', seq_access_run l cs = (rs, l') ->
  l' = skipn (elements_asked cs) l /\ List.length rs = List.length cs /\
  forall i c, nth_error cs i = Some c ->
    nth_error rs i = Some match c with
      | NextElement => RElement (nth_error l (elements_asked (firstn i cs)))
      | SizeHint => RSize (Some (List.length l - elements_asked (firstn i cs)))
      end.
Proof.
  induction cs as [|c cs IH]; intros l rs l' H.
  - injection H as <- <-. split; [reflexivity|]. split; [reflexivity|]. intros [|i] c; discriminate.
  - cbn [seq_access_run] in H. destruct (seq_access_step l c) as [r l1] eqn:Es. destruct (seq_access_run l1 cs) as [rs1 l2] eqn:Er.
    injection H as <- <-. destruct (IH _ _ _ Er) as (E1 & E2 & E3).
    assert (Sk : l1 = skipn (elements_asked [c]) l) by (destruct c; [destruct l|]; injection Es as <- <-; reflexivity).
    assert (SkN : forall j, skipn j l1 = skipn (elements_asked [c] + j) l).
    { intros j. rewrite Sk. destruct c; cbn; [destruct l; [now rewrite skipn_nil | reflexivity] | reflexivity]. }
    assert (Ea : forall cs', elements_asked (c :: cs') = elements_asked [c] + elements_asked cs') by (intros; destruct c; reflexivity).
    split; [rewrite Ea, <- SkN; auto|]. split; [cbn; auto|].
    intros [|i] c' Hc.
    + injection Hc as <-. cbn [firstn elements_asked nth_error]. destruct c; [destruct l|]; injection Es as <- <-; cbn; try reflexivity. now rewrite Nat.sub_0_r.
    + cbn [nth_error] in Hc |- *. rewrite (E3 i c' Hc). cbn [firstn]. rewrite Ea. f_equal. destruct c'.
      * f_equal. rewrite Sk. destruct c; cbn; [destruct l; [now destruct (elements_asked (firstn i cs)) | reflexivity] | reflexivity].
      * do 2 f_equal. rewrite Sk, skipn_length. lia.
Qed.

(** ** The table of calls *)
Lemma as_it_is_iff v c : deserialize_any v = c <-> as_it_is v c.
Proof. split; [intros <-; destruct v; constructor | intros []; reflexivity]. Qed.
Lemma converted_done {A} (r : result A model_error) call c : converted r call = Done c <-> exists a, r = Ok a /\ c = call a.
Proof.
  destruct r; cbn; split; try discriminate.
  - intros [= <-]. eauto.
  - intros (b & [= <-] & ->). reflexivity.
  - intros (b & [=] & _).
Qed.
Lemma converted_fail {A} (r : result A model_error) call e : converted r call = Fail e <-> r = Err e.
Proof. destruct r; cbn; split; congruence. Qed.

Lemma handed_iff h v c : deserialize h v = Done c <-> handed h v c.
Proof.
  split.
  - intros H. assert (Is : forall P : Prop, P -> P) by auto.
    destruct h as [| |t| | | | | | | | | | | | | | | | | | |]; try discriminate H.
    + constructor. apply as_it_is_iff. now injection H.
    + apply converted_done in H. destruct H as (a & E & ->). now constructor.
    + destruct t; try discriminate H; apply converted_done in H; destruct H as (a & E & ->); constructor; auto.
    + apply converted_done in H. destruct H as (a & E & ->). now constructor.
    + apply converted_done in H. destruct H as (a & E & ->). now constructor.
    + apply converted_done in H. destruct H as (a & E & ->). now constructor.
    + apply converted_done in H. destruct H as (a & E & ->). now constructor.
    + apply converted_done in H. destruct H as (a & E & ->). now constructor.
    + injection H as <-. destruct v; constructor; discriminate.
    + destruct v; try discriminate H. injection H as <-. apply HaUnit. left; reflexivity.
    + destruct v; try discriminate H. injection H as <-. apply HaUnit. right; reflexivity.
    + injection H as <-. constructor.
    + destruct v; try discriminate H. injection H as <-. apply HaSeq. left; reflexivity.
    + destruct v; try discriminate H. injection H as <-. apply HaSeq. right; left; reflexivity.
    + destruct v; try discriminate H. injection H as <-. apply HaSeq. right; right; reflexivity.
    + destruct v; try discriminate H. injection H as <-. apply HaMap. left; reflexivity.
    + destruct v; try discriminate H. injection H as <-. apply HaMap. right; reflexivity.
    + apply converted_done in H. destruct H as (a & E & ->). now constructor.
    + constructor. apply as_it_is_iff. now injection H.
  - intros H. destruct H as [v c H|v c H|v b H|t v z N H|v f H|v f H|v c H|v s H|v s H|v s H| |v N|v|h W|h l W|h m W]; cbn [deserialize].
    + apply as_it_is_iff in H. now rewrite H.
    + apply as_it_is_iff in H. now rewrite H.
    + now rewrite H.
    + assert (E : deserialize (HInt t) v = converted (into_int t v) (CInt t)) by (destruct t; try reflexivity; exfalso; apply N; exact I).
      cbn [deserialize] in E. rewrite E, H. reflexivity.
    + now rewrite H.
    + now rewrite H.
    + now rewrite H.
    + unfold deserialize_str. now rewrite H.
    + now rewrite H.
    + unfold deserialize_str. now rewrite H.
    + reflexivity.
    + destruct v; congruence.
    + reflexivity.
    + destruct W as [->| ->]; reflexivity.
    + destruct W as [->|[->| ->]]; reflexivity.
    + destruct W as [->| ->]; reflexivity.
Qed.

Lemma kind_fail_text {A} v to e : @de_kind_fail A v to = Fail e ->
  e = EDeserialization (lit "Can't deserialize " ++ v_display v ++ lit " to " ++ to).
Proof. unfold de_kind_fail, de_fail. generalize (lit "Can't deserialize " ++ v_display v ++ lit " to " ++ to). intros m. congruence. Qed.
Lemma unit_fail v e : deserialize_unit v = Fail e -> v <> VNone /\ de_kind_fail (A := unit) v (lit "None") = Fail e.
Proof. unfold deserialize_unit. destruct v; unfold de_kind_fail, de_fail; generalize (lit "None"); intros; discriminate || (split; congruence). Qed.
Lemma seq_fail v e : deserialize_seq v = Fail e -> ~ arrayv v /\ de_kind_fail (A := unit) v (lit "Array") = Fail e.
Proof. unfold deserialize_seq. destruct v; unfold de_kind_fail, de_fail; generalize (lit "Array"); intros; discriminate || (split; [intros [? ?]; congruence | congruence]). Qed.
Lemma map_fail v e : deserialize_map v = Fail e -> ~ mapv v /\ de_kind_fail (A := unit) v (lit "Map") = Fail e.
Proof. unfold deserialize_map. destruct v; unfold de_kind_fail, de_fail; generalize (lit "Map"); intros; discriminate || (split; [intros [? ?]; congruence | congruence]). Qed.

Lemma hint_refused_iff h v e : deserialize h v = Fail e <-> hint_refused h v e.
Proof.
  split.
  - intros H. destruct h as [| |t| | | | | | | | | | | | | | | | | | |]; try discriminate H.
    + apply converted_fail in H. now constructor.
    + destruct t; try (apply converted_fail in H; constructor; auto);
        injection H as <-; [apply (HrWide I128) | apply (HrWide U128)]; exact I.
    + apply converted_fail in H. now constructor.
    + apply converted_fail in H. now constructor.
    + apply converted_fail in H. now constructor.
    + apply converted_fail in H. apply HrText; auto.
    + apply converted_fail in H. apply HrText; auto.
    + apply unit_fail in H. destruct H as [N ->%kind_fail_text]. apply HrKind; left; split; [left; reflexivity|]. split; [exact N | reflexivity].
    + apply unit_fail in H. destruct H as [N ->%kind_fail_text]. apply HrKind; left; split; [right; reflexivity|]. split; [exact N | reflexivity].
    + apply seq_fail in H. destruct H as [N ->%kind_fail_text]. apply HrKind; right; left; split; [left; reflexivity|]. split; [exact N | reflexivity].
    + apply seq_fail in H. destruct H as [N ->%kind_fail_text]. apply HrKind; right; left; split; [right; left; reflexivity|]. split; [exact N | reflexivity].
    + apply seq_fail in H. destruct H as [N ->%kind_fail_text]. apply HrKind; right; left; split; [right; right; reflexivity|]. split; [exact N | reflexivity].
    + apply map_fail in H. destruct H as [N ->%kind_fail_text]. apply HrKind; right; right; split; [left; reflexivity|]. split; [exact N | reflexivity].
    + apply map_fail in H. destruct H as [N ->%kind_fail_text]. apply HrKind; right; right; split; [right; reflexivity|]. split; [exact N | reflexivity].
    + apply converted_fail in H. apply HrText; auto.
  - intros H. destruct H as [v e H|t v e N H|t v W|v e H|v e H|v e H|h v e W H|h v kind W].
    + cbn [deserialize]. now rewrite H.
    + assert (E : deserialize (HInt t) v = converted (into_int t v) (CInt t)) by (destruct t; try reflexivity; exfalso; apply N; exact I).
      rewrite E, H. reflexivity.
    + destruct t; destruct W; reflexivity.
    + cbn [deserialize]. now rewrite H.
    + cbn [deserialize]. now rewrite H.
    + cbn [deserialize]. now rewrite H.
    + destruct W as [->|[->| ->]]; cbn [deserialize]; unfold deserialize_str; now rewrite H.
    + destruct W as [([->| ->] & N & ->)|[([->|[->| ->]] & N & ->)|([->| ->] & N & ->)]]; destruct v; try reflexivity; try congruence; exfalso; apply N; eexists; reflexivity.
Qed.

Lemma unsupported_iff h v : deserialize h v = Panic <-> unsupported h.
Proof.
  split.
  - destruct h as [| |t| | | | | | | | | | | | | | | | | | |]; cbn [deserialize]; unfold deserialize_str, converted; intros H;
      try discriminate H; try (left; reflexivity); try (right; left; reflexivity); try (right; right; reflexivity); exfalso;
      try (destruct v; discriminate H);
      try (destruct (into_bool v); discriminate H); try (destruct (into_f64 v); discriminate H); try (destruct (into_char v); discriminate H);
      try (destruct (into_string v); discriminate H).
    destruct t; try discriminate H; destruct (into_int _ v); discriminate H.
  - intros [->|[->| ->]]; reflexivity.
Qed.

Lemma expects_ok t v c : deserialize (hint_of t) v = Done c -> expects t c.
Proof.
  rewrite handed_iff. destruct t; cbn [hint_of]; intros H; inversion H; subst;
    repeat match goal with
    | W : wants_none _ |- _ => destruct W; discriminate
    | W : wants_array _ |- _ => destruct W as [?|[?|?]]; try discriminate; clear W
    | W : wants_map _ |- _ => destruct W; try discriminate; clear W
    end; try (econstructor; eassumption); try constructor; try (unfold wants_none, wants_array, wants_map in *; intuition discriminate).
Qed.
