(** Recursive types (C91). *)
From Coq Require Import ZArith Bool String Lia List.
Import ListNotations.
From Verif.Model Require Import Text Num Flt Value Convert Serde.
From Verif.Spec Require Import Spec SerdeSpec RecSpec.
From Verif.Proofs Require Import Basics SerProofs DeProofs SerdeMore RoundTrip.
Local Open Scope nat_scope.

(** ** Depth *)
Lemma list_max_in x l : In x l -> x <= list_max l.
Proof. induction l as [|a l IH]; [intros []|]. cbn. intros [->|H]; [lia|]. specialize (IH H). unfold list_max in IH. lia. Qed.
Lemma depth_arr l x : In x l -> depth x < depth (VArr l).
Proof. intros H. cbn [depth]. apply Nat.lt_succ_r. apply list_max_in. now apply in_map. Qed.
Lemma depth_map m k x : In (k, x) m -> depth x < depth (VMap m).
Proof.
  intros H. cbn [depth]. apply Nat.lt_succ_r. apply list_max_in.
  exact (in_map (fun e : str * value => depth (snd e)) _ _ H).
Qed.

(** ** The access loops depend only on what is converted *)
Lemma de_seq_ext {A} (f g : value -> mres A) l : (forall x, In x l -> f x = g x) -> de_seq f l = de_seq g l.
Proof.
  induction l as [|x l IH]; intros H; cbn; [reflexivity|]. fold (de_seq f l); fold (de_seq g l).
  rewrite (H x (or_introl eq_refl)), IH; [reflexivity|]. intros; apply H; cbn; auto.
Qed.
Lemma de_tuple_ext (F G : ty -> value -> mres data) {A} (a b : A -> ty) expecting l : forall rs i,
  (forall r x, In r rs -> In x l -> F (a r) x = G (b r) x) ->
  de_tuple expecting i (map (fun t => F t) (map a rs)) l = de_tuple expecting i (map (fun t => G t) (map b rs)) l.
Proof.
  induction l as [|x l IH]; intros rs i H; destruct rs as [|r rs]; cbn; try reflexivity.
  rewrite (H r x) by (cbn; auto). destruct (G (b r) x); cbn; try reflexivity. rewrite IH; [reflexivity|].
  intros; apply H; cbn; auto.
Qed.
Lemma de_map_ext {A B} (dek : value -> mres A) (f g : value -> mres B) ins m :
  (forall k x, In (k, x) m -> f x = g x) -> de_map dek f ins m = de_map dek g ins m.
Proof.
  intros H. change (de_map_loop dek f ins m [] = de_map_loop dek g ins m []). generalize (@nil (A * B)) as acc.
  induction m as [|[k x] m IH]; intros acc; cbn; [reflexivity|]. fold (de_map_loop dek f ins); fold (de_map_loop dek g ins).
  rewrite (H k x (or_introl eq_refl)). destruct (dek (VStr k)); cbn; try reflexivity. destruct (g x); cbn; try reflexivity.
  apply IH. intros; eapply H; cbn; eauto.
Qed.

Section Slots.
Context {A : Type} (name : A -> str) (opt1 opt2 : A -> bool) (d1 d2 : A -> value -> mres data).
Definition slot1 (a : A) := {| fs_name := name a; fs_optional := opt1 a; fs_de := d1 a |}.
Definition slot2 (a : A) := {| fs_name := name a; fs_optional := opt2 a; fs_de := d2 a |}.
Lemma find_slot k fs :
  match find_field k (map slot1 fs), find_field k (map slot2 fs) with
  | Some f, Some g => exists a, In a fs /\ f = slot1 a /\ g = slot2 a
  | None, None => True
  | _, _ => False
  end.
Proof.
  induction fs as [|a fs IH]; cbn; [exact I|]. destruct (str_eqb k (name a)).
  - exists a; cbn; auto.
  - destruct (find_field k (map slot1 fs)), (find_field k (map slot2 fs)); auto. destruct IH as (b & Hb & E); eauto.
Qed.
Lemma struct_ext fs m : (forall a k x, In a fs -> In (k, x) m -> d1 a x = d2 a x) -> (forall a, In a fs -> opt1 a = opt2 a) ->
  de_struct (map slot1 fs) m = de_struct (map slot2 fs) m.
Proof.
  intros H O. unfold de_struct.
  assert (L : de_struct_loop (map slot1 fs) m = de_struct_loop (map slot2 fs) m).
  { change (struct_loop (map slot1 fs) m [] = struct_loop (map slot2 fs) m []). generalize (@nil (str * data)) as acc.
    induction m as [|[k x] m IH]; intros acc; [reflexivity|]. rewrite !struct_loop_step.
    pose proof (find_slot k fs) as FS. destruct (find_field k (map slot1 fs)), (find_field k (map slot2 fs)); try tauto.
    - destruct FS as (a & Ha & -> & ->). destruct (mget k acc); [reflexivity|]. cbn [fs_de slot1 slot2].
      rewrite (H a k x Ha (or_introl eq_refl)). destruct (d2 a x); cbn [obind]; try reflexivity. apply IH. intros; eapply H; cbn; eauto.
    - apply IH. intros; eapply H; cbn; eauto. }
  rewrite L. destruct (de_struct_loop (map slot2 fs) m) as [slots| |]; cbn [obind]; try reflexivity.
  assert (C : collect_fields (map slot1 fs) slots = collect_fields (map slot2 fs) slots).
  { clear L H. induction fs as [|a fs IH]; cbn; [reflexivity|]. rewrite (O a (or_introl eq_refl)), IH; [reflexivity|].
    intros; apply O; cbn; auto. }
  rewrite C. reflexivity.
Qed.
End Slots.

(** ** Induction on type expressions *)
Section RtyInd.
Context (P : rty -> Prop) (Hself : P RSelf) (Hbase : forall t, P (RBase t)) (Hopt : forall r, P r -> P (ROption r))
  (Hseq : forall r, P r -> P (RSeq r)) (Htup : forall rs, (forall r, In r rs -> P r) -> P (RTuple rs))
  (Hmap : forall k r, P r -> P (RMap k r)) (Hstruct : forall fs, (forall n r, In (n, r) fs -> P r) -> P (RStruct fs))
  (Hnew : forall r, P r -> P (RNewtype r)) (Hts : forall n rs, (forall r, In r rs -> P r) -> P (RTupleStruct n rs)).
Fixpoint rty_ind' (r : rty) : P r.
Proof.
  destruct r as [|t|r|r|rs|k r|fs|r|n rs].
  - apply Hself.
  - apply Hbase.
  - apply Hopt, rty_ind'.
  - apply Hseq, rty_ind'.
  - apply Htup. induction rs as [|a rs IH]; intros x H; [destruct H|]. destruct H as [<-|H]; [apply rty_ind' | apply IH, H].
  - apply Hmap, rty_ind'.
  - apply Hstruct. induction fs as [|[k a] fs IH]; intros n x H; [destruct H|].
    destruct H as [E|H]; [exact (eq_ind a P (rty_ind' a) x (f_equal snd E)) | apply (IH n x H)].
  - apply Hnew, rty_ind'.
  - apply Hts. induction rs as [|a rs IH]; intros x H; [destruct H|]. destruct H as [<-|H]; [apply rty_ind' | apply IH, H].
Defined.
End RtyInd.

(** ** Filling in types that agree on small Values *)
Section Agree.
Context (t t' : ty).
Definition agree_below (n : nat) : Prop := forall w, depth w < n -> de t w = de t' w.

Lemma fill_option r : is_option t = is_option t' -> is_option (fill t r) = is_option (fill t' r).
Proof. intros O. destruct r; cbn; auto. Qed.

Lemma fill_agree r : is_option t = is_option t' -> forall n, agree_below n -> forall v, depth v < n ->
  de (fill t r) v = de (fill t' r) v.
Proof.
  intros O. induction r as [|b|r IH|r IH|rs IH|k r IH|fs IH|r IH|nm rs IH] using rty_ind'; intros n Ag v Dv; cbn [fill de].
  - auto.
  - reflexivity.
  - destruct v; try reflexivity; now rewrite (IH n).
  - destruct v; try reflexivity. rewrite (de_seq_ext (de (fill t r)) (de (fill t' r))); [reflexivity|].
    intros x Hx. apply (IH n); auto. pose proof (depth_arr _ _ Hx). lia.
  - destruct v; try reflexivity. rewrite !map_length, (de_tuple_ext de de (fill t) (fill t')); [reflexivity|].
    intros r x Hr Hx. apply (IH r Hr n); auto. pose proof (depth_arr _ _ Hx). lia.
  - destruct v; try reflexivity. rewrite (de_map_ext (de k) (de (fill t r)) (de (fill t' r))); [reflexivity|].
    intros s x Hx. apply (IH n); auto. pose proof (depth_map _ _ _ Hx). lia.
  - destruct v; try reflexivity. rewrite !map_map.
    apply (struct_ext (fun f : str * rty => fst f) (fun f => is_option (fill t (snd f))) (fun f => is_option (fill t' (snd f)))
      (fun f => de (fill t (snd f))) (fun f => de (fill t' (snd f)))).
    + intros [s r] k x Hr Hx. cbn. apply (IH s r Hr n); auto. pose proof (depth_map _ _ _ Hx). lia.
    + intros [s r] _. cbn. now apply fill_option.
  - now rewrite (IH n).
  - destruct v; try reflexivity. rewrite !map_length, (de_tuple_ext de de (fill t) (fill t')); [reflexivity|].
    intros r x Hr Hx. apply (IH r Hr n); auto. pose proof (depth_arr _ _ Hx). lia.
Qed.

Lemma fill_guarded r v : guarded r -> agree_below (depth v) -> (1 <= depth v -> is_option t = is_option t') ->
  de (fill t r) v = de (fill t' r) v.
Proof.
  intros G Ag O. induction G as [b|r G IH|r|rs|k r|fs|r G IH|nm rs]; cbn [fill de].
  - reflexivity.
  - destruct v; try reflexivity; now rewrite IH.
  - destruct v; try reflexivity. rewrite (de_seq_ext (de (fill t r)) (de (fill t' r))); [reflexivity|].
    intros x Hx. apply (fill_agree r (O ltac:(cbn; lia)) _ Ag). now apply depth_arr.
  - destruct v; try reflexivity. rewrite !map_length, (de_tuple_ext de de (fill t) (fill t')); [reflexivity|].
    intros r x Hr Hx. apply (fill_agree r (O ltac:(cbn; lia)) _ Ag). now apply depth_arr.
  - destruct v; try reflexivity. rewrite (de_map_ext (de k) (de (fill t r)) (de (fill t' r))); [reflexivity|].
    intros s x Hx. apply (fill_agree r (O ltac:(cbn; lia)) _ Ag). eapply depth_map; eauto.
  - destruct v; try reflexivity. rewrite !map_map.
    apply (struct_ext (fun f : str * rty => fst f) (fun f => is_option (fill t (snd f))) (fun f => is_option (fill t' (snd f)))
      (fun f => de (fill t (snd f))) (fun f => de (fill t' (snd f)))).
    + intros [s r] k x Hr Hx. cbn. apply (fill_agree r (O ltac:(cbn; lia)) _ Ag). eapply depth_map; eauto.
    + intros [s r] _. cbn. apply fill_option, O. cbn; lia.
  - now rewrite IH.
  - destruct v; try reflexivity. rewrite !map_length, (de_tuple_ext de de (fill t) (fill t')); [reflexivity|].
    intros r x Hr Hx. apply (fill_agree r (O ltac:(cbn; lia)) _ Ag). now apply depth_arr.
Qed.
End Agree.

(** ** C91 *)
Lemma declared_unfold r n e : declared r -> 1 <= n -> is_option (unfold_ty r n e) = false.
Proof. destruct n; [lia|]. destruct r; cbn; tauto. Qed.

Theorem unfold_enough r : declared r -> guarded r -> forall v n m e e', depth v < n -> depth v < m ->
  de (unfold_ty r n e) v = de (unfold_ty r m e') v.
Proof.
  intros D G. assert (S : forall k v, depth v < k -> forall n m e e', depth v < n -> depth v < m ->
    de (unfold_ty r n e) v = de (unfold_ty r m e') v).
  { induction k as [|k IH]; intros v Dk n m e e' Dn Dm; [lia|].
    destruct n as [|n]; [lia|]. destruct m as [|m]; [lia|]. cbn [unfold_ty]. apply fill_guarded; auto.
    - intros w Dw. apply IH; lia.
    - intros D1. rewrite !declared_unfold; auto; lia. }
  intros v. apply (S (Datatypes.S (depth v))). lia.
Qed.

Lemma unfold_more r n k e : unfold_ty r n (unfold_ty r k e) = unfold_ty r (n + k) e.
Proof. induction n as [|n IH]; cbn; [reflexivity | now rewrite IH]. Qed.

Lemma unfold_no_panic r : declared r -> guarded r -> (forall t, no_enum t -> no_enum (fill t r)) ->
  forall v n e, depth v < n -> de (unfold_ty r n e) v <> Panic.
Proof.
  intros D G N v n e Dv. rewrite (unfold_enough r D G v n n e TBool Dv Dv). apply de_no_panic.
  clear Dv. induction n; cbn [unfold_ty]; [constructor | auto].
Qed.

Lemma unfold_survives r : declared r -> guarded r ->
  (forall t, round_trips t -> never_none t -> round_trips (fill t r) /\ never_none (fill t r)) ->
  forall d, recursive_datum r d -> ~ data_wide d ->
  exists v, ser d = Done v /\ forall v', vequiv v v' -> uniq v' -> forall n e, depth v' < n ->
    exists d', de (unfold_ty r n e) v' = Done d' /\ data_equiv d d' .
Proof.
  intros D G R d (n0 & T) W.
  assert (RU : forall n, round_trips (unfold_ty r n TBool) /\ never_none (unfold_ty r n TBool)).
  { induction n as [|n [I1 I2]]; cbn [unfold_ty]; [split; constructor | auto]. }
  destruct (round_trip _ (proj1 (RU n0)) d (T TBool) W) as (v & Sv & _ & _). exists v; split; auto.
  intros v' Ev Uv n e Dv.
  pose proof (T (unfold_ty r n TBool)) as T'. rewrite unfold_more in T'.
  destruct (round_trip _ (proj1 (RU (n0 + n))) d T' W) as (v2 & Sv2 & _ & B). rewrite Sv in Sv2; injection Sv2 as <-.
  destruct (B v' Ev Uv) as (d' & D' & _ & E'). exists d'. split; auto. rewrite <- D'. apply unfold_enough; auto. lia.
Qed.

Lemma bare_or_guarded r : bare r \/ guarded r.
Proof.
  induction r using rty_ind'; try (right; constructor; fail).
  - left; constructor.
  - destruct IHr; [left | right]; now constructor.
  - destruct IHr; [left | right]; now constructor.
Qed.
Lemma bare_fill t r v : bare r -> v <> VNone -> de t v = Panic -> de (fill t r) v = Panic.
Proof.
  intros B N P. induction B as [|r B IH|r B IH]; cbn [fill de]; auto.
  - rewrite IH. destruct v; congruence || reflexivity.
  - now rewrite IH.
Qed.
Lemma bare_never r : bare r -> forall v, v <> VNone -> forall n, de (unfold_ty r n TEnum) v = Panic.
Proof. intros B v N n. induction n; cbn [unfold_ty]; [reflexivity | now apply bare_fill]. Qed.
Lemma bare_fill_done t r v : bare r -> (exists d, de t v = Done d) -> exists d, de (fill t r) v = Done d.
Proof.
  intros B P. induction B as [|r B (d & IH)|r B (d & IH)]; cbn [fill de]; auto.
  - rewrite IH. destruct v; cbn; eauto.
  - rewrite IH. cbn; eauto.
Qed.
Lemma bare_end r : bare r -> forall v, uniq v -> forall n, exists d, de (unfold_ty r n TValue) v = Done d.
Proof.
  intros B v U n. induction n; cbn [unfold_ty]; [|now apply bare_fill_done].
  exists (DValue v). cbn [de]. rewrite de_value_identity by auto. reflexivity.
Qed.
