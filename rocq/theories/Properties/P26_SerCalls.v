(** C97: hand-written [Serialize] implementations: any sequence of calls on the
    map, sequence and struct serialisers, errors possibly ignored. *)
From Coq Require Import ZArith Bool String Lia Permutation.
From Coq Require Import List.
Import ListNotations.
From Verif.Model Require Import Text Num Flt Value Convert Serde SerCalls.
From Verif.Spec Require Import Spec Containers SerCallsSpec.
From Verif.Proofs Require Import Basics Containers SerCallsProofs.
Local Open Scope nat_scope.

(** The map built holds, under each key, the last value written for it. *)
Theorem C97_map_built : forall cs rs v, whole_map cs = (rs, v) -> ~ In RPanic rs ->
  List.length rs = List.length cs /\ mapv v /\
  (exists h, writes cs h) /\
  forall h, writes cs h -> forall k x, holds v k x <-> last_binding h k x.
Proof.
  intros cs rs v E N. unfold whole_map in E. destruct (run_calls smap_step ser_map_new cs) as [rs0 sm] eqn:R. injection E as -> <-.
  destruct (minv_run _ _ _ R N) as [_ (h & W & M)]. rewrite M.
  split; [apply (run_length _ _ _ _ _ R N)|]. split; [apply set_calls_is_map|]. split; [now exists h|].
  intros h' W' k x. rewrite (writes_fun _ _ _ W' W). apply set_calls_holds.
Qed.
Print Assumptions C97_map_built.

(** What each call answers depends on the calls before it as [answer] says. *)
Theorem C97_map_answers : forall before c after rs r,
  ~ In RPanic (fst (whole_map before)) -> fst (whole_map (before ++ c :: after)) = rs ->
  (nth_error rs (List.length before) = Some r <-> answer before c r).
Proof.
  intros before c after rs r. unfold whole_map. destruct (run_calls smap_step ser_map_new before) as [rs0 sm0] eqn:R. cbn [fst].
  intros N. pose proof (minv_run _ _ _ R N) as I. pose proof (run_length _ _ _ _ _ R N) as L.
  rewrite (run_app _ _ _ _ _ _ R N). cbn [run_calls]. destruct (smap_step sm0 c) as [r0 sm1] eqn:Es.
  destruct (smap_step_ok _ _ _ _ _ I Es) as [A _].
  assert (X : exists t sm, (let '(rs', s2) := match r0 with RPanic => ([RPanic], sm1) | _ => let '(rs1, s'') := run_calls smap_step sm1 after in (r0 :: rs1, s'') end in (rs0 ++ rs', s2)) = (rs0 ++ r0 :: t, sm)).
  { destruct r0; [ | | now exists [], sm1]; destruct (run_calls smap_step sm1 after) as [t sm]; now exists t, sm. }
  destruct X as (t & sm & X). replace (match r0 with RPanic => ([RPanic], sm1) | _ => let '(rs, s'') := run_calls smap_step sm1 after in (r0 :: rs, s'') end)
    with (match r0 with RPanic => ([RPanic], sm1) | _ => let '(rs1, s'') := run_calls smap_step sm1 after in (r0 :: rs1, s'') end) by reflexivity.
  rewrite X. cbn [fst]. intros <-. rewrite <- L, nth_error_app2, Nat.sub_diag by lia. cbn [nth_error]. split.
  - intros E; now injection E as <-.
  - intros B. f_equal. now apply (answer_fun before c).
Qed.
Print Assumptions C97_map_answers.

(** A panic ends the run. *)
Theorem C97_map_panic_is_final : forall cs more, In RPanic (fst (whole_map cs)) -> whole_map (cs ++ more) = whole_map cs.
Proof.
  intros cs more. unfold whole_map. intros H. rewrite run_panic; [reflexivity|]. now destruct (run_calls smap_step ser_map_new cs).
Qed.
Print Assumptions C97_map_panic_is_final.

(** Keys and values given in pairs, all accepted: what every derived or standard
    implementation does, and what the serialisation of maps (C13, C14) does. *)
Theorem C97_pairs : forall (A : Type) (key val : A -> mres value) (l : list A) v,
  ser_map_entries key val l = Done v <->
  whole_map (flat_map (fun e => [SKey (key e); SValue (val e)]) l) = (repeat ROk (2 * List.length l), v).
Proof. intros A key val l v. apply entries_standard. Qed.
Print Assumptions C97_pairs.

(** Keys without values leave nothing behind. *)
Theorem C97_keys_alone : forall cs rs v, whole_map cs = (rs, v) -> ~ In RPanic rs ->
  (forall c, In c cs -> exists arg, c = SKey arg) -> forall k, lacks v k.
Proof.
  intros cs rs v E N H k x. destruct (C97_map_built cs rs v E N) as (_ & _ & _ & B).
  assert (W : writes cs []).
  { clear -H. induction cs as [|c cs IH] using rev_ind; [constructor|]. apply WrOther.
    - apply IH. intros d Hd; apply H, in_or_app; now left.
    - intros x ->. destruct (H (SValue (Done x))) as [? ?]; [apply in_or_app; right; now left | discriminate]. }
  rewrite (B [] W). intros (b & a & E' & _). destruct b; discriminate.
Qed.
Print Assumptions C97_keys_alone.

(** A key that cannot be a string, ignored, leaves the earlier key in place: the
    value is written under the earlier key. *)
Theorem C97_value_under_the_earlier_key : forall k e bad x,
  obind bad (fun v => of_result (into_string v)) = Fail e ->
  whole_map [SKey (Done (VStr k)); SKey bad; SValue (Done x)] = ([ROk; RErr e; ROk], VMap [(k, x)]).
Proof. intros k e bad x E. unfold whole_map. cbn [run_calls smap_step]. cbn [obind into_string of_result]. rewrite E. reflexivity. Qed.
Print Assumptions C97_value_under_the_earlier_key.

(** ** Sequences, tuples and tuple structs *)
Theorem C97_sequence_built : forall value_size len cs,
  ((match len with Some n => n | None => 0 end) * value_size <= 2 ^ 63 - 1)%Z -> ~ In Panic cs ->
  exists xs, successes cs xs /\ whole_seq value_size len cs = Done (map same_answer cs, VArr xs).
Proof.
  intros size len cs H N. destruct (successes_exist cs N) as [xs S]. exists xs. split; [exact S|].
  unfold whole_seq, open_seq, with_array_capacity. rewrite (proj2 (Z.leb_le _ _) H). cbn [obind]. unfold new_array. now rewrite (seq_run [] cs xs S).
Qed.
Print Assumptions C97_sequence_built.

(** Only the announced length can make the opening panic. *)
Theorem C97_announced_length : forall value_size len cs,
  whole_seq value_size len cs = Panic <-> exists n, len = Some n /\ (n * value_size > 2 ^ 63 - 1)%Z.
Proof.
  intros size len cs. unfold whole_seq, open_seq, with_array_capacity. destruct (Z.leb_spec ((match len with Some n => n | None => 0 end) * size) (2 ^ 63 - 1)) as [H|H]; cbn [obind].
  - split; [discriminate|]. intros (n & -> & G). lia.
  - split; [|reflexivity]. intros _. destruct len as [n|]; [exists n; split; [reflexivity | lia]|]. exfalso. rewrite Z.mul_0_l in H. change (2 ^ 63 - 1)%Z with 9223372036854775807%Z in H. lia.
Qed.
Print Assumptions C97_announced_length.

(** Any other announced length changes nothing. *)
Theorem C97_announced_length_irrelevant : forall value_size len len' cs,
  whole_seq value_size len cs <> Panic -> whole_seq value_size len' cs <> Panic ->
  whole_seq value_size len cs = whole_seq value_size len' cs.
Proof.
  intros size len len' cs. unfold whole_seq, open_seq, with_array_capacity. destruct (_ <=? _)%Z; [|now cbn].
  destruct (_ <=? _)%Z; [reflexivity | now cbn].
Qed.
Print Assumptions C97_announced_length_irrelevant.

Theorem C97_sequence_panic : forall value_size len before xs after,
  ((match len with Some n => n | None => 0 end) * value_size <= 2 ^ 63 - 1)%Z -> successes before xs ->
  whole_seq value_size len (before ++ Panic :: after) = Done (map same_answer before ++ [RPanic], VArr xs).
Proof.
  intros size len before xs after H S. unfold whole_seq, open_seq, with_array_capacity. rewrite (proj2 (Z.leb_le _ _) H). cbn [obind].
  unfold new_array. now rewrite (seq_run_panic [] before xs after S).
Qed.
Print Assumptions C97_sequence_panic.

Theorem C97_elements : forall (A : Type) (elem : A -> mres value) (l : list A) v,
  ser_seq elem new_array l = Done v <->
  whole_seq 1 None (map elem l) = Done (repeat ROk (List.length l), v).
Proof.
  intros A elem l v. unfold whole_seq. change (open_seq 1 None) with (Done (E := model_error) new_array). cbn [obind].
  etransitivity; [apply (seq_standard elem l [] v)|]. unfold new_array. split; [now intros -> | intros E; now injection E].
Qed.
Print Assumptions C97_elements.

(** ** Structs *)
Theorem C97_struct_built : forall cs, (forall n, ~ In (SField n Panic) cs) ->
  exists h v, field_writes cs h /\ whole_struct cs = (map field_answer cs, v) /\ mapv v /\
    forall k x, holds v k x <-> last_binding h k x.
Proof.
  intros cs N. destruct (field_writes_exist cs N) as [h F]. exists h, (fst (set_calls new_map h)).
  split; [exact F|]. split; [apply (struct_run [] cs h F)|]. split; [apply set_calls_is_map | apply set_calls_holds].
Qed.
Print Assumptions C97_struct_built.

Theorem C97_fields : forall (A : Type) (field : A -> mres value) (l : list (str * A)) v,
  ser_fields field new_map l = Done v <->
  whole_struct (map (fun f => SField (fst f) (field (snd f))) l) = (repeat ROk (List.length l), v).
Proof. intros A field l v. apply (fields_standard field l []). Qed.
Print Assumptions C97_fields.

(** Variants: the same under the variant's name, alone in a map. *)
Theorem C97_variants : forall value_size name n cs fields,
  (n * value_size <= 2 ^ 63 - 1)%Z ->
  (forall rs v, whole_seq value_size (Some n) cs = Done (rs, v) ->
     whole_tuple_variant value_size name n cs = Done (rs, Done (VMap [(name, v)]))) /\
  (forall rs v, whole_struct fields = (rs, v) ->
     whole_struct_variant name fields = (rs, Done (VMap [(name, v)]))).
Proof.
  intros size name n cs fields H. split; intros rs v.
  - unfold whole_seq, whole_tuple_variant, open_seq, with_array_capacity. rewrite (proj2 (Z.leb_le _ _) H). cbn [obind].
    destruct (run_calls seq_step new_array cs) as [rs0 s]. intros E; injection E as -> ->. reflexivity.
  - unfold whole_struct, whole_struct_variant. intros ->. reflexivity.
Qed.
Print Assumptions C97_variants.

(** ** Concrete cases *)
Local Open Scope string_scope.
Definition a_key (s : string) : smap_call := SKey (Done (VStr (lit s))).
Definition a_val (b : bool) : smap_call := SValue (Done (VBool b)).
(** A key is forgotten, another replaces it, one cannot be text, one value fails. *)
Definition odd_calls : list smap_call :=
  [a_key "lost"; a_key "a"; a_val true; a_key "b"; SKey (Done (VArr [])); a_val true; a_key "a"; SValue (Fail EMapOnly); a_key "a"; a_val false; a_key "end"].
Example odd_calls_run : exists e, whole_map odd_calls =
  ([ROk; ROk; ROk; ROk; RErr e; ROk; ROk; RErr EMapOnly; ROk; ROk; ROk], VMap [(lit "a", VBool false); (lit "b", VBool true)]).
Proof. eexists. vm_compute. reflexivity. Qed.
Example value_first : whole_map [a_val true; a_key "a"] = ([RPanic], new_map).
Proof. reflexivity. Qed.
Example pending_a : pending [a_key "a"; SKey (Done (VArr []))] (lit "a").
Proof.
  exists [], (Done (VStr (lit "a"))), [SKey (Done (VArr []))]. split; [reflexivity|]. split; [exists (VStr (lit "a")); split; reflexivity|].
  intros c [<-|[]]. exists (Done (VArr [])). split; [reflexivity|]. intros k (v & E & K). injection E as <-. discriminate K.
Qed.
Example some_elements : whole_seq 32 (Some 5%Z) [Done VNone; Fail EMapOnly; Done (VBool true)] = Done ([ROk; RErr EMapOnly; ROk], VArr [VNone; VBool true]).
Proof. reflexivity. Qed.
Example too_long : whole_seq 32 (Some (2 ^ 60)%Z) [] = Panic.
Proof. reflexivity. Qed.
Example a_struct : whole_struct [SField (lit "x") (Done VNone); SSkip (lit "y"); SField (lit "z") (Fail EMapOnly); SField (lit "x") (Done (VBool true))]
  = ([ROk; ROk; RErr EMapOnly; ROk], VMap [(lit "x", VBool true)]).
Proof. reflexivity. Qed.
