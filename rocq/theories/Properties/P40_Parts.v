(** C118, C119: structs, lists, tuples, maps and options whose parts have their
    own impls (attribute structs, untagged and tagged enums, hand-written ones). *)
From Coq Require Import ZArith Bool String Lia.
From Coq Require Import List.
Import ListNotations.
From Verif.Model Require Import Text Num Flt Value Merge Paths Finder World Layers Config Convert Serde Buffered BufferedSer Readers.
From Verif.Spec Require Import Spec Numerals SerdeSpec ConfigSpec EnvSpec ReadSpec BufferedSpec ReadersSpec.
From Verif.Proofs Require Import Basics Conversions Merge ConfigBuild Env SerProofs DeProofs SerdeMore RoundTrip ReadAs ReadersProofs.
Local Open Scope Z_scope.

(** ** C118: reading *)
Theorem C118_reads_exactly_this : forall t v o, rproper t -> uniq v -> (de_r t v = o <-> answers t v o).
Proof. intros t v o P U. destruct (de_answers t P v U) as [A1 A2]. split; [intros <-; exact A1 | apply A2]. Qed.
Print Assumptions C118_reads_exactly_this.

(** Parts that never panic make types that never panic. *)
Theorem C118_panics_come_from_parts : forall t v, rproper t -> uniq v -> de_r t v = Panic ->
  exists r w x, own_part r w t /\ r x = Panic.
Proof.
  intros t v P U H. apply C118_reads_exactly_this in H; auto. clear U. revert v P H.
  induction t as [r w|t IH|t IH|t IH|ts IH|t IH|fs IH] using rty_ind'; intros v P H; inversion P; subst; inversion H; subst.
  - exists r, w, v. split; [constructor | congruence].
  - destruct (IH v) as (r & w & x & O & E); auto. exists r, w, x. split; auto. now constructor.
  - destruct (IH v) as (r & w & x & O & E); auto. exists r, w, x. split; auto. now constructor.
  - destruct (IH x) as (r & w & y & O & E); auto. exists r, w, y. split; auto. now constructor.
  - destruct (IH t ltac:(apply in_or_app; cbn; auto) x) as (r & w & y & O & E); auto; [apply H1, in_or_app; cbn; auto|].
    exists r, w, y. split; auto. apply OpTuple with t; auto. apply in_or_app; cbn; auto.
  - destruct (IH x) as (r & w & y & O & E); auto. exists r, w, y. split; auto. now constructor.
  - destruct (IH n t ltac:(assumption) x) as (r & w & y & O & E); eauto. exists r, w, y. split; auto. econstructor; eauto.
Qed.
Print Assumptions C118_panics_come_from_parts.

(** Plain types are the special case where the scalars are the own parts. *)
Theorem C118_plain_types_are_types_of_parts : forall t v, de_r (in_parts t) v = de t v.
Proof.
  induction t as [ |t| | | | | | |t IH|t IH|ts IH|tk tv IHk IHv|fs IH|t IH|n ts IH| | | ] using ty_ind'; intros v; try reflexivity.
  - cbn [in_parts de_r de]. destruct v; rewrite ?IH; reflexivity.
  - cbn [in_parts de_r de]. destruct v; try reflexivity.
    assert (E : de_seq (de_r (in_parts t)) l = de_seq (de t) l).
    { induction l as [|x l IHl]; [reflexivity|]. cbn. rewrite IH. fold (de_seq (de_r (in_parts t)) l). fold (de_seq (de t) l). now rewrite IHl. }
    now rewrite E.
  - cbn [in_parts de_r de]. destruct v; try reflexivity. rewrite map_length, map_map.
    assert (E : forall what i l, de_tuple what i (map (fun t => de_r (in_parts t)) ts) l = de_tuple what i (map (fun t => de t) ts) l).
    { clear l. induction ts as [|t ts IHt]; intros what i l; cbn; [reflexivity|]. destruct l as [|x l]; [reflexivity|]. rewrite (IH t) by (cbn; auto).
      destruct (de t x); cbn; auto. rewrite IHt; [reflexivity | intros; apply IH; cbn; auto]. }
    now rewrite E.
  - destruct tk; try reflexivity. cbn [in_parts de_r de]. destruct v; try reflexivity.
    assert (E : de_map (de TString) (de_r (in_parts tv)) dinsert m = de_map (de TString) (de tv) dinsert m).
    { change (de_map_loop (de TString) (de_r (in_parts tv)) dinsert m [] = de_map_loop (de TString) (de tv) dinsert m []). generalize (@nil (data * data)) as acc.
      induction m as [|[k x] m IHm]; intros acc; cbn; [reflexivity|]. rewrite IHv. destruct (de tv x); cbn; auto. }
    cbn [de] in E |- *. now rewrite E.
  - cbn [in_parts de_r de]. destruct v; try reflexivity. rewrite map_map. cbn [fst snd].
    assert (O : forall t, r_is_option (in_parts t) = is_option t) by (intros [ | | | | | | | | | | |k tv'| | | | | |]; try reflexivity; destruct k; reflexivity).
    assert (F : forall k, match find_field k (map (fun x => {| fs_name := fst x; fs_optional := r_is_option (in_parts (snd x)); fs_de := de_r (in_parts (snd x)) |}) fs),
        find_field k (map (fun p => {| fs_name := fst p; fs_optional := is_option (snd p); fs_de := de (snd p) |}) fs) with
        | Some f, Some g => forall x, fs_de f x = fs_de g x | None, None => True | _, _ => False end).
    { intros k. induction fs as [|[n t] fs IHf]; cbn; [exact I|]. destruct (str_eqb k n); [cbn; intros; eapply IH; cbn; eauto|]. apply IHf. intros; eapply IH; cbn; eauto. }
    unfold de_struct.
    assert (L : forall fs1 fs2, (forall k, match find_field k fs1, find_field k fs2 with Some f, Some g => forall x, fs_de f x = fs_de g x | None, None => True | _, _ => False end) ->
      forall acc, struct_loop fs1 m acc = struct_loop fs2 m acc).
    { clear. intros fs1 fs2 F. induction m as [|[k x] m IHm]; intros acc; [reflexivity|]. rewrite !struct_loop_step. specialize (F k).
      destruct (find_field k fs1), (find_field k fs2); try tauto; auto. destruct (mget k acc); auto. rewrite F. destruct (fs_de f0 x); cbn; auto. }
    change (de_struct_loop ?a m) with (struct_loop a m []) at 1 2. rewrite (L _ _ F).
    match goal with |- obind ?x _ = _ => destruct x as [slots| |]; cbn [obind]; auto end. f_equal.
    clear - O. induction fs as [|[n t] fs IHf]; cbn; [reflexivity|]. rewrite O. destruct (mget n slots); cbn; [now rewrite IHf|]. destruct (is_option t); cbn; [now rewrite IHf | reflexivity].
  - cbn [in_parts de_r de]. now rewrite IH.
Qed.
Print Assumptions C118_plain_types_are_types_of_parts.

(** A variable that the environment layer exposes decides its field, whatever
    the field's type makes of text. *)
Theorem C118_the_variable_decides_its_field : forall w c c0 r n prefix p v v0 skip fs k t s l,
  registered c (r ++ [(n, env_layer_new prefix)]) -> registered c0 r ->
  (forall n' l x, In (n', l) r -> layer_read w l = Ok x -> wf x) -> trimmed prefix p -> p <> [] ->
  build_value w c skip = Ok v -> build_value w c0 skip = Ok v0 -> rproper (RStruct fs) -> In (k, t) fs ->
  last_exposed p (w_env w) k s -> de_r (RStruct fs) v = Done (DStruct l) ->
  exists d, In (k, d) l /\ de_r t (VStr s) = Done d.
Proof.
  intros w c c0 r n prefix p v v0 skip fs k t s l R R0 W T Np B B0 P Hf L D.
  destruct (env_overrides w c c0 r n prefix p v v0 skip R R0 W T Np B B0 k) as [H _]. destruct (H s L) as [Hk _].
  assert (U : uniq v).
  { apply (build_uniq w c _ skip v R); auto. intros n' l' x Hl Hr. apply in_app_iff in Hl as [Hl|[[= <- <-]|[]]]; [eauto|].
    destruct (env_layer_read w prefix p T Np) as (e & Re & _ & We & _). congruence. }
  apply C118_reads_exactly_this in D; auto.
  inversion D as [| | | | | | | | | | | | | | | | |? m ? F|? ? ? ? ? ? ? ? ? ? S|]; subst; [|exfalso; eapply stops_not; eassumption].
  apply holds_map in Hk. apply uniq_map in U as [NM Um].
  destruct (Forall2_in_l _ _ _ _ F Hf) as ([k' d] & Hd & E & [(x & Hx & A)|(N & _)]); cbn [fst snd] in *; subst.
  - assert (x = VStr s) as -> by (apply In_mget in Hx, Hk; auto; congruence). exists d. split; auto.
    apply C118_reads_exactly_this; auto; [inversion P; subst; eauto | exact (Um _ _ Hk)].
  - destruct (N _ Hk).
Qed.
Print Assumptions C118_the_variable_decides_its_field.

(** An internally tagged enum is not read from text: one variable for such a
    field makes the configuration unreadable. *)
Theorem C118_a_variable_breaks_a_tagged_enum : forall w c c0 r n prefix p v v0 skip fs k tag vs wr s d,
  registered c (r ++ [(n, env_layer_new prefix)]) -> registered c0 r ->
  (forall n' l x, In (n', l) r -> layer_read w l = Ok x -> wf x) -> trimmed prefix p -> p <> [] ->
  build_value w c skip = Ok v -> build_value w c0 skip = Ok v0 -> rproper (RStruct fs) ->
  In (k, ROwn (de_tagged tag vs) wr) fs \/ In (k, ROption (ROwn (de_tagged tag vs) wr)) fs ->
  last_exposed p (w_env w) k s -> de_r (RStruct fs) v <> Done d.
Proof.
  intros w c c0 r n prefix p v v0 skip fs k tag vs wr s d R R0 W T Np B B0 P Hf L D.
  assert (exists l, d = DStruct l) as (l & ->).
  { cbn [de_r] in D. destruct v; try discriminate. unfold de_struct in D. apply obind_done in D as (sl & _ & D). apply obind_done in D as (ds & _ & [= <-]). eauto. }
  destruct Hf as [Hf|Hf];
    destruct (C118_the_variable_decides_its_field w c c0 r n prefix p v v0 skip fs k _ s l R R0 W T Np B B0 P Hf L D) as (x & _ & E); discriminate E.
Qed.
Print Assumptions C118_a_variable_breaks_a_tagged_enum.

(** struct Settings { store: Store (tagged by "kind"), limits: Vec<Limit> (untagged),
    notes: HashMap<String, String>, backup: Option<Store> } *)
Definition pt_store : rty := ROwn (de_tagged (lit "kind") [(lit "memory", TsUnit); (lit "file", TsStruct [(lit "path", TString)])]) (ser_tagged (lit "kind")).
Definition pt_limit : rty := ROwn (de_untagged (lit "Limit") [(lit "Off", ShUnit); (lit "Max", ShNewtype (TInt U16)); (lit "Named", ShNewtype TString)]) ser_untagged.
Definition pt_settings : rty := RStruct [(lit "store", pt_store); (lit "limits", RSeq pt_limit); (lit "notes", RMap (ROwn (de TString) ser)); (lit "backup", ROption pt_store)].
Definition pt_value : value := VMap [(lit "limits", VArr [VInt 5; VStr (lit "5"); VNone]); (lit "store", VMap [(lit "path", VStr (lit "/x")); (lit "kind", VStr (lit "file"))]);
  (lit "other", VBool true); (lit "notes", VMap [(lit "a", VInt 1)])].
Example C118_example : rproper pt_settings /\ uniq pt_value
  /\ de_r pt_settings pt_value = Done (DStruct [
       (lit "store", DStructVariant (lit "file") [(lit "path", DStr (lit "/x"))]);
       (lit "limits", DSeq [DNewtypeVariant (lit "Max") (DInt U16 5); DNewtypeVariant (lit "Named") (DStr (lit "5")); DUnitVariant (lit "Off")]);
       (lit "notes", DMap [(DStr (lit "a"), DStr (lit "1"))]); (lit "backup", DNone)])
  /\ (forall rest, de_r pt_settings (VMap ((lit "limits", VArr [VInt 5; VInt 70000; VInt 6]) :: rest)) =
       Fail (EDeserialization (lit "data did not match any variant of untagged enum Limit")))
  /\ de_r pt_settings (VMap [(lit "limits", VArr []); (lit "store", VMap [(lit "kind", VStr (lit "memory"))])]) = Fail (EDeserialization (lit "missing field `notes`"))
  /\ (exists r w, own_part r w pt_settings /\ r = de TString).
Proof.
  split.
  { apply RpStruct; [repeat constructor; cbn; intuition discriminate|]. intros n t [[= <- <-]|[[= <- <-]|[[= <- <-]|[[= <- <-]|[]]]]]; repeat constructor. }
  split.
  { apply uniq_map. split; [repeat constructor; cbn; intuition discriminate|].
    intros k x [[= <- <-]|[[= <- <-]|[[= <- <-]|[[= <- <-]|[]]]]].
    - apply uniq_arr. intros x [<-|[<-|[<-|[]]]]; now constructor.
    - apply uniq_map. split; [repeat constructor; cbn; intuition discriminate|]. intros k x [[= <- <-]|[[= <- <-]|[]]]; now constructor.
    - now constructor.
    - apply uniq_map. split; [repeat constructor; cbn; intuition discriminate|]. intros k x [[= <- <-]|[]]; now constructor. }
  split; [reflexivity|]. split; [reflexivity|]. split; [reflexivity|].
  exists (de TString), ser. split; [|reflexivity]. apply OpStruct with (lit "notes") (RMap (ROwn (de TString) ser)); [cbn; auto | repeat constructor].
Qed.

(** ** C119: writing, and reading back *)
Theorem C119_writes_exactly_this : forall t d o, rproper t -> rtyped t d -> (ser_r t d = o <-> writes t d o).
Proof. intros t d o P T. destruct (ser_writes t P d T) as [A1 A2]. split; [intros <-; exact A1 | apply A2]. Qed.
Print Assumptions C119_writes_exactly_this.

Theorem C119_comes_back_exactly_when_the_parts_do : forall t d, rproper t -> rtyped t d ->
  ((exists v, ser_r t d = Done v /\ de_r t v = Done d) <-> keeps t d).
Proof. intros t d P T. now apply back_iff. Qed.
Print Assumptions C119_comes_back_exactly_when_the_parts_do.

(** An untagged enum's unit variant is written as None: under an Option it comes
    back as no value at all, alone it comes back. *)
Theorem C119_some_becomes_none_refuted : exists t d v, rproper t /\ rtyped t d /\ keeps t d
  /\ ser_r (ROption t) (DSome d) = Done v /\ de_r (ROption t) v = Done DNone.
Proof.
  exists (ROwn (de_untagged (lit "Limit") [(lit "Off", ShUnit); (lit "Max", ShNewtype (TInt U16))]) ser_untagged), (DUnitVariant (lit "Off")), VNone.
  split; [constructor|]. split; [constructor|]. split; [now apply KpOwn with VNone|]. split; reflexivity.
Qed.
Print Assumptions C119_some_becomes_none_refuted.

Definition pt_datum : data := DStruct [
  (lit "store", DStructVariant (lit "file") [(lit "path", DStr (lit "/x"))]);
  (lit "limits", DSeq [DNewtypeVariant (lit "Max") (DInt U16 5); DNewtypeVariant (lit "Named") (DStr (lit "5")); DUnitVariant (lit "Off")]);
  (lit "notes", DMap [(DStr (lit "a"), DStr (lit "1")); (DStr (lit "b"), DStr [])]); (lit "backup", DSome (DUnitVariant (lit "memory")))].
Example C119_example : rproper pt_settings /\ rtyped pt_settings pt_datum /\ keeps pt_settings pt_datum
  /\ ser_r pt_settings pt_datum = Done (VMap [
       (lit "store", VMap [(lit "kind", VStr (lit "file")); (lit "path", VStr (lit "/x"))]);
       (lit "limits", VArr [VUInt 5; VStr (lit "5"); VNone]);
       (lit "notes", VMap [(lit "a", VStr (lit "1")); (lit "b", VStr [])]);
       (lit "backup", VMap [(lit "kind", VStr (lit "memory"))])])
  /\ (exists e, ser_r pt_settings (DStruct [(lit "store", DNewtypeVariant (lit "file") (DInt U8 1));
       (lit "limits", DSeq []); (lit "notes", DMap []); (lit "backup", DNone)]) = Fail e).
Proof.
  destruct C118_example as (P & _). split; [exact P|].
  assert (T : rtyped pt_settings pt_datum).
  { apply RtStruct. constructor; [|constructor; [|constructor; [|constructor; [|constructor]]]]; (split; [reflexivity|]); cbn [fst snd].
    - constructor.
    - apply RtSeq. intros d _. constructor.
    - apply RtMap; [repeat constructor; cbn; intuition discriminate|]. intros k d [[= <- <-]|[[= <- <-]|[]]]; (split; [eauto | constructor]).
    - apply RtSome. constructor. }
  split; [exact T|]. split.
  - apply C119_comes_back_exactly_when_the_parts_do; auto. eexists. split; reflexivity.
  - split; [reflexivity|]. eexists. reflexivity.
Qed.
