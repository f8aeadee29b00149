(** Serialisation into Values (C55, C63, C66). *)
From Coq Require Import ZArith Bool String Lia List Permutation.
Import ListNotations.
From Verif.Model Require Import Text Num Flt Value Convert Serde.
From Verif.Spec Require Import Spec Numerals SerdeSpec.
From Verif.Proofs Require Import Basics Conversions.
Open Scope Z_scope.

(** ** Induction on data *)
Section DataInd.
Variable P : data -> Prop.
Hypothesis Hscalar : forall d, scalar_datum d -> P d.
Hypothesis Hvalue : forall v, P (DValue v).
Hypothesis Hsome : forall d, P d -> P (DSome d).
Hypothesis Hseq : forall l, (forall d, In d l -> P d) -> P (DSeq l).
Hypothesis Htuple : forall l, (forall d, In d l -> P d) -> P (DTuple l).
Hypothesis Hmap : forall m, (forall a b, In (a, b) m -> P a /\ P b) -> P (DMap m).
Hypothesis Hstruct : forall fs, (forall n d, In (n, d) fs -> P d) -> P (DStruct fs).
Hypothesis Hnew : forall d, P d -> P (DNewtype d).
Hypothesis Hts : forall l, (forall d, In d l -> P d) -> P (DTupleStruct l).
Hypothesis Hnv : forall n d, P d -> P (DNewtypeVariant n d).
Hypothesis Htv : forall n l, (forall d, In d l -> P d) -> P (DTupleVariant n l).
Hypothesis Hsv : forall n fs, (forall f d, In (f, d) fs -> P d) -> P (DStructVariant n fs).

Fixpoint data_ind' (d : data) : P d.
Proof.
  Local Ltac all_list f l :=
    let IH := fresh in let x := fresh in let H := fresh in
    induction l as [|? l IH]; intros x H; [destruct H|];
    destruct H as [<-|H]; [apply f | apply IH, H].
  Local Ltac all_fields f l :=
    let IH := fresh in let x := fresh in let H := fresh in let a := fresh in let k := fresh in let E := fresh in
    induction l as [|[? a] l IH]; intros k x H; [destruct H|];
    destruct H as [E|H]; [exact (eq_ind a P (f a) x (f_equal snd E)) | apply (IH k x H)].
  destruct d as [| | | | | | | | |d|l|l|m|fs|d|l| | |n d|n l|n fs|]; try (apply Hscalar; exact I).
  - apply Hsome, data_ind'.
  - apply Hseq. all_list data_ind' l.
  - apply Htuple. all_list data_ind' l.
  - apply Hmap. induction m as [|[k0 a] m IH]; intros k x H; [destruct H|].
    destruct H as [E|H]; [| apply (IH k x H)]. split.
    + exact (eq_ind k0 P (data_ind' k0) k (f_equal fst E)).
    + exact (eq_ind a P (data_ind' a) x (f_equal snd E)).
  - apply Hstruct. all_fields data_ind' fs.
  - apply Hnew, data_ind'.
  - apply Hts. all_list data_ind' l.
  - apply Hnv, data_ind'.
  - apply Htv. all_list data_ind' l.
  - apply Hsv. all_fields data_ind' fs.
  - apply Hvalue.
Defined.
End DataInd.

(** ** The compound serialisers *)
Lemma obind_done {A B E} (x : outcome A E) (f : A -> outcome B E) b :
  obind x f = Done b <-> exists a, x = Done a /\ f a = Done b.
Proof. destruct x; cbn; split; [eauto | intros (a' & [= <-] & H); auto | discriminate | intros (? & ? & ?); discriminate | discriminate | intros (? & ? & ?); discriminate]. Qed.

Lemma ser_seq_done {A} (ser1 : A -> mres value) l acc vs :
  Forall2 (fun x v => ser1 x = Done v) l vs -> ser_seq ser1 (VArr acc) l = Done (VArr (acc ++ vs)).
Proof.
  intros F; revert acc; induction F as [|x v l vs E F IH]; intros acc; cbn; [now rewrite app_nil_r|].
  rewrite E; cbn. fold (ser_seq ser1 (VArr (acc ++ [v])) l). rewrite IH, <- app_assoc. reflexivity.
Qed.
Lemma ser_seq_inv {A} (ser1 : A -> mres value) l acc r :
  ser_seq ser1 (VArr acc) l = Done r ->
  exists vs, Forall2 (fun x v => ser1 x = Done v) l vs /\ r = VArr (acc ++ vs).
Proof.
  revert acc; induction l as [|x l IH]; intros acc; cbn.
  - intros [= <-]; exists []; rewrite app_nil_r; auto.
  - intros H. apply obind_done in H as (v & Hv & H). cbn in H.
    fold (ser_seq ser1 (VArr (acc ++ [v])) l) in H. apply IH in H as (vs & F & ->).
    exists (v :: vs); rewrite <- app_assoc; auto.
Qed.
Lemma ser_seq_fail {A} (ser1 : A -> mres value) l acc x :
  (forall y, In y l -> ser1 y <> Panic) -> In x l -> (exists e, ser1 x = Fail e) ->
  exists y e, In y l /\ ser1 y = Fail e /\ ser_seq ser1 (VArr acc) l = Fail e.
Proof.
  intros NP Hx (e & He). revert acc; induction l as [|y l IH]; intros acc; [destruct Hx|].
  cbn. destruct (ser1 y) as [v|e'|] eqn:Ey.
  - cbn. fold (ser_seq ser1 (VArr (acc ++ [v])) l).
    destruct Hx as [->|Hx]; [congruence|].
    edestruct IH as (z & e' & H1 & H2 & H3); eauto. { intros; apply NP; cbn; auto. }
    exists z, e'; cbn; eauto.
  - exists y, e'; cbn; auto.
  - destruct (NP y); cbn; auto.
Qed.
Lemma ser_seq_no_panic {A} (ser1 : A -> mres value) l acc :
  (forall y, In y l -> ser1 y <> Panic) -> ser_seq ser1 (VArr acc) l <> Panic.
Proof.
  revert acc; induction l as [|y l IH]; intros acc NP; cbn; [discriminate|].
  destruct (ser1 y) as [v|e'|] eqn:Ey; cbn; [|discriminate|].
  - apply IH; intros; apply NP; cbn; auto.
  - destruct (NP y); cbn; auto.
Qed.

Lemma ser_fields_done {A} (ser1 : A -> mres value) l acc vs :
  Forall2 (fun x v => fst x = fst v /\ ser1 (snd x) = Done (snd v)) l vs -> NoDup (map fst (acc ++ vs)) ->
  ser_fields ser1 (VMap acc) l = Done (VMap (acc ++ vs)).
Proof.
  intros F; revert acc; induction F as [|[n x] [n' v] l vs [E1 E2] F IH]; intros acc ND; cbn; [now rewrite app_nil_r|].
  cbn in E1, E2; subst n'. rewrite E2; cbn. rewrite minsert_keys_new.
  2:{ rewrite map_app in ND; cbn in ND. intros HIn. apply NoDup_remove_2 in ND. apply ND, in_or_app; auto. }
  fold (ser_fields ser1 (VMap (acc ++ [(n, v)])) l). rewrite IH.
  - now rewrite <- app_assoc.
  - now rewrite <- app_assoc.
Qed.
Lemma ser_fields_inv {A} (ser1 : A -> mres value) l acc r :
  ser_fields ser1 (VMap acc) l = Done r ->
  (exists vs, Forall2 (fun x v => fst x = fst v /\ ser1 (snd x) = Done (snd v)) l vs) /\
  exists m, r = VMap m /\ (NoDup (map fst acc) -> NoDup (map fst m)).
Proof.
  revert acc; induction l as [|[n x] l IH]; intros acc; cbn.
  - intros [= <-]; split; [exists []; auto | eauto].
  - intros H. apply obind_done in H as (v & Hv & H). cbn in H.
    fold (ser_fields ser1 (VMap (minsert n v acc)) l) in H. apply IH in H as ((vs & F) & m & -> & Hm).
    split; [exists ((n, v) :: vs); auto | eexists; split; auto]. intros ND; apply Hm, minsert_nodup, ND.
Qed.
Lemma ser_fields_no_panic {A} (ser1 : A -> mres value) l acc :
  (forall n y, In (n, y) l -> ser1 y <> Panic) -> ser_fields ser1 (VMap acc) l <> Panic.
Proof.
  revert acc; induction l as [|[n y] l IH]; intros acc NP; cbn; [discriminate|].
  destruct (ser1 y) as [v|e'|] eqn:Ey; cbn; [|discriminate|].
  - apply IH; intros; eapply NP; cbn; eauto.
  - destruct (NP n y); cbn; auto.
Qed.

Definition entries_loop {A} (serk serv : A -> mres value) :=
  fix go (sm : ser_map) (l : list A) : mres value :=
     match l with
     | [] => Done (sm_map sm)
     | e :: t =>
       obind (sm_serialize_key sm (serk e)) (fun sm1 =>
       obind (sm_serialize_value sm1 (serv e)) (fun sm2 => go sm2 t))
     end.
Lemma entries_step {A} (serk serv : A -> mres value) acc e l :
  entries_loop serk serv {| sm_map := VMap acc; sm_key := None |} (e :: l) =
  obind (serk e) (fun kv => obind (of_result (into_string kv)) (fun k =>
  obind (serv e) (fun x => entries_loop serk serv {| sm_map := VMap (minsert k x acc); sm_key := None |} l))).
Proof.
  cbn. unfold sm_serialize_key. destruct (serk e) as [kv| |]; cbn; auto.
  destruct (into_string kv) as [k|]; cbn; auto. unfold sm_serialize_value; cbn.
  destruct (serv e); cbn; auto.
Qed.

Lemma entries_done {A} (serk serv : A -> mres value) l acc vs :
  Forall2 (fun e v => (exists kv, serk e = Done kv /\ into_string kv = Ok (fst v)) /\ serv e = Done (snd v)) l vs ->
  NoDup (map fst (acc ++ vs)) ->
  entries_loop serk serv {| sm_map := VMap acc; sm_key := None |} l = Done (VMap (acc ++ vs)).
Proof.
  intros F; revert acc; induction F as [|e [k v] l vs [(kv & E1 & E2) E3] F IH]; intros acc ND.
  - cbn; now rewrite app_nil_r.
  - cbn [fst snd] in *. rewrite entries_step, E1; cbn [obind]. rewrite E2; cbn [of_result obind]. rewrite E3; cbn [obind].
    rewrite minsert_keys_new.
    2:{ rewrite map_app in ND; cbn in ND. intros HIn. apply NoDup_remove_2 in ND. apply ND, in_or_app; auto. }
    rewrite IH; rewrite <- app_assoc; auto.
Qed.
Lemma ser_map_entries_done {A} (serk serv : A -> mres value) l vs :
  Forall2 (fun e v => (exists kv, serk e = Done kv /\ into_string kv = Ok (fst v)) /\ serv e = Done (snd v)) l vs ->
  NoDup (map fst vs) -> ser_map_entries serk serv l = Done (VMap vs).
Proof. intros F ND. exact (entries_done serk serv l [] vs F ND). Qed.

Lemma entries_inv {A} (serk serv : A -> mres value) l acc r :
  entries_loop serk serv {| sm_map := VMap acc; sm_key := None |} l = Done r ->
  (exists vs, Forall2 (fun e v => (exists kv, serk e = Done kv /\ into_string kv = Ok (fst v)) /\ serv e = Done (snd v)) l vs)
  /\ exists m, r = VMap m.
Proof.
  revert acc; induction l as [|e l IH]; intros acc.
  - cbn. intros [= <-]; split; [exists []; auto | eauto].
  - rewrite entries_step. intros H. apply obind_done in H as (kv & Hk & H). apply obind_done in H as (k & Hk' & H).
    apply obind_done in H as (x & Hx & H). apply IH in H as ((vs & F) & m & ->).
    split; eauto. exists ((k, x) :: vs). constructor; auto. split; auto. exists kv; split; auto.
    destruct (into_string kv); cbn in Hk'; [injection Hk' as <-; reflexivity | discriminate].
Qed.
Lemma ser_map_entries_inv {A} (serk serv : A -> mres value) l r :
  ser_map_entries serk serv l = Done r ->
  (exists vs, Forall2 (fun e v => (exists kv, serk e = Done kv /\ into_string kv = Ok (fst v)) /\ serv e = Done (snd v)) l vs)
  /\ exists m, r = VMap m.
Proof. exact (entries_inv serk serv l [] r). Qed.
Lemma entries_no_panic {A} (serk serv : A -> mres value) l acc :
  (forall e, In e l -> serk e <> Panic /\ serv e <> Panic) ->
  entries_loop serk serv {| sm_map := VMap acc; sm_key := None |} l <> Panic.
Proof.
  revert acc; induction l as [|e l IH]; intros acc NP; [discriminate|].
  rewrite entries_step. destruct (NP e (or_introl eq_refl)) as [N1 N2].
  destruct (serk e) as [kv| |]; cbn; try congruence.
  destruct (into_string kv); cbn; try congruence.
  destruct (serv e); cbn; try congruence. apply IH; intros; apply NP; cbn; auto.
Qed.
Lemma ser_map_entries_no_panic {A} (serk serv : A -> mres value) l :
  (forall e, In e l -> serk e <> Panic /\ serv e <> Panic) -> ser_map_entries serk serv l <> Panic.
Proof. exact (entries_no_panic serk serv l []). Qed.

Lemma ser_seq_cases {A} (ser1 : A -> mres value) l acc :
  (forall y, In y l -> ser1 y <> Panic) ->
  (exists vs, Forall2 (fun x v => ser1 x = Done v) l vs /\ ser_seq ser1 (VArr acc) l = Done (VArr (acc ++ vs)))
  \/ (exists x e, In x l /\ ser1 x = Fail e /\ ser_seq ser1 (VArr acc) l = Fail e).
Proof.
  revert acc; induction l as [|x l IH]; intros acc NP; cbn.
  - left; exists []; rewrite app_nil_r; auto.
  - destruct (ser1 x) as [v|e|] eqn:E; cbn; [|right; exists x, e; auto|destruct (NP x); cbn; auto].
    fold (ser_seq ser1 (VArr (acc ++ [v])) l).
    destruct (IH (acc ++ [v])) as [(vs & F & ->)|(y & e & H1 & H2 & ->)]; [intros; apply NP; cbn; auto|left|right].
    + exists (v :: vs). rewrite <- app_assoc; auto.
    + exists y, e; auto.
Qed.
Lemma ser_fields_cases {A} (ser1 : A -> mres value) l acc :
  (forall n y, In (n, y) l -> ser1 y <> Panic) ->
  (exists m, ser_fields ser1 (VMap acc) l = Done (VMap m) /\
     forall n y, In (n, y) l -> exists v, ser1 y = Done v)
  \/ (exists n x e, In (n, x) l /\ ser1 x = Fail e /\ ser_fields ser1 (VMap acc) l = Fail e).
Proof.
  revert acc; induction l as [|[n x] l IH]; intros acc NP; cbn.
  - left; exists acc; split; [reflexivity | tauto].
  - destruct (ser1 x) as [v|e|] eqn:E; cbn; [|right; exists n, x, e; auto|destruct (NP n x); cbn; auto].
    fold (ser_fields ser1 (VMap (minsert n v acc)) l).
    destruct (IH (minsert n v acc)) as [(m & -> & F)|(n' & y & e & H1 & H2 & ->)];
      [intros; eapply NP; cbn; eauto|left|right].
    + exists m; split; auto. intros n' y [[= <- <-]|H]; eauto.
    + exists n', y, e; auto.
Qed.
Lemma ser_map_entries_cases {A} (serk serv : A -> mres value) l :
  (forall e, In e l -> serk e <> Panic /\ serv e <> Panic) ->
  (exists m, ser_map_entries serk serv l = Done (VMap m) /\
     forall e, In e l -> exists kv k v, serk e = Done kv /\ into_string kv = Ok k /\ serv e = Done v)
  \/ (exists e x, In e l /\ ser_map_entries serk serv l = Fail x /\
       (serk e = Fail x \/ serv e = Fail x \/ exists kv, serk e = Done kv /\ into_string kv = Err x)).
Proof.
  change (@ser_map_entries A serk serv l) with (entries_loop serk serv {| sm_map := VMap []; sm_key := None |} l).
  generalize (@nil (str * value)) as acc. induction l as [|e l IH]; intros acc NP.
  - left; exists acc; split; [reflexivity | cbn; tauto].
  - rewrite entries_step. destruct (NP e (or_introl eq_refl)) as [N1 N2].
    destruct (serk e) as [kv|x|] eqn:E1; cbn; [|right; exists e, x; auto|congruence].
    destruct (into_string kv) as [k|x] eqn:E2; cbn; [|right; exists e, x; eauto 8].
    destruct (serv e) as [v|x|] eqn:E3; cbn; [|right; exists e, x; auto|congruence].
    destruct (IH (minsert k v acc)) as [(m & -> & F)|(y & x & H1 & -> & H2)];
      [intros; apply NP; cbn; auto|left|right].
    + exists m; split; auto. intros y [<-|H]; eauto 8.
    + exists y, x; auto.
Qed.

Lemma into_string_err v e : into_string v = Err e -> exists kind, no_scalar v kind /\
  e = EConversion kind (lit "String") (lit "conversion not supported").
Proof. destruct v; cbn; try discriminate; unfold conv_err; intros [= <-]; eexists; split; try constructor; reflexivity. Qed.
Lemma into_string_ok v s : into_string v = Ok s -> forall kind, ~ no_scalar v kind.
Proof. destruct v; cbn; try discriminate; intros _ kind H; inversion H. Qed.

(** ** C55: a Value into a Value *)
Lemma ser_value_cases v : uniq v ->
  match ser_value v with
  | Done w => w = v /\ ~ has_wide v
  | Fail e => has_wide v /\ exists t, has_wide_of t v /\ e = ESerialization (type_name t ++ lit " is not supported")
  | Panic => False
  end.
Proof.
  induction v as [v S|l IH|m IH] using value_ind'; intros U.
  - destruct v; cbn in S; try tauto; cbn; try (split; [reflexivity | intros H; inversion H]);
      (split; [constructor | eexists; split; [constructor | reflexivity]]).
  - cbn [ser_value]. unfold new_array. pose proof (proj1 (uniq_arr l) U) as Ul.
    destruct (ser_seq_cases ser_value l []) as [(vs & F & ->)|(x & e & Hx & E & ->)].
    + intros y Hy; specialize (IH y Hy (Ul y Hy)). destruct (ser_value y); congruence.
    + cbn [app]. assert (D : vs = l /\ forall x, In x l -> ~ has_wide x).
      { clear U. induction F as [|x v l vs E F IHF]; [split; [reflexivity | cbn; tauto]|].
        pose proof (IH x (or_introl eq_refl) (Ul x (or_introl eq_refl))) as Hx. rewrite E in Hx. destruct Hx as [-> Hx].
        destruct IHF as [-> Hl]; [intros; apply IH; cbn; auto | intros; apply Ul; cbn; auto|].
        split; [reflexivity|]. intros y [<-|Hy]; auto. }
      destruct D as [-> D]. split; [reflexivity|]. intros H; inversion H; subst. eapply D; eauto.
    + specialize (IH x Hx (Ul x Hx)). rewrite E in IH. destruct IH as [IH1 IH2].
      split; [eapply HwArr; eauto|]. destruct IH2 as (t & IH2 & ->). exists t. split; [eapply HoArr; eauto | reflexivity].
  - cbn [ser_value]. apply uniq_map in U as [ND Um].
    assert (NP : forall e, In e m -> ser_str (fst e) <> Panic /\ ser_value (snd e) <> Panic).
    { intros [k x] He. split; [discriminate|]. specialize (IH k x He (Um k x He)). cbn; destruct (ser_value x); congruence. }
    destruct (ser_map_entries_cases (fun e => ser_str (fst e)) (fun e => ser_value (snd e)) m NP)
      as [(m' & _ & F)|(e & x & He & -> & Hx)].
    + assert (F2 : Forall2 (fun e v => (exists kv, ser_str (fst e) = Done kv /\ into_string kv = Ok (fst v)) /\
                                    ser_value (snd e) = Done (snd v)) m m).
      { assert (G : forall e, In e m -> ser_value (snd e) = Done (snd e)).
        { intros [k x] He. destruct (F (k, x) He) as (kv & k' & v & _ & _ & E).
          specialize (IH k x He (Um k x He)). cbn in *. rewrite E in IH. destruct IH as [-> _]. exact E. }
        clear - G. induction m as [|[k x] m IH]; constructor.
        - split; [exists (VStr k); split; reflexivity | apply G; cbn; auto].
        - apply IH; intros; apply G; cbn; auto. }
      rewrite (ser_map_entries_done _ _ m m F2 ND). split; [reflexivity|].
      intros H; inversion H as [| | |? k x Hkx Hx]; subst.
      destruct (F (k, x) Hkx) as (kv & k' & v & _ & _ & E).
      specialize (IH k x Hkx (Um k x Hkx)). cbn in E; rewrite E in IH. tauto.
    + destruct e as [k y]; cbn in *. destruct Hx as [Hx|[Hx|(kv & Hx & Hx')]].
      * discriminate.
      * specialize (IH k y He (Um k y He)). rewrite Hx in IH. destruct IH as [IH1 IH2].
        split; [eapply HwMap; eauto|]. destruct IH2 as (t & IH2 & ->). exists t. split; [eapply HoMap; eauto | reflexivity].
      * injection Hx as <-. discriminate.
Qed.

Lemma ser_value_identity v : uniq v -> ~ has_wide v -> ser_value v = Done v.
Proof.
  intros U N. pose proof (ser_value_cases v U) as H. destruct (ser_value v); [destruct H as [-> _]; auto | tauto | tauto].
Qed.
Lemma ser_value_wide v : uniq v -> has_wide v ->
  exists t, has_wide_of t v /\ ser_value v = Fail (ESerialization (type_name t ++ lit " is not supported")).
Proof.
  intros U N. pose proof (ser_value_cases v U) as H.
  destruct (ser_value v); [tauto | destruct H as [_ (t & H & ->)]; eauto | tauto].
Qed.

(** ** C66: serialisation of any datum *)
Lemma ser_value_textless v w : uniq v -> ser_value v = Done w -> w = v.
Proof. intros U H. pose proof (ser_value_cases v U) as C. rewrite H in C. tauto. Qed.

Lemma ser_bytes_ok l acc : exists r, ser_bytes_loop (VArr acc) l = Done (VArr r).
Proof. revert acc; induction l as [|b l IH]; intros acc; cbn; eauto. Qed.


Definition ser_summary (d : data) : Prop :=
  match ser d with
  | Done v => ~ data_wide d /\ ~ data_bad_key d /\ (textless d <-> exists kind, no_scalar v kind)
  | Fail (ESerialization _) => data_wide d
  | Fail (EConversion kind to why) =>
    data_bad_key d /\ to = lit "String" /\ why = lit "conversion not supported"
  | Fail _ => False
  | Panic => False
  end.

Lemma summary_no_panic d : ser_summary d -> ser d <> Panic.
Proof. unfold ser_summary; destruct (ser d); congruence. Qed.

(** A failing component explains the failure of the whole. *)
Lemma summary_up d D e : ser_summary d -> ser d = Fail e -> ser D = Fail e ->
  (data_wide d -> data_wide D) -> (data_bad_key d -> data_bad_key D) -> ser_summary D.
Proof.
  unfold ser_summary. intros H E E'. rewrite E in H; rewrite E'. destruct e; tauto.
Qed.

Lemma ser_list_summary (D : list data -> data) l :
  (forall d, In d l -> ser_summary d) ->
  (forall d, In d l -> data_wide d -> data_wide (D l)) ->
  (forall d, In d l -> data_bad_key d -> data_bad_key (D l)) ->
  (forall l, data_wide (D l) -> exists d, In d l /\ data_wide d) ->
  (forall l, data_bad_key (D l) -> exists d, In d l /\ data_bad_key d) ->
  forall (k : value -> mres value), ser (D l) = obind (ser_seq ser new_array l) k ->
  textless (D l) ->
  (forall vs, exists v kind, k (VArr vs) = Done v /\ no_scalar v kind) ->
  ser_summary (D l).
Proof.
  intros IH W B W' B' k E T K. unfold new_array in E.
  destruct (ser_seq_cases ser l []) as [(vs & F & E')|(x & e & Hx & E1 & E')].
  - intros y Hy; apply summary_no_panic; auto.
  - rewrite E' in E. cbn [obind app] in E. destruct (K vs) as (v & kind & Hv & Hk). rewrite Hv in E.
    unfold ser_summary. rewrite E.
    assert (A : forall d, In d l -> ~ data_wide d /\ ~ data_bad_key d).
    { intros d Hd. specialize (IH d Hd). clear - F Hd IH.
      assert (exists v, ser d = Done v) as [v Ev].
      { induction F as [|x v l vs Ex F IHF]; [destruct Hd|]. destruct Hd as [->|Hd]; eauto. }
      unfold ser_summary in IH; rewrite Ev in IH; tauto. }
    split; [|split].
    + intros H; destruct (W' _ H) as (d & Hd & Hw). destruct (A d Hd); auto.
    + intros H; destruct (B' _ H) as (d & Hd & Hw). destruct (A d Hd); auto.
    + split; eauto.
  - rewrite E' in E; cbn in E. eapply summary_up; eauto.
Qed.

Lemma ser_fields_summary (D : list (str * data) -> data) fs :
  (forall n d, In (n, d) fs -> ser_summary d) ->
  (forall n d, In (n, d) fs -> data_wide d -> data_wide (D fs)) ->
  (forall n d, In (n, d) fs -> data_bad_key d -> data_bad_key (D fs)) ->
  (forall l, data_wide (D l) -> exists n d, In (n, d) l /\ data_wide d) ->
  (forall l, data_bad_key (D l) -> exists n d, In (n, d) l /\ data_bad_key d) ->
  forall (k : value -> mres value), ser (D fs) = obind (ser_fields ser new_map fs) k ->
  textless (D fs) ->
  (forall m, exists v kind, k (VMap m) = Done v /\ no_scalar v kind) ->
  ser_summary (D fs).
Proof.
  intros IH W B W' B' k E T K. unfold new_map in E.
  destruct (ser_fields_cases ser fs []) as [(m & E' & F)|(n & x & e & Hx & E1 & E')].
  - intros n y Hy; eapply summary_no_panic; eauto.
  - rewrite E' in E. cbn [obind app] in E. destruct (K m) as (v & kind & Hv & Hk). rewrite Hv in E.
    unfold ser_summary. rewrite E.
    assert (A : forall n d, In (n, d) fs -> ~ data_wide d /\ ~ data_bad_key d).
    { intros n d Hd. specialize (IH n d Hd). destruct (F n d Hd) as [v' Ev].
      unfold ser_summary in IH; rewrite Ev in IH; tauto. }
    split; [|split].
    + intros H; destruct (W' _ H) as (n & d & Hd & Hw). destruct (A n d Hd); auto.
    + intros H; destruct (B' _ H) as (n & d & Hd & Hw). destruct (A n d Hd); auto.
    + split; eauto.
  - rewrite E' in E; cbn in E. eapply summary_up; eauto.
Qed.

Lemma obind_ret {A E} (x : outcome A E) : x = obind x Done.
Proof. destruct x; reflexivity. Qed.

Lemma ser_exact d : data_uniq d -> ser_summary d.
Proof.
  induction d as [d S|v|d IH|l IH|l IH|m IH|fs IH|d IH|l IH|n d IH|n l IH|n fs IH] using data_ind'; intros U.
  - destruct d; cbn in S; try tauto; unfold ser_summary; cbn;
      try (split; [intros H; inversion H | split; [intros H; inversion H | split; [intros H; inversion H | intros [kind H]; inversion H]]]; fail);
      try (split; [intros H; inversion H | split; [intros H; inversion H | split; [eexists; constructor | constructor]]]; fail).
    + destruct t; cbn; try (constructor; exact I);
      (split; [intros H; inversion H; subst; cbn in *; tauto | split; [intros H; inversion H | split; [intros H; inversion H | intros [kind H]; inversion H]]]).
    + unfold ser_bytes. destruct (ser_bytes_ok l []) as [r E]. unfold new_array; rewrite E.
      split; [intros H; inversion H | split; [intros H; inversion H | split; [eexists; constructor | constructor]]].
  - inversion U; subst; cbn in *; try tauto. unfold ser_summary. cbn [ser].
    pose proof (ser_value_cases v) as C. destruct (ser_value v) as [w|e|] eqn:E.
    + destruct C as [-> N]; auto. split; [intros X; inversion X; tauto|]. split; [intros X; inversion X|].
      split; [intros X; inversion X; eauto | intros [kind Hk]; econstructor; eauto].
    + destruct C as [C (t & _ & ->)]; auto. now constructor.
    + auto.
  - inversion U as [? S|?|? U'| | | | | | | | | ]; subst; [destruct S|]. specialize (IH U').
    unfold ser_summary in *; cbn [ser]. destruct (ser d) as [v|[]|]; auto.
    + destruct IH as (I1 & I2 & I3). split; [intros H; inversion H; tauto|]. split; [intros H; inversion H; tauto|].
      rewrite <- I3. split; [intros H; inversion H; auto | now constructor].
    + now constructor.
    + destruct IH as (I1 & I2 & I3). split; auto. now constructor.
  - inversion U as [? S|?|?|? U'| | | | | | | | ]; subst; [destruct S|].
    apply (ser_list_summary DSeq l) with (k := Done); eauto using DwSeq, BkSeq, TlSeq.
    + intros l0 H; inversion H; subst; eauto.
    + intros l0 H; inversion H; subst; eauto.
    + apply obind_ret.
    + intros vs; exists (VArr vs), (lit "Array"); split; [reflexivity | constructor].
  - inversion U as [? S|?|?|?|? U'| | | | | | | ]; subst; [destruct S|].
    apply (ser_list_summary DTuple l) with (k := Done); eauto using DwTuple, BkTuple, TlTuple.
    + intros l0 H; inversion H; subst; eauto.
    + intros l0 H; inversion H; subst; eauto.
    + apply obind_ret.
    + intros vs; exists (VArr vs), (lit "Array"); split; [reflexivity | constructor].
  - inversion U as [? S|?|?|?|?|? U'| | | | | | ]; subst; [destruct S|].
    assert (IHa : forall e, In e m -> ser_summary (fst e)).
    { intros [a b] H. destruct (U' a b H), (IH a b H); auto. }
    assert (IHb : forall e, In e m -> ser_summary (snd e)).
    { intros [a b] H. destruct (U' a b H), (IH a b H); auto. }
    unfold ser_summary. cbn [ser].
    destruct (ser_map_entries_cases (fun e => ser (fst e)) (fun e => ser (snd e)) m)
      as [(m' & -> & F)|(e & x & He & -> & Hx)].
    + intros e He; split; apply summary_no_panic; auto.
    + assert (G : forall a b, In (a, b) m -> ~ data_wide a /\ ~ data_bad_key a /\ ~ textless a /\ ~ data_wide b /\ ~ data_bad_key b).
      { intros a b Hab. destruct (F (a, b) Hab) as (kv & k & v & E1 & E2 & E3). cbn [fst snd] in *.
        pose proof (IHa _ Hab) as Sa. pose proof (IHb _ Hab) as Sb. unfold ser_summary in Sa, Sb; cbn [fst snd] in *.
        rewrite E1 in Sa; rewrite E3 in Sb. destruct Sa as (? & ? & Ta); destruct Sb as (? & ? & _).
        repeat split; auto. rewrite Ta. intros [kind Hk]. eapply into_string_ok; eauto. }
      split; [|split].
      * intros H; inversion H; subst; edestruct G as (? & ? & ? & ? & ?); eauto.
      * intros H; inversion H; subst; edestruct G as (? & ? & ? & ? & ?); eauto.
      * split; [eexists; constructor | constructor].
    + destruct e as [a b]; cbn [fst snd] in *. pose proof (IHa _ He) as Sa. pose proof (IHb _ He) as Sb.
      unfold ser_summary in Sa, Sb; cbn [fst snd] in *.
      destruct Hx as [Hx|[Hx|(kv & Hx & Hx')]].
      * rewrite Hx in Sa. destruct x; auto; [eapply DwKey; eauto | destruct Sa as (? & ? & ?); split; auto; eapply BkKey; eauto].
      * rewrite Hx in Sb. destruct x; auto; [eapply DwVal; eauto | destruct Sb as (? & ? & ?); split; auto; eapply BkVal; eauto].
      * apply into_string_err in Hx' as (kind & Hk & ->). split; auto.
        rewrite Hx in Sa. eapply BkHere; eauto. apply Sa. eauto.
  - inversion U as [? S|?|?|?|?|?|? U'| | | | | ]; subst; [destruct S|].
    apply (ser_fields_summary DStruct fs) with (k := Done); eauto using DwStruct, BkStruct, TlStruct.
    + intros l0 H; inversion H; subst; eauto.
    + intros l0 H; inversion H; subst; eauto.
    + apply obind_ret.
    + intros vs; exists (VMap vs), (lit "Map"); split; [reflexivity | constructor].
  - inversion U as [? S|?|?|?|?|?|?|? U'| | | | ]; subst; [destruct S|]. specialize (IH U').
    unfold ser_summary in *; cbn [ser]. destruct (ser d) as [v|[]|]; auto.
    + destruct IH as (I1 & I2 & I3). split; [intros H; inversion H; tauto|]. split; [intros H; inversion H; tauto|].
      rewrite <- I3. split; [intros H; inversion H; auto | now constructor].
    + now constructor.
    + destruct IH as (I1 & I2 & I3). split; auto. now constructor.
  - inversion U as [? S|?|?|?|?|?|?|?|? U'| | | ]; subst; [destruct S|].
    apply (ser_list_summary DTupleStruct l) with (k := Done); eauto using DwTupleStruct, BkTupleStruct, TlTupleStruct.
    + intros l0 H; inversion H; subst; eauto.
    + intros l0 H; inversion H; subst; eauto.
    + apply obind_ret.
    + intros vs; exists (VArr vs), (lit "Array"); split; [reflexivity | constructor].
  - inversion U as [? S|?|?|?|?|?|?|?|?|? ? U'| | ]; subst; [destruct S|]. specialize (IH U').
    unfold ser_summary in *; cbn [ser]. destruct (ser d) as [v|[]|]; auto; cbn.
    + destruct IH as (I1 & I2 & I3). split; [intros H; inversion H; tauto|]. split; [intros H; inversion H; tauto|].
      split; [eexists; constructor | constructor].
    + now constructor.
    + destruct IH as (I1 & I2 & I3). split; auto. now constructor.
  - inversion U as [? S|?|?|?|?|?|?|?|?|?|? ? U'| ]; subst; [destruct S|].
    apply (ser_list_summary (DTupleVariant n) l) with (k := variant_map n); eauto using DwTupleVariant, BkTupleVariant, TlTupleVariant.
    + intros l0 H; inversion H; subst; eauto.
    + intros l0 H; inversion H; subst; eauto.
    + intros vs; exists (VMap [(n, VArr vs)]), (lit "Map"); split; [reflexivity | constructor].
  - inversion U as [? S|?|?|?|?|?|?|?|?|?|?|? ? U']; subst; [destruct S|].
    apply (ser_fields_summary (DStructVariant n) fs) with (k := variant_map n); eauto using DwStructVariant, BkStructVariant, TlStructVariant.
    + intros l0 H; inversion H; subst; eauto.
    + intros l0 H; inversion H; subst; eauto.
    + intros vs; exists (VMap [(n, VMap vs)]), (lit "Map"); split; [reflexivity | constructor].
Qed.
