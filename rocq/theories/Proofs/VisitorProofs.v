(** Values and arbitrary serde formats (C70-C72). *)
From Coq Require Import ZArith Bool String Lia Permutation.
From Coq Require Import Floats.SpecFloat.
From Coq Require Import List.
Import ListNotations.
From Verif.Model Require Import Text Num Flt Value Convert Serde Visitor.
From Verif.Spec Require Import Spec Containers Numerals EnvSpec SerdeSpec FloatSpec ShapeSpec VisitorSpec.
From Verif.Proofs Require Import Basics Conversions Utf8 SerProofs DeProofs SerdeMore Shape.
From Verif.Proofs Require Containers.
Local Open Scope Z_scope.

(** ** Induction on events *)
Section EventInd.
Variable P : event -> Prop.
Hypothesis Hflat : forall e, match e with EvSome _ | EvNewtype _ | EvSeq _ | EvMap _ => False | _ => True end -> P e.
Hypothesis Hsome : forall e, P e -> P (EvSome e).
Hypothesis Hnew : forall e, P e -> P (EvNewtype e).
Hypothesis Hseq : forall l, (forall e, In e l -> P e) -> P (EvSeq l).
Hypothesis Hmap : forall m, (forall k e, In (k, e) m -> P e) -> P (EvMap m).
Fixpoint event_ind' (e : event) : P e.
Proof.
  destruct e as [| | | | | | | | |e|e|l|m| |]; try (apply Hflat; exact I).
  - apply Hsome, event_ind'.
  - apply Hnew, event_ind'.
  - apply Hseq. induction l as [|a l IH]; intros x H; [destruct H|].
    destruct H as [<-|H]; [apply event_ind' | apply IH, H].
  - apply Hmap. induction m as [|[k0 a] m IH]; intros k x H; [destruct H|].
    destruct H as [E|H]; [| apply (IH k x H)].
    exact (eq_ind a P (event_ind' a) x (f_equal snd E)).
Defined.
End EventInd.

Lemma rbind_ok {A B E} (x : result A E) (f : A -> result B E) b :
  rbind x f = Ok b <-> exists a, x = Ok a /\ f a = Ok b.
Proof. destruct x; cbn; split; [eauto | intros (a' & [= <-] & H); auto | discriminate | intros (? & ? & ?); discriminate]. Qed.

(** ** Keys *)
Lemma visit_key_iff e s : visit_key e = Ok s <-> key_event e s.
Proof.
  split.
  - destruct e; cbn; try discriminate; try (intros [= <-]; constructor).
    destruct (utf8_decode l) eqn:E; cbn; [|discriminate]. intros [= <-]. constructor. now apply utf8_decode_spec.
  - intros H; inversion H; subst; cbn; auto. apply utf8_decode_spec in H0. now rewrite H0.
Qed.
Lemma visit_key_err e msg : visit_key e = Err msg -> forall s, ~ key_event e s.
Proof. intros H s K. apply visit_key_iff in K. congruence. Qed.

(** ** Sequences and maps *)
Definition elems_loop {A} (visit1 : A -> result value str) :=
  fix go (vec : list value) (l : list A) : result (list value) str :=
     match l with
     | [] => Ok vec
     | x :: t => rbind (visit1 x) (fun v => go (vec ++ [v]) t)
     end.
Lemma elems_iff {A} (visit1 : A -> result value str) l acc r :
  elems_loop visit1 acc l = Ok r <-> exists vs, Forall2 (fun x v => visit1 x = Ok v) l vs /\ r = acc ++ vs.
Proof.
  revert acc; induction l as [|x l IH]; intros acc; cbn.
  - split; [intros [= <-]; exists []; rewrite app_nil_r; auto|].
    intros (vs & F & ->); inversion F; subst. now rewrite app_nil_r.
  - rewrite rbind_ok. split.
    + intros (v & Hv & H). apply IH in H as (vs & F & ->). exists (v :: vs). rewrite <- app_assoc; auto.
    + intros (vs & F & ->); inversion F; subst. eexists; split; [eassumption|]. apply IH. eexists; split; [eassumption|].
      now rewrite <- app_assoc.
Qed.
Lemma visit_seq_iff l v : visit (EvSeq l) = Ok v <->
  exists vs, Forall2 (fun e x => visit e = Ok x) l vs /\ v = VArr vs.
Proof.
  cbn [visit]. rewrite rbind_ok. change (visit_elems visit l) with (elems_loop visit [] l). split.
  - intros (r & H & [= <-]). apply elems_iff in H as (vs & F & ->). eauto.
  - intros (vs & F & ->). exists vs; split; auto. apply elems_iff. exists vs; auto.
Qed.
Definition eentries_loop {A} (visit1 : A -> result value str) :=
  fix go (hash_map : vmap) (l : list (event * A)) : result vmap str :=
     match l with
     | [] => Ok hash_map
     | (k, x) :: t =>
       rbind (visit_key k) (fun key =>
       rbind (visit1 x) (fun v => go (minsert key v hash_map) t))
     end.
Definition entry_ok {A} (visit1 : A -> result value str) (e : event * A) (b : str * value) : Prop :=
  key_event (fst e) (fst b) /\ visit1 (snd e) = Ok (snd b).
Lemma eentries_iff {A} (visit1 : A -> result value str) l acc r :
  eentries_loop visit1 acc l = Ok r <->
  exists h, Forall2 (entry_ok visit1) l h /\ VMap r = fst (set_calls (VMap acc) h).
Proof.
  revert acc; induction l as [|[k x] l IH]; intros acc; cbn [eentries_loop].
  - split; [intros [= <-]; exists []; auto|]. intros (h & F & E); inversion F; subst. cbn in E; now injection E as ->.
  - rewrite rbind_ok. split.
    + intros (s & Hs & H). apply rbind_ok in H as (v & Hv & H). apply IH in H as (h & F & E).
      exists ((s, v) :: h). split; [constructor; auto; split; auto; now apply visit_key_iff|].
      cbn. now destruct (set_calls (VMap (minsert s v acc)) h).
    + intros (h & F & E). inversion F as [|? [s v] ? h' [K V] F']; subst. cbn [fst snd] in *.
      exists s; split; [now apply visit_key_iff|]. apply rbind_ok. exists v; split; auto.
      apply IH. exists h'; split; auto. cbn in E. now destruct (set_calls (VMap (minsert s v acc)) h').
Qed.
Lemma visit_map_iff es v : visit (EvMap es) = Ok v <->
  exists h m, Forall2 (entry_ok visit) es h /\ v = VMap m /\ VMap m = fst (set_calls (VMap []) h).
Proof.
  cbn [visit]. rewrite rbind_ok. change (visit_entries visit es) with (eentries_loop visit [] es). split.
  - intros (r & H & [= <-]). apply eentries_iff in H as (h & F & E). eauto 6.
  - intros (h & m & F & -> & E). exists m; split; auto. apply eentries_iff. eauto.
Qed.

(** ** C70: what is read *)
Lemma visit_reads e v : visit e = Ok v -> reads_as e v.
Proof.
  revert v; induction e as [e F|e IH|e IH|l IH|m IH] using event_ind'; intros v H.
  - destruct e; cbn in F; try tauto; cbn in H; try discriminate; try (injection H as <-; now constructor).
    + destruct t; injection H as <-; constructor; cbn; auto 6.
    + injection H as <-. constructor. apply f32_widens.
  - constructor. now apply IH.
  - discriminate.
  - apply visit_seq_iff in H as (vs & F & ->). constructor.
    induction F as [|x y l vs E F IHF]; constructor; [apply IH; cbn; auto|].
    apply IHF. intros; apply IH; cbn; auto.
  - apply visit_map_iff in H as (h & m' & F & -> & E). destruct (set_calls_bindings h) as (m'' & E' & B).
    rewrite E' in E; injection E as ->. apply RaMap with h; auto. clear - F IH.
    induction F as [|[k x] [s y] l vs [K V] F IHF]; constructor; auto; [eapply IH; cbn; eauto|].
    apply IHF. intros; eapply IH; cbn; eauto.
Qed.

Lemma visit_unreadable e : unreadable e -> forall v, visit e <> Ok v.
Proof.
  induction 1 as [l|e|  |msg|e U IH|l e Hin U IH|m k e Hin N|m k e Hin U IH]; intros v H; try discriminate.
  - eapply IH; eauto.
  - apply visit_seq_iff in H as (vs & F & ->).
    apply In_nth_error in Hin as (i & Hi).
    destruct (nth_error_Forall2_l _ _ _ _ _ F Hi) as (y & _ & Hy). exact (IH y Hy).
  - apply visit_map_iff in H as (h & m' & F & -> & _).
    apply In_nth_error in Hin as (i & Hi). destruct (nth_error_Forall2_l _ _ _ _ _ F Hi) as ([s y] & _ & K & _). exact (N s K).
  - apply visit_map_iff in H as (h & m' & F & -> & _).
    apply In_nth_error in Hin as (i & Hi). destruct (nth_error_Forall2_l _ _ _ _ _ F Hi) as ([s y] & _ & _ & V). exact (IH y V).
Qed.

Lemma key_total e : (exists s, key_event e s) \/ (forall s, ~ key_event e s).
Proof.
  destruct (visit_key e) as [s|msg] eqn:E.
  - left; exists s; now apply visit_key_iff.
  - right; intros s K. apply visit_key_iff in K; congruence.
Qed.
Lemma visit_total e : (exists v, visit e = Ok v) \/ unreadable e.
Proof.
  induction e as [e F|e IH|e IH|l IH|m IH] using event_ind'.
  - destruct e; cbn in F; try tauto; try (right; constructor); left; cbn; eauto.
    destruct t; eauto.
  - destruct IH as [IH|IH]; [left; exact IH | right; now constructor].
  - right; constructor.
  - assert (H : (exists vs, Forall2 (fun e x => visit e = Ok x) l vs) \/ exists e, In e l /\ unreadable e).
    { clear - IH. induction l as [|e l IHl]; [left; exists []; constructor|].
      destruct (IH e (or_introl eq_refl)) as [(v & Hv)|U]; [|right; exists e; cbn; auto].
      destruct IHl as [(vs & F)|(x & Hx & U)]; [intros; apply IH; cbn; auto | |right; exists x; cbn; auto].
      left; exists (v :: vs); constructor; auto. }
    destruct H as [(vs & F)|(x & Hx & U)].
    + left; exists (VArr vs). apply visit_seq_iff; eauto.
    + right; apply (UrSeq l x); auto.
  - assert (H : (exists h, Forall2 (entry_ok visit) m h) \/ unreadable (EvMap m)).
    { clear - IH. induction m as [|[k e] m IHm]; [left; exists []; constructor|].
      destruct (key_total k) as [(s & K)|N]; [|right; apply (UrKey _ k e); cbn; auto].
      destruct (IH k e (or_introl eq_refl)) as [(v & Hv)|U]; [|right; apply (UrVal _ k e); cbn; auto].
      destruct IHm as [(h & F)|U]; [intros; eapply IH; cbn; eauto | |].
      - left; exists ((s, v) :: h); constructor; auto. split; auto.
      - right. inversion U; subst; [eapply UrKey | eapply UrVal]; cbn; eauto. }
    destruct H as [(h & F)|U]; [left | now right].
    destruct (set_calls_bindings h) as (r & E & _). exists (VMap r). apply visit_map_iff. exists h, r; auto.
Qed.

(** What is read is determined, up to the order in which maps list their
    entries. *)
Lemma key_event_fun e s s' : key_event e s -> key_event e s' -> s = s'.
Proof. intros A B. apply visit_key_iff in A, B. congruence. Qed.

(** ** Histories without repeated keys *)
Lemma last_binding_nodup {A} (h : list (str * A)) k x : NoDup (map fst h) -> (last_binding h k x <-> In (k, x) h).
Proof.
  intros ND; split.
  - intros (b & a & -> & _). apply in_or_app; right; now left.
  - intros H. apply in_split in H as (b & a & ->). exists b, a; split; auto.
    rewrite map_app in ND. cbn in ND. apply NoDup_remove_2 in ND. intros N; apply ND, in_or_app; now right.
Qed.

Lemma visit_map_nodup es h : Forall2 (entry_ok visit) es h -> NoDup (map fst h) ->
  exists m, visit (EvMap es) = Ok (VMap m) /\ NoDup (map fst m) /\ forall k x, In (k, x) m <-> In (k, x) h.
Proof.
  intros F ND. destruct (set_calls_bindings h) as (m & E & ND' & B).
  exists m; split; [apply visit_map_iff; eauto 6|]. split; auto.
  intros k x. rewrite B. now apply last_binding_nodup.
Qed.

Definition entry_call (e : str * value) : data * data := (DStr (fst e), value_calls (snd e)).
Lemma entry_call_perm m m' : Permutation (map entry_call m) m' ->
  exists n, m' = map entry_call n /\ Permutation m n.
Proof. intros H. apply Permutation_sym, Permutation_map_inv in H as (n & E & P). exists n; split; auto. Qed.

(** ** C71: faithful formats *)
Lemma faithful_back e : forall v, uniq v -> faithful (value_calls v) e ->
  exists v', visit e = Ok v' /\ vequiv v v'.
Proof.
  induction e as [e F|e IH|e IH|l IH|es IH] using event_ind'; intros v U H.
  - destruct e; cbn in F; try tauto; inversion H; subst; destruct v; cbn in *; try discriminate;
      repeat match goal with E : DBool _ = DBool _ |- _ => injection E as -> | E : DInt _ _ = DInt _ _ |- _ => injection E as -> ->
        | E : DF64 _ = DF64 _ |- _ => injection E as -> | E : DStr _ = DStr _ |- _ => injection E as -> end;
      eexists; (split; [reflexivity | constructor; exact I]).
  - inversion H; subst. cbn. now apply IH.
  - inversion H.
  - inversion H as [| | | | | | |ds ? F E|]; subst. destruct v; try discriminate. cbn in E. injection E as ->.
    pose proof (proj1 (uniq_arr _) U) as U'.
    assert (G : exists vs, Forall2 (fun e x => visit e = Ok x) l vs /\ Forall2 vequiv l0 vs).
    { clear H U. revert l IH F; induction l0 as [|x l0 IHl]; intros l IH F; inversion F as [|? e ? l' Fx Fl]; subst; [exists []; auto|].
      destruct (IH e (or_introl eq_refl) x) as (y & Hy & E); cbn; auto; [apply U'; cbn; auto|].
      destruct (IHl (fun z Hz => U' z (or_intror Hz)) l') as (vs & V1 & V2); [intros; apply IH; cbn; auto | auto |].
      exists (y :: vs); split; constructor; auto. }
    destruct G as (vs & V1 & V2). exists (VArr vs). split; [apply visit_seq_iff; eauto | now constructor].
  - inversion H as [| | | | | | | |ds ds' ? P F E]; subst. destruct v; try discriminate. cbn in E. injection E as ->.
    change (fun e : list char * value => (DStr (fst e), value_calls (snd e))) with entry_call in P.
    apply entry_call_perm in P as (n & -> & P).
    apply uniq_map in U as [ND U].
    assert (G : exists h, Forall2 (entry_ok visit) es h /\ Forall2 (fun a b => fst a = fst b /\ vequiv (snd a) (snd b)) n h).
    { assert (Un : forall k x, In (k, x) n -> uniq x) by (intros k x Hx; apply (U k x), (Permutation_in _ (Permutation_sym P)), Hx).
      clear - IH F Un. revert es IH F; induction n as [|[k x] n IHn]; intros es IH F.
      - inversion F; subst. exists []; auto.
      - inversion F as [|s ke d e m' es' K Fx Fn]; subst. cbn [fst snd] in *.
        destruct (IH ke e (or_introl eq_refl) x) as (y & Hy & E); auto; [eapply Un; cbn; eauto|].
        destruct (IHn (fun k' z Hz => Un k' z (or_intror Hz)) es') as (h & V1 & V2); [intros; eapply IH; cbn; eauto | auto |].
        exists ((k, y) :: h); split; constructor; auto; split; auto. }
    destruct G as (h & V1 & V2).
    assert (Ek : map fst h = map fst n).
    { clear - V2. induction V2 as [|? ? ? ? [E _] ? IH]; cbn; [auto | now rewrite E, IH]. }
    destruct (visit_map_nodup es h) as (m' & Hm & ND' & B); auto.
    { rewrite Ek. apply (Permutation_NoDup (Permutation_map fst P)), ND. }
    exists (VMap m'); split; auto. constructor.
    + intros k x Hx. apply (Permutation_in _ P) in Hx. apply In_nth_error in Hx as (i & Hi).
      destruct (nth_error_Forall2_l _ _ _ _ _ V2 Hi) as ([k' y] & Hy & E1 & E2). cbn in *; subst k'.
      exists y; split; auto. apply B. eapply nth_error_In; eauto.
    + intros k y Hy. apply B in Hy. apply In_nth_error in Hy as (i & Hi).
      destruct (nth_error_Forall2_r _ _ _ _ _ V2 Hi) as ([k' x] & Hx & E1 & E2). cbn in *; subst k'.
      exists x; split; auto. apply (Permutation_in _ (Permutation_sym P)). eapply nth_error_In; eauto.
Qed.

(** ** C72: formats that keep numbers *)
Lemma visit_int t z : visit (EvInt t z) = Ok (from_int t z).
Proof. destruct t; reflexivity. Qed.
(** Unique keys and integers in the range of their variant, at every depth. *)
Inductive ranged : value -> Prop :=
| RgInt v z src : int_value v z src -> wf v -> ranged v
| RgFlat v : scalarv v -> (forall z src, ~ int_value v z src) -> ranged v
| RgArr l : (forall x, In x l -> ranged x) -> ranged (VArr l)
| RgMap m : NoDup (map fst m) -> (forall k x, In (k, x) m -> ranged x) -> ranged (VMap m).
Ltac flat := apply RgFlat; [exact I | let X := fresh in intros ? ? X; inversion X; fail].
Lemma ranged_arr l : ranged (VArr l) <-> (forall x, In x l -> ranged x).
Proof. split; [|apply RgArr]. intros H; inversion H as [? ? ? I|? S| |]; subst; [inversion I | cbn in S; tauto | auto]. Qed.
Lemma ranged_map m : ranged (VMap m) <-> NoDup (map fst m) /\ (forall k x, In (k, x) m -> ranged x).
Proof. split; [|intros []; now apply RgMap]. intros H; inversion H as [? ? ? I|? S| |]; subst; [inversion I | cbn in S; tauto | auto]. Qed.
Lemma ranged_int v z src : ranged v -> int_value v z src -> wf v.
Proof. intros H I. inversion H as [? ? ? I'|? S N| |]; subst; auto; [destruct (N _ _ I) | inversion I | inversion I]. Qed.
Lemma ranged_uniq v : ranged v -> uniq v.
Proof.
  induction v as [v S|l IH|m IH] using value_ind'; intros H.
  - now constructor.
  - apply uniq_arr. intros x Hx. apply IH; auto. now apply (proj1 (ranged_arr l) H).
  - apply ranged_map in H as [ND H]. apply uniq_map. split; auto. intros k x Hx. eapply IH; eauto.
Qed.
Lemma wf_ranged v : wf v -> ranged v.
Proof.
  induction v as [v S|l IH|m IH] using value_ind'; intros W.
  - destruct v; cbn in S; try tauto; try (flat; fail); eapply RgInt; eauto; constructor.
  - apply ranged_arr. intros x Hx. apply IH; auto. now apply (proj1 (wf_arr l) W).
  - apply wf_map in W as [ND W]. apply ranged_map; split; auto. intros k x Hx; eapply IH; eauto. eapply W; eauto.
Qed.

Lemma keeps_back drop e : forall v, ranged v -> keeps_numbers drop (value_calls v) e ->
  exists v', visit e = Ok v' /\ ranged v' /\ same_numbers drop v v'.
Proof.
  induction e as [e F|e IH|e IH|l IH|es IH] using event_ind'; intros v W H.
  - destruct e; cbn in F; try tauto; try (inversion H; fail).
    + inversion H as [b' E| | | | | | | |]; subst. destruct v; try discriminate. cbn in E; injection E as ->.
      exists (VBool b0); split; [reflexivity|]; split; [flat | constructor].
    + inversion H as [|t0 t' z' Fz E| | | | | | |]; subst. rewrite visit_int. exists (from_int t z).
      destruct (from_int_value t z) as (src' & I').
      split; [reflexivity|]. split; [eapply RgInt; [exact I' | now apply from_int_wf]|].
      destruct v; try discriminate; cbn in E; injection E as _ E2; subst;
        (eapply SnInt; [constructor | exact I']).
    + inversion H as [| |f' E| | | | | |]; subst. destruct v; try discriminate. cbn in E; injection E as ->.
      exists (VFloat f0); split; [reflexivity|]; split; [exact W | constructor].
    + inversion H as [| | |s' E| | | | |]; subst. destruct v; try discriminate. cbn in E; injection E as ->.
      exists (VStr s0); split; [reflexivity|]; split; [exact W | constructor].
    + inversion H; subst. destruct v; try discriminate. exists VNone; split; [reflexivity|]; split; [flat | constructor].
    + inversion H; subst. destruct v; try discriminate. exists VNone; split; [reflexivity|]; split; [flat | constructor].
  - inversion H; subst. cbn. now apply IH.
  - inversion H.
  - inversion H as [| | | | | | |ds ? F E|]; subst. destruct v; try discriminate. cbn in E. injection E as ->.
    pose proof (proj1 (ranged_arr _) W) as W'.
    assert (G : exists vs, Forall2 (fun e x => visit e = Ok x) l vs /\ (forall x, In x vs -> ranged x) /\ Forall2 (same_numbers drop) l0 vs).
    { clear H W. revert l IH F; induction l0 as [|x l0 IHl]; intros l IH F; inversion F as [|? e ? l' Fx Fl]; subst.
      - exists []; split; [|split]; auto; intros ? [].
      - destruct (IH e (or_introl eq_refl) x) as (y & Hy & Wy & E); cbn; auto; [apply W'; cbn; auto|].
        destruct (IHl (fun z Hz => W' z (or_intror Hz)) l') as (vs & V1 & Wv & V2); [intros; apply IH; cbn; auto | auto |].
        exists (y :: vs); split; [|split]; [constructor; auto | | constructor; auto].
        intros z [<-|Hz]; auto. }
    destruct G as (vs & V1 & Wv & V2). exists (VArr vs). split; [apply visit_seq_iff; eauto |].
    split; [now apply ranged_arr | now constructor].
  - inversion H as [| | | | | | | |ds ds' ? P F E]; subst. destruct v; try discriminate. cbn in E. injection E as ->.
    change (fun e : list char * value => (DStr (fst e), value_calls (snd e))) with entry_call in P.
    apply entry_call_perm in P as (n & -> & P).
    apply ranged_map in W as [ND W].
    assert (NDn : NoDup (map fst n)) by apply (Permutation_NoDup (Permutation_map fst P)), ND.
    assert (Wn : forall k x, In (k, x) n -> ranged x)
      by (intros k x Hx; apply (W k x), (Permutation_in _ (Permutation_sym P)), Hx).
    assert (G : exists h, Forall2 (entry_ok visit) es h /\ NoDup (map fst h)
      /\ (forall k x, In (k, x) h -> ranged x)
      /\ (forall k, In k (map fst h) -> In k (map fst n))
      /\ (forall k x, In (k, x) n ->
            (exists y, In (k, y) h /\ same_numbers drop x y) \/ (drop = true /\ x = VNone /\ ~ In k (map fst h)))
      /\ (forall k y, In (k, y) h -> exists x, In (k, x) n /\ same_numbers drop x y)).
    { clear - IH F Wn NDn. revert es IH F; induction n as [|[k x] n IHn]; intros es IH F.
      - inversion F; subst. exists []. split; [constructor|]. split; [constructor|]. split; [intros ? ? []|]. split; [intros ? []|]. split; intros ? ? [].
      - cbn in NDn. apply NoDup_cons_iff in NDn as [Nk NDn].
        pose proof (Wn k x (or_introl eq_refl)) as Wx.
        inversion F as [|s ke d e m' es' K Fx Fn|s m' ? Ed Fn].
        + subst. cbn [fst snd] in *.
          destruct (IH ke e (or_introl eq_refl) x) as (y & Hy & Wy & E); auto.
          destruct (IHn NDn (fun k' z Hz => Wn k' z (or_intror Hz)) es') as (h & V1 & V2 & V3 & V4 & V5 & V6);
            [intros; eapply IH; cbn; eauto | auto |].
          exists ((k, y) :: h). repeat apply conj.
          * constructor; auto; split; auto.
          * cbn. constructor; auto.
          * intros k' z [Ez|Hz]; [injection Ez as <- <-; auto | eauto].
          * intros k' [Ek|Hk]; cbn in *; auto.
          * intros k' z [Ez|Hz]; [injection Ez as <- <-; left; exists y; cbn; auto|].
            destruct (V5 k' z Hz) as [(y' & Hy' & E')|(Ed & Ez & N)]; [left; exists y'; cbn; auto|].
            right; split; auto; split; auto. cbn. intros [<-|Hk]; auto. apply Nk, (in_map fst _ _ Hz).
          * intros k' z [Ez|Hz]; [injection Ez as <- <-; exists x; cbn; auto|].
            destruct (V6 k' z Hz) as (x' & Hx' & E'); exists x'; cbn; auto.
        + subst. destruct x; try discriminate.
          destruct (IHn NDn (fun k' z Hz => Wn k' z (or_intror Hz)) es) as (h & V1 & V2 & V3 & V4 & V5 & V6); auto.
          exists h. repeat apply conj; auto.
          * intros k' Hk; cbn; auto.
          * intros k' z [Ez|Hz]; [|eauto]. injection Ez as <- <-. right; split; auto; split; auto.
          * intros k' z Hz. destruct (V6 k' z Hz) as (x' & Hx' & E'); exists x'; cbn; auto. }
    destruct G as (h & V1 & V2 & V3 & V4 & V5 & V6).
    destruct (visit_map_nodup es h V1 V2) as (m' & Hm & ND' & B).
    assert (Bk : forall k, In k (map fst m') -> In k (map fst h)).
    { intros k Hk. apply in_map_iff in Hk as ([k' x] & <- & Hx). apply B in Hx. exact (in_map fst _ _ Hx). }
    exists (VMap m'); split; auto. split.
    + apply ranged_map; split; auto. intros k x Hx. apply (V3 k x), B, Hx.
    + apply SnMap.
      * intros k x Hx. apply (Permutation_in _ P) in Hx. destruct (V5 k x Hx) as [(y & Hy & E)|(Ed & Ex & N)].
        -- left; exists y; split; auto; now apply B.
        -- right; repeat split; auto.
      * intros k y Hy. apply B in Hy. destruct (V6 k y Hy) as (x & Hx & E). exists x; split; auto.
        apply (Permutation_in _ (Permutation_sym P)), Hx.
Qed.

Lemma Forall2_same_length {A B} (R : A -> B -> Prop) l r : Forall2 R l r -> List.length l = List.length r.
Proof. induction 1; cbn; auto. Qed.

(** ** Same numbers: no typed question tells *)
Lemma sn_kinds drop v v' : same_numbers drop v v' ->
  is_none v = is_none v' /\ is_array v = is_array v' /\ is_map v = is_map v'.
Proof. intros H; inversion H as [| |? ? ? ? ? I I'| | | |]; subst; try (repeat split; reflexivity); inversion I; inversion I'; subst; repeat split. Qed.
Lemma sn_int_r drop v v' z src : int_value v z src -> same_numbers drop v v' -> exists src', int_value v' z src'.
Proof. intros A H; inversion H as [| |? ? z' ? ? I I'| | | |]; subst; inversion A; subst; try inversion I; subst; eauto. Qed.

Lemma sn_alike drop v v' : ranged v -> ranged v' -> same_numbers drop v v' -> alike v v'.
Proof.
  intros W W' H. destruct (sn_kinds _ _ _ H) as (K1 & K2 & K3).
  assert (L : (arrayv v -> v_len v = v_len v') /\ (scalarv v -> v_len v = v_len v')).
  { split.
    - intros (l & ->). inversion H as [| |? ? ? ? ? I I'| | |? r F|]; subst; [inversion I|]. cbn. eapply Forall2_same_length; eauto.
    - intros S. inversion H as [| |? ? ? ? ? I I'| | |? r F|]; subst; cbn in S; try tauto. inversion I; inversion I'; subst; reflexivity. }
  inversion H as [|b|? ? z src src' I I'|f|s|l r F|m n F1 F2]; subst; unfold alike; repeat apply conj; try tauto;
    try (intros; intros x; tauto); try (intros; intros x; split; discriminate).
  - intros t x. destruct (into_int_int v z src t (ranged_int _ _ _ W I) I) as [A1 A2], (into_int_int v' z src' t (ranged_int _ _ _ W' I') I') as [B1 B2].
    destruct (in_range t z) eqn:E.
    + apply in_range_fits in E. rewrite A1, B1; tauto.
    + apply in_range_false in E. rewrite A2, B2 by auto. split; discriminate.
  - intros x. rewrite (into_bool_int _ _ _ I), (into_bool_int _ _ _ I'). tauto.
  - intros x. inversion I; inversion I'; subst; cbn; tauto.
  - intros x. destruct (into_char_all v) as (_ & _ & A1 & A2 & _), (into_char_all v') as (_ & _ & B1 & B2 & _).
    destruct (Z_le_dec 0 z); [destruct (Z_le_dec z 255)|].
    + rewrite (A1 _ _ I), (B1 _ _ I') by lia; tauto.
    + destruct (A2 _ _ I) as (? & ->); [lia|]. destruct (B2 _ _ I') as (? & ->); [lia|]. split; discriminate.
    + destruct (A2 _ _ I) as (? & ->); [lia|]. destruct (B2 _ _ I') as (? & ->); [lia|]. split; discriminate.
  - intros x. inversion I; inversion I'; subst; cbn; tauto.
Qed.

Lemma sn_get drop v v' k : uniq v -> uniq v' -> same_numbers drop v v' -> same_numbers drop (v_get v k) (v_get v' k).
Proof.
  intros U U' H. inversion H as [|b|? ? z src src' I I'|f|s|l r F|m n F1 F2]; subst; try (cbn; constructor).
  - inversion I; inversion I'; subst; cbn; constructor.
  - apply uniq_map in U as [ND _], U' as [ND' _]. cbn. destruct (mget k m) eqn:E.
    + apply mget_In in E. destruct (F1 _ _ E) as [(y & Hy & S)|(_ & -> & N)].
      * now rewrite (In_mget k y n).
      * apply mget_None in N. rewrite N. constructor.
    + destruct (mget k n) eqn:E'; [|constructor]. apply mget_In in E'. destruct (F2 _ _ E') as (x & Hx & S).
      rewrite (In_mget k x m) in E; auto. discriminate.
Qed.
Lemma sn_at drop v v' i : same_numbers drop v v' -> same_numbers drop (v_at v i) (v_at v' i).
Proof.
  intros H. inversion H as [|b|? ? z src src' I I'|f|s|l r F|m n F1 F2]; subst; try (cbn; constructor).
  - inversion I; inversion I'; subst; cbn; constructor.
  - cbn. destruct (nth_error l i) eqn:E.
    + destruct (nth_error_Forall2_l _ _ _ _ _ F E) as (y & -> & S). exact S.
    + destruct (nth_error r i) eqn:E'; [|constructor]. destruct (nth_error_Forall2_r _ _ _ _ _ F E') as (y & Hy & S). congruence.
Qed.
Lemma ranged_get v k : ranged v -> ranged (v_get v k).
Proof.
  intros W. destruct v; try (cbn; flat). cbn [v_get]. destruct (mget k m) eqn:E; [|flat].
  apply ranged_map in W as [_ W]. apply mget_In in E. now apply (W k v).
Qed.
Lemma ranged_at v i : ranged v -> ranged (v_at v i).
Proof.
  intros W. destruct v; try (cbn; flat). cbn [v_at]. destruct (nth_error l i) eqn:E; [|flat].
  apply (proj1 (ranged_arr _) W). eapply nth_error_In; eauto.
Qed.
Lemma sn_follow drop p : forall v v', ranged v -> ranged v' -> same_numbers drop v v' ->
  ranged (follow v p) /\ ranged (follow v' p) /\ same_numbers drop (follow v p) (follow v' p).
Proof.
  induction p as [|[k|i] p IH]; intros v v' W W' H; cbn; [auto| |].
  - apply IH; auto using ranged_get. apply sn_get; auto using ranged_uniq.
  - apply IH; auto using ranged_at. now apply sn_at.
Qed.
Lemma sn_len v v' : uniq v -> uniq v' -> same_numbers false v v' -> v_len v = v_len v'.
Proof.
  intros U U' H. inversion H as [|b|? ? z src src' I I'|f|s|l r F|m n F1 F2]; subst; try reflexivity.
  - inversion I; inversion I'; subst; reflexivity.
  - cbn. eapply Forall2_same_length; eauto.
  - apply uniq_map in U as [ND _], U' as [ND' _]. cbn. rewrite <- (map_length fst m), <- (map_length fst n).
    apply Nat.le_antisymm; apply NoDup_incl_length; auto; intros k Hk; apply in_map_iff in Hk as ([k' x] & <- & Hx); cbn.
    + destruct (F1 _ _ Hx) as [(y & Hy & _)|(? & _)]; [exact (in_map fst _ _ Hy) | discriminate].
    + destruct (F2 _ _ Hx) as (y & Hy & _). exact (in_map fst _ _ Hy).
Qed.

Lemma sn_wf drop v : forall v', same_numbers drop v v' -> ranged v' -> wf v -> wf v'.
Proof.
  induction v as [v S|l IH|m IH] using value_ind'; intros v' H R W.
  - inversion H as [|b|? ? z src src' I I'|f|s|l r F|m n F1 F2]; subst; cbn in S; try tauto. exact (ranged_int _ _ _ R I').
  - inversion H as [| |? ? ? ? ? I| | |? r F|]; subst; [inversion I|].
    pose proof (proj1 (ranged_arr _) R) as R'. pose proof (proj1 (wf_arr _) W) as W'. apply wf_arr.
    intros y Hy. apply In_nth_error in Hy as (i & Hi). destruct (nth_error_Forall2_r _ _ _ _ _ F Hi) as (x & Hx & E).
    apply nth_error_In in Hx, Hi. eapply IH; eauto.
  - inversion H as [| |? ? ? ? ? I| | | |? n F1 F2]; subst; [inversion I|].
    apply ranged_map in R as [ND R]. apply wf_map in W as [_ W]. apply wf_map; split; auto.
    intros k y Hy. destruct (F2 k y Hy) as (x & Hx & E). destruct (W k x Hx) as [T Wx]. split; auto. eapply IH; eauto.
Qed.

Lemma keeps_alike drop v e : wf v -> keeps_numbers drop (value_calls v) e ->
  exists v', visit e = Ok v' /\ wf v' /\ same_numbers drop v v'
  /\ forall p, alike (follow v p) (follow v' p) /\ (drop = false -> v_len (follow v p) = v_len (follow v' p)).
Proof.
  intros W H. pose proof (wf_ranged _ W) as R. destruct (keeps_back drop e v R H) as (v' & E & R' & S).
  exists v'. split; [auto|]. split; [eapply sn_wf; eauto|]. split; [auto|]. intros p.
  destruct (sn_follow drop p v v' R R' S) as (A & B & C). split; [apply (sn_alike drop); auto|].
  intros ->. apply sn_len; auto using ranged_uniq.
Qed.

(** ** What is read is determined and well formed *)
Lemma In_reads_entries es h s v : reads_entries es h -> In (s, v) h ->
  exists k e, In (k, e) es /\ key_event k s /\ reads_as e v.
Proof.
  induction 1 as [|k s' e v' es h K R H IH]; cbn; [tauto|]. intros [[= <- <-]|Hin].
  - exists k, e; auto.
  - destruct (IH Hin) as (k1 & e1 & ? & ? & ?). exists k1, e1; auto.
Qed.
Lemma reads_fun e : sound_event e -> forall v v', reads_as e v -> reads_as e v' -> vequiv v v'.
Proof.
  induction e as [e F|e IH|e IH|l IH|m IH] using event_ind'; intros S v v' H H'.
  - destruct e; cbn in F; try tauto; inversion H; subst; inversion H'; subst; try (constructor; exact I);
      try (repeat match goal with X : In _ _ |- _ => cbn in X end; intuition (subst; discriminate)).
    inversion S; subst. rewrite (widens_unique f g g0) by auto. constructor; exact I.
  - inversion S; subst; inversion H; subst; inversion H'; subst. auto.
  - inversion H.
  - inversion S as [| | | | | | | | | | |? Sl| | |]; subst.
    inversion H as [| | | | | | | | | | | |? vs F|]; subst; inversion H' as [| | | | | | | | | | | |? vs' F'|]; subst.
    constructor. clear - IH Sl F F'. revert vs' F'; induction F as [|e x l vs R F IHF]; intros vs' F'; inversion F'; subst; constructor.
    + eapply IH; cbn; eauto. apply Sl; cbn; auto.
    + apply IHF; auto; [intros; eapply IH; cbn; eauto | intros; apply Sl; cbn; auto].
  - inversion S as [| | | | | | | | | | | |? Sl| |]; subst.
    inversion H as [| | | | | | | | | | | | |? h1 m1 F B]; subst; inversion H' as [| | | | | | | | | | | | |? h2 m2 F' B']; subst.
    refine (bindings_vequiv h1 h2 m1 m2 _ B B'). clear - IH Sl F F'.
    revert h2 F'; induction F as [|k s e v es h K R F IHF]; intros h2 F'; inversion F' as [|? s' ? v' ? h' K' R' G]; subst; constructor.
    + cbn. split; [eapply key_event_fun; eauto|]. eapply IH; cbn; eauto. eapply Sl; cbn; eauto.
    + apply IHF; auto; [intros; eapply IH; cbn; eauto | intros; eapply Sl; cbn; eauto].
Qed.

Lemma is_scalar_text c : is_text [c] = true -> is_scalar c = true.
Proof. cbn. now rewrite andb_true_r. Qed.
Lemma sound_key k s : sound_event k -> key_event k s -> is_text s = true.
Proof. intros S K. inversion K as [| |l ? U]; subst; [inversion S; auto | inversion S; auto | now apply utf8_iff in U]. Qed.
Lemma reads_wf e : sound_event e -> forall v, reads_as e v -> wf v.
Proof.
  induction e as [e F|e IH|e IH|l IH|m IH] using event_ind'; intros S v H.
  - destruct e; cbn in F; try tauto; inversion H; subst; inversion S as [|t0 z0 Fz| | | | | | | | | | | | |]; subst; cbn; auto.
    + cbn in *; match goal with X : _ \/ _ |- _ => destruct X as [<-|[<-|[<-|[<-|[]]]]] end; exact (from_int_wf _ _ Fz).
    + now apply in_range_fits.
    + cbn in *; match goal with X : _ \/ _ |- _ => destruct X as [<-|[<-|[<-|[<-|[]]]]] end; exact (from_int_wf _ _ Fz).
    + now apply in_range_fits.
    + match goal with X : _ -> widens _ _ |- _ => apply X; assumption end.
  - inversion S; subst; inversion H; subst; auto.
  - inversion H.
  - inversion S as [| | | | | | | | | | |? Sl| | |]; subst. inversion H as [| | | | | | | | | | | |? vs F|]; subst.
    apply wf_arr. intros x Hx. apply In_nth_error in Hx as (i & Hi).
    destruct (nth_error_Forall2_r _ _ _ _ _ F Hi) as (e & He & R). apply nth_error_In in He. exact (IH e He (Sl e He) x R).
  - inversion S as [| | | | | | | | | | | |? Sl| |]; subst. inversion H as [| | | | | | | | | | | | |? h1 m1 F [ND B]]; subst.
    apply wf_map; split; auto. intros k x Hx. apply B in Hx. destruct Hx as (b & a & -> & _).
    destruct (In_reads_entries _ _ k x F) as (ke & e & Hin & K & R); [apply in_or_app; cbn; auto|].
    destruct (Sl ke e Hin) as [S1 S2]. split; [exact (sound_key ke k S1 K) | exact (IH ke e Hin S2 x R)].
Qed.

(** ** The events of a Value *)
Lemma faithful_own v : faithful (value_calls v) (value_events v).
Proof.
  induction v as [v S|l IH|m IH] using value_ind'.
  - destruct v; cbn in S; try tauto; constructor.
  - cbn. constructor. induction l; cbn; constructor; [apply IH; cbn; auto | apply IHl; intros; apply IH; cbn; auto].
  - cbn. eapply FaMap; [reflexivity|]. induction m as [|[k x] m IHm]; cbn; constructor; [constructor | eapply IH; cbn; eauto | apply IHm; intros; eapply IH; cbn; eauto].
Qed.
Lemma visit_own v : uniq v -> exists v', visit (value_events v) = Ok v' /\ vequiv v v'.
Proof. intros U. apply faithful_back; auto. apply faithful_own. Qed.
