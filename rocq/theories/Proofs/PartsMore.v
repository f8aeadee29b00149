(** Types made of parts through a file (C124), and what holds of every own part
    that was read (C125). *)
From Coq Require Import ZArith Bool String Lia List.
Import ListNotations.
From Verif.Model Require Import Text Num Flt Value Convert Serde Readers.
From Verif.Spec Require Import Spec Numerals EnvSpec SerdeSpec VisitorSpec TomlSpec ReadersSpec PartsSpec.
From Verif.Proofs Require Import Basics Conversions SerProofs DeProofs SerdeMore RoundTrip VisitorProofs FormatTrip Loaded ReadAs ReadersProofs.
Local Open Scope nat_scope.

Lemma plain_arr l : toml_plain (VArr l) <-> forall x, In x l -> toml_plain x.
Proof. split; [intros H; now inversion H | now constructor]. Qed.
Lemma plain_map m : toml_plain (VMap m) <-> forall k x, In (k, x) m -> toml_plain x.
Proof. split; [intros H; now inversion H | now constructor]. Qed.
Definition lasts (E : data -> data -> Prop) (t : rty) : Prop := forall d v v', rtyped t d -> outlives E t d ->
  writes t d (Done v) -> same_numbers true v v' -> wf v' -> toml_plain v' -> exists d', answers t v' (Done d') /\ same_datum E t d d'.

Lemma none_writes t d : rproper t -> rtyped t d -> (writes t d (Done VNone) <-> writes_none t d).
Proof. intros P T. rewrite (wagrees_done t (ser_writes t P) d VNone T). now apply none_iff. Qed.
Lemma sn_none v v' : same_numbers true v v' -> (v' = VNone <-> v = VNone).
Proof. intros S. destruct (sn_kinds _ _ _ S) as (K & _). destruct v, v'; cbn in K; split; congruence. Qed.

Theorem outlives_lasts E t : rproper t -> lasts E t.
Proof.
  induction t as [r w|t IH|t IH|t IH|ts IH|t IH|fs IH] using rty_ind'; intros P d v v' T O W S Wf Tp.
  - inversion O as [? ? ? x Ew Er| | | | | | |]; subst. inversion W; subst. assert (x = v) as -> by congruence.
    destruct (Er v' S Wf Tp) as (d' & Ed & He). exists d'. split; [rewrite <- Ed; constructor | now constructor].
  - inversion P; subst. inversion O as [|?|? x Ox Nx| | | | |]; subst.
    + inversion W as [|?| | | | | | | | | |]; subst. assert (v' = VNone) as -> by (now apply (sn_none _ _ S)). exists DNone. split; constructor.
    + inversion W; subst. inversion T; subst. destruct (IH ltac:(assumption) x v v') as (d' & A & D); auto. exists (DSome d'). split; constructor; auto.
      intros ->. apply Nx. apply none_writes; auto. assert (v = VNone) as <- by (now apply (sn_none _ _ S)). assumption.
  - inversion P; subst. inversion O; subst. inversion W; subst. inversion T; subst. destruct (IH ltac:(assumption) d0 v v') as (d' & A & D); auto.
    exists (DNewtype d'). split; constructor; auto.
  - inversion P; subst. inversion O as [| | | |? l Ol| | |]; subst. inversion T as [| | | |? ? Tl| | |]; subst.
    inversion W as [| | | |? ? vs F|? ? ? ? ? ? ? Z| | | | | |]; subst; [|exfalso; eapply stops_not; eassumption].
    apply sn_arr_l in S as (vs' & -> & Fs). rewrite wf_arr in Wf. rewrite plain_arr in Tp. specialize (IH ltac:(assumption)).
    assert (G : exists l', Forall2 (fun x d => answers t x (Done d)) vs' l' /\ Forall2 (same_datum E t) l l').
    { clear - IH F Fs Wf Tp Ol Tl. revert vs' Fs Wf Tp. induction F as [|d v l vs Wd F IHF]; intros vs' Fs Wf Tp; inversion Fs as [|? v' ? vs2 Sv Fs']; subst.
      - exists []. split; constructor.
      - destruct (IHF ltac:(intros; apply Ol; cbn; auto) ltac:(intros; apply Tl; cbn; auto) vs2 Fs') as (l' & A & D); [intros; apply Wf; cbn; auto | intros; apply Tp; cbn; auto|].
        destruct (IH d v v') as (d' & Ad & Dd); auto; [apply Tl; cbn; auto | apply Ol; cbn; auto | apply Wf; cbn; auto | apply Tp; cbn; auto|]. exists (d' :: l'). split; constructor; auto. }
    destruct G as (l' & A & D). exists (DSeq l'). split; constructor; auto.
  - assert (P' : forall t, In t ts -> rproper t) by (now inversion P). inversion O as [| | | | |? l Ol| |]; subst. inversion T as [| | | | |? ? Tl| |]; subst.
    inversion W as [| | | | | |? ? vs F|? ? ? ? ? ? ? ? ? ? Z| | | |]; subst; [|exfalso; eapply stops_not; eassumption].
    apply sn_arr_l in S as (vs' & -> & Fs). rewrite wf_arr in Wf. rewrite plain_arr in Tp.
    assert (G : exists l', List.length vs' = List.length ts /\ Forall2 (fun p d => answers (fst p) (snd p) (Done d)) (List.combine ts vs') l'
       /\ Forall2 (fun p d' => same_datum E (fst p) (snd p) d') (List.combine ts l) l').
    { clear - IH P' F Fs Wf Tp Ol Tl. revert vs vs' F Fs Wf Tp Ol. induction Tl as [|t d ts l Td Tl IHT]; intros vs vs' F Fs Wf Tp Ol.
      - inversion F; subst. inversion Fs; subst. exists []. split; [reflexivity|]. split; constructor.
      - cbn in F. inversion F as [|? v ? vs1 Wd F']; subst. inversion Fs as [|? v' ? vs2 Sv Fs']; subst. inversion Ol as [|? ? ? ? Od Ol']; subst. cbn in Wd.
        destruct (IHT ltac:(intros; apply IH; cbn; auto) ltac:(intros; apply P'; cbn; auto) vs1 vs2 F' Fs' ltac:(intros; apply Wf; cbn; auto) ltac:(intros; apply Tp; cbn; auto) Ol') as (l' & L & A & D).
        destruct (IH t ltac:(cbn; auto) ltac:(apply P'; cbn; auto) d v v') as (d' & Ad & Dd); auto; [apply Wf; cbn; auto | apply Tp; cbn; auto|].
        exists (d' :: l'). cbn. split; [congruence|]. split; constructor; auto. }
    destruct G as (l' & L & A & D). exists (DTuple l'). split; [|constructor; auto; symmetry; eapply Forall2_len; eauto].
    rewrite <- (app_nil_r vs'). now constructor.
  - inversion P; subst. inversion O as [| | | | | |? m Om|]; subst. inversion T as [| | | | | |? ? ND Tm|]; subst. specialize (IH ltac:(assumption)).
    inversion W as [| | | | | | | |? ? vs F|? ? ? ? ? ? ? ? Z| |]; subst; [|exfalso; eapply stops_not; eassumption].
    apply sn_map_l in S as (n & -> & S1 & S2). apply wf_map in Wf as [NN Wn]. rewrite plain_map in Tp.
    destruct (Forall2_exists (fun (e : str * value) (p : data * data) => fst p = DStr (fst e) /\ answers t (snd e) (Done (snd p)) /\
        exists d, In (fst p, d) m /\ same_datum E t d (snd p)) n) as (r & Fr).
    { intros [k y] Hy. destruct (S2 k y Hy) as (x & Hx & Sx). destruct (Forall2_in_r _ _ _ _ F Hx) as ([kd d] & Hd & Ek & Wd). cbn in Ek, Wd. subst kd.
      destruct (Tm _ _ Hd) as [_ Td]. destruct (Om _ _ Hd) as [Od _]. destruct (IH d x y) as (d' & A & D); auto; [apply (Wn k y Hy) | exact (Tp k y Hy)|].
      exists (DStr k, d'). cbn. eauto. }
    exists (DMap r). split.
    + constructor. eapply Forall2_imp; [|exact Fr]. intros ? ? _ _ Hq; cbn in Hq; tauto.
    + constructor.
      * intros k d Hd. destruct (Forall2_in_l _ _ _ _ F Hd) as ([s x] & Hx & Ek & Wd). cbn in Ek, Wd. subst k.
        destruct (S1 s x Hx) as [(y & Hy & Sy)|(_ & -> & _)].
        -- destruct (Forall2_in_l _ _ _ _ Fr Hy) as ([k' d'] & Hr & Ek & A & d0 & Hd0 & D). cbn in *. subst k'.
           exists d'. split; auto. now rewrite (nodup_fst_perm_equiv m m (DStr s) d ND Hd d0 Hd0).
        -- exfalso. destruct (Om _ _ Hd) as [_ N]. destruct (Tm _ _ Hd) as [_ Td]. apply N, none_writes; auto.
      * intros k d' Hr. destruct (Forall2_in_r _ _ _ _ Fr Hr) as (e & _ & _ & _ & d & Hd & D). cbn in *. eauto.
  - assert (P' : NoDup (map fst fs) /\ forall n t, In (n, t) fs -> rproper t) by (now inversion P). destruct P' as [NF P'].
    inversion O as [| | | | | | |? l Ol]; subst. inversion T as [| | | | | | |? ? Tl]; subst.
    inversion W as [| | | | | | | | | |? ? vs F|? ? ? ? ? ? ? ? ? ? ? Z]; subst; [|exfalso; eapply stops_not; eassumption].
    apply sn_map_l in S as (n & -> & S1 & _). apply wf_map in Wf as [NN Wn]. rewrite plain_map in Tp.
    assert (G : exists r, Forall2 (fun f d => fst d = fst f /\
        ((exists x, In (fst f, x) n /\ answers (snd f) x (Done (snd d)))
         \/ ((forall x, ~ In (fst f, x) n) /\ (exists t, snd f = ROption t) /\ snd d = DNone))) fs r
        /\ Forall2 (fun p e => fst e = fst (fst p) /\ same_datum E (snd (fst p)) (snd (snd p)) (snd e)) (List.combine fs l) r).
    { clear - IH P' F S1 Wn Tp Ol Tl. revert vs F S1 Ol. induction Tl as [|[k t] [k' d] fs l [Ek Td] Tl IHT]; intros vs F S1 Ol.
      - exists []. split; constructor.
      - cbn in Ek. subst k'. cbn in F. inversion F as [|? [k' x] ? vs1 [Ek Wd] F']; subst. cbn in Ek, Wd. subst k'. inversion Ol as [|? ? ? ? [Od Nd] Ol']; subst. cbn in Od, Nd, Td.
        destruct (IHT ltac:(intros; eapply IH; cbn; eauto) ltac:(intros; eapply P'; cbn; eauto) vs1 F' ltac:(intros; apply S1; cbn; auto) Ol') as (r & A & D).
        assert (Pt : rproper t) by (eapply P'; cbn; eauto).
        destruct (S1 k x (or_introl eq_refl)) as [(y & Hy & Sy)|(_ & -> & Nk)].
        + destruct (IH k t (or_introl eq_refl) Pt d x y) as (d' & Ad & Dd); auto; [apply (Wn k y Hy) | exact (Tp k y Hy)|].
          exists ((k, d') :: r). cbn. split; constructor; auto. cbn. split; auto. left. eauto.
        + destruct Nd as [(u & ->)|N]; [|destruct N; now apply none_writes].
          assert (d = DNone) as ->.
          { inversion Od as [| |? ? Ox Nx| | | | |]; subst; auto. inversion Wd; subst. inversion Td; subst. inversion Pt; subst. destruct Nx. now apply none_writes. }
          exists ((k, DNone) :: r). cbn. split; constructor; auto; [|cbn; split; auto; constructor].
          cbn. split; auto. right. split; [|eauto]. intros x Hx. apply Nk. now apply (in_map fst) in Hx. }
    destruct G as (r & A & D). exists (DStruct r). split; [now constructor|]. constructor; auto. symmetry. eapply Forall2_len; eauto.
Qed.

(** ** What holds of everything own parts hand over *)
Theorem own_holds (P : data -> Prop) t : (forall r w, own_part r w t -> forall v d, r v = Done d -> P d) ->
  forall v d, answers t v (Done d) -> own_data P t d.
Proof.
  induction t as [r w|t IH|t IH|t IH|ts IH|t IH|fs IH] using rty_ind'; intros H v d A.
  - inversion A; subst. constructor. eapply H; [constructor|eassumption].
  - assert (H' : forall r w, own_part r w t -> forall v d, r v = Done d -> P d) by (intros r w O; apply (H r w); now constructor).
    inversion A; subst; [constructor | constructor; eauto | exfalso; eapply stops_not; eassumption].
  - assert (H' : forall r w, own_part r w t -> forall v d, r v = Done d -> P d) by (intros r w O; apply (H r w); now constructor).
    inversion A; subst; [constructor; eauto | exfalso; eapply stops_not; eassumption].
  - assert (H' : forall r w, own_part r w t -> forall v d, r v = Done d -> P d) by (intros r w O; apply (H r w); now constructor).
    inversion A as [ | | | | | | |? l r F| | | | | | | | | | | | ]; subst; [|exfalso; eapply stops_not; eassumption].
    constructor. intros x Hx. destruct (Forall2_in_r _ _ _ _ F Hx) as (y & _ & Hy). eauto.
  - assert (H' : forall t r w, In t ts -> own_part r w t -> forall v d, r v = Done d -> P d) by (intros t r w I O; apply (H r w); econstructor; eauto).
    inversion A as [ | | | | | | | | | |? l rest r L F| | | | | | | | | ]; subst; [|exfalso; eapply stops_not; eassumption].
    constructor. clear - IH H' L F. revert l r L F. induction ts as [|t ts IHt]; intros [|x l] r L F; try discriminate; cbn in F; inversion F; subst; constructor.
    + cbn in *. eapply (IH t); cbn; eauto.
    + apply (IHt ltac:(intros; eapply IH; cbn; eauto) ltac:(intros; eapply H'; cbn; eauto) l); auto.
  - assert (H' : forall r w, own_part r w t -> forall v d, r v = Done d -> P d) by (intros r w O; apply (H r w); now constructor).
    inversion A as [ | | | | | | | | | | | | | |? m r F| | | | | ]; subst; [|exfalso; eapply stops_not; eassumption].
    constructor. intros k x Hx. destruct (Forall2_in_r _ _ _ _ F Hx) as (y & _ & _ & Hy). eauto.
  - assert (H' : forall n t r w, In (n, t) fs -> own_part r w t -> forall v d, r v = Done d -> P d) by (intros n t r w I O; apply (H r w); econstructor; eauto).
    inversion A as [ | | | | | | | | | | | | | | | | |? m r F| | ]; subst; [|exfalso; eapply stops_not; eassumption].
    constructor. eapply Forall2_imp; [|exact F]. intros [n t] [n' x] I _ [E R]. cbn in *. split; auto.
    destruct R as [(y & _ & R)|(_ & (u & ->) & ->)]; [|constructor]. eapply (IH n t); eauto.
Qed.

Theorem file_trip E t d v v' : rproper t -> rtyped t d -> outlives E t d -> ser_r t d = Done v ->
  same_numbers true v v' -> wf v' -> toml_plain v' -> exists d', de_r t v' = Done d' /\ same_datum E t d d'.
Proof.
  intros P T O Sv S W Tp. destruct (outlives_lasts E t P d v v' T O) as (d' & A & D); auto; [apply wagrees_done; auto; now apply ser_writes|].
  exists d'. split; auto. apply (agrees_done t (de_answers t P)); auto. now apply wf_uniq.
Qed.

(** A struct that was read: each field from its entry, or absent and an Option. *)
Lemma struct_read fs v l : NoDup (map fst fs) -> uniq v -> de_r (RStruct fs) v = Done (DStruct l) -> mapv v /\
  Forall2 (fun f d => fst d = fst f /\
      ((exists x, holds v (fst f) x /\ de_r (snd f) x = Done (snd d))
       \/ (lacks v (fst f) /\ (exists t, snd f = ROption t) /\ snd d = DNone))) fs l.
Proof.
  intros NF U H. cbn [de_r] in H. destruct v as [| | | | | | | | |m]; try discriminate. split; [now exists m|].
  apply uniq_map in U as [NM _]. fold (rslots fs) in H. apply (proj1 (struct_parts fs m l NF NM)) in H.
  eapply Forall2_imp; [|exact H]. intros f d _ _ [E1 R]. split; auto.
  destruct R as [(x & I & R)|(N & R)]; [left; exists x; split; [now apply holds_map | auto] | right; split; auto; intros x Hx; apply holds_map in Hx; exact (N x Hx)].
Qed.
Lemma struct_done fs v d : de_r (RStruct fs) v = Done d -> exists l, d = DStruct l.
Proof.
  intros D. cbn [de_r] in D. destruct v; try discriminate. unfold de_struct in D.
  apply obind_done in D as (sl & _ & D). apply obind_done in D as (ds & _ & [= <-]). eauto.
Qed.
Lemma struct_reads fs v l : NoDup (map fst fs) -> uniq v -> mapv v ->
  Forall2 (fun f d => fst d = fst f /\
      ((exists x, holds v (fst f) x /\ de_r (snd f) x = Done (snd d))
       \/ (lacks v (fst f) /\ (exists t, snd f = ROption t) /\ snd d = DNone))) fs l -> de_r (RStruct fs) v = Done (DStruct l).
Proof.
  intros NF U [m ->] H. apply uniq_map in U as [NM _]. cbn [de_r]. fold (rslots fs). apply struct_parts; auto.
  eapply Forall2_imp; [|exact H]. intros f d _ _ [E1 R]. split; auto.
  destruct R as [(x & I & R)|(N & R)]; [left; exists x; split; [now apply holds_map | auto] | right; split; auto; intros x Hx; apply (N x); now apply holds_map].
Qed.
