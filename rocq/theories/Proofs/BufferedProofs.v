(** Reading through serde's buffer (C100-C102). *)
From Coq Require Import ZArith Bool String Lia.
From Coq Require Import List.
Import ListNotations.
From Verif.Model Require Import Text Num Flt Value Convert Serde Attributes Buffered.
From Verif.Spec Require Import Spec Numerals SerdeSpec ReadSpec AttrSpec BufferedSpec.
From Verif.Proofs Require Import Basics Conversions SerProofs DeProofs SerdeMore RoundTrip Loaded ReadAs Attrs.
Local Open Scope Z_scope.

Section ContentInd.
Variable P : content -> Prop.
Hypothesis Hscalar : forall c, match c with CtSeq _ | CtMap _ => False | _ => True end -> P c.
Hypothesis Hseq : forall l, (forall c, In c l -> P c) -> P (CtSeq l).
Hypothesis Hmap : forall m, (forall k c, In (k, c) m -> P c) -> P (CtMap m).
Fixpoint content_ind' (c : content) : P c.
Proof.
  destruct c as [| | | | | |l|m]; try (apply Hscalar; exact I).
  - apply Hseq. induction l as [|a l IH]; intros x H; [destruct H|].
    destruct H as [<-|H]; [apply content_ind' | apply IH, H].
  - apply Hmap. induction m as [|[n a] m IH]; intros k x H; [destruct H|].
    destruct H as [E|H]; [exact (eq_ind a P (content_ind' a) x (f_equal snd E)) | apply (IH k x H)].
Defined.
End ContentInd.

(** The Value a buffered value stands for. *)
Fixpoint val (c : content) : value :=
  match c with
  | CtUnit => VNone
  | CtBool b => VBool b
  | CtI64 z => VInt z
  | CtU64 z => VUInt z
  | CtF64 f => VFloat f
  | CtStr s => VStr s
  | CtSeq l => VArr (map val l)
  | CtMap m => VMap (map (fun e => (fst e, val (snd e))) m)
  end.
Definition vals (m : list (str * content)) : vmap := map (fun e => (fst e, val (snd e))) m.

Lemma buffer_list_cons {A} (one : A -> mres content) x t :
  buffer_list one (x :: t) = obind (one x) (fun c => obind (buffer_list one t) (fun cs => Done (c :: cs))).
Proof. reflexivity. Qed.
Lemma buffer_entries_cons one k x t :
  buffer_entries one ((k, x) :: t) = obind (one x) (fun c => obind (buffer_entries one t) (fun cs => Done ((k, c) :: cs))).
Proof. reflexivity. Qed.
Lemma c_seq_cons {A} (f : content -> mres A) x t : c_seq f (x :: t) = obind (f x) (fun d => obind (c_seq f t) (fun ds => Done (d :: ds))).
Proof. reflexivity. Qed.
Lemma buffer_list_val l cs : (forall x c, In x l -> buffer x = Done c -> x = val c) -> buffer_list buffer l = Done cs -> l = map val cs.
Proof.
  revert cs. induction l as [|x l IH]; intros cs H E; [injection E as <-; reflexivity|].
  rewrite buffer_list_cons in E. apply obind_done in E as (c & Ec & E). apply obind_done in E as (cs' & E & [= <-]).
  cbn. f_equal; [apply H; cbn; auto | apply IH; [intros; apply H; cbn; auto | exact E]].
Qed.
Lemma buffer_entries_val m cs : (forall k x c, In (k, x) m -> buffer x = Done c -> x = val c) -> buffer_entries buffer m = Done cs -> m = vals cs.
Proof.
  revert cs. induction m as [|[k x] m IH]; intros cs H E; [injection E as <-; reflexivity|].
  rewrite buffer_entries_cons in E. apply obind_done in E as (c & Ec & E). apply obind_done in E as (cs' & E & [= <-]).
  cbn. f_equal; [f_equal; apply (H k); cbn; auto | apply IH; [intros; eapply H; cbn; eauto | exact E]].
Qed.
Lemma buffer_val v : forall c, buffer v = Done c -> v = val c.
Proof.
  induction v as [v S|l IH|m IH] using value_ind'; intros c H.
  - destruct v; cbn in S; try tauto; cbn in H; try discriminate H; injection H as <-; reflexivity.
  - cbn [buffer] in H. apply obind_done in H as (cs & H & [= <-]). cbn [val]. f_equal. apply buffer_list_val; auto.
  - cbn [buffer] in H. apply obind_done in H as (cs & H & [= <-]). cbn [val]. f_equal. apply buffer_entries_val; eauto.
Qed.
Lemma buffer_list_of l : (forall c, In c l -> buffer (val c) = Done c) -> buffer_list buffer (map val l) = Done l.
Proof.
  intros H. induction l as [|c l IH]; [reflexivity|].
  cbn [map]. rewrite buffer_list_cons. rewrite (H c) by (left; auto). cbn [obind]. rewrite IH by (intros; apply H; right; auto). reflexivity.
Qed.
Lemma buffer_of_val c : buffer (val c) = Done c.
Proof.
  induction c as [c S|l IH|m IH] using content_ind'.
  - destruct c; cbn in S; try tauto; reflexivity.
  - cbn [val buffer]. assert (E : buffer_list buffer (map val l) = Done l) by (apply buffer_list_of; auto). rewrite E. reflexivity.
  - cbn [val buffer]. assert (E : buffer_entries buffer (vals m) = Done m).
    { unfold vals. induction m as [|[k c] m IHm]; [reflexivity|]. cbn [map fst snd]. rewrite buffer_entries_cons.
      rewrite (IH k c) by (left; auto). cbn [obind]. rewrite IHm by (intros; eapply IH; right; eauto). reflexivity. }
    unfold vals in E. rewrite E. reflexivity.
Qed.
Lemma buffer_iff v c : buffer v = Done c <-> v = val c.
Proof. split; [apply buffer_val | intros ->; apply buffer_of_val]. Qed.
Lemma val_narrow c : ~ has_wide (val c).
Proof.
  induction c as [c S|l IH|m IH] using content_ind'; intros H.
  - destruct c; cbn in S; try tauto; inversion H.
  - cbn in H. inversion H as [| |? x Hx Hw|]; subst. apply in_map_iff in Hx as (c & <- & Hc). eapply IH; eauto.
  - cbn in H. inversion H as [| | |? k x Hx Hw]; subst. apply in_map_iff in Hx as ([k' c] & [= <- <-] & Hc). eapply IH; eauto.
Qed.
Lemma narrow_val v : ~ has_wide v -> exists c, v = val c.
Proof.
  induction v as [v S|l IH|m IH] using value_ind'; intros N.
  - destruct v; cbn in S; try tauto; try (now (exists CtUnit)); try (eexists (CtBool _); reflexivity); try (eexists (CtI64 _); reflexivity);
      try (eexists (CtU64 _); reflexivity); try (eexists (CtF64 _); reflexivity); try (eexists (CtStr _); reflexivity); destruct N; constructor.
  - assert (G : exists cs, l = map val cs).
    { assert (N' : forall x, In x l -> ~ has_wide x) by (intros x Hx Hw; apply N; econstructor; eauto). clear N.
      induction l as [|x l IHl]; [exists []; reflexivity|]. destruct (IH x (or_introl eq_refl)) as [c ->]; [apply N'; left; auto|].
      destruct IHl as [cs ->]; [intros; apply IH; auto; right; auto | intros; apply N'; right; auto |]. exists (c :: cs); reflexivity. }
    destruct G as [cs ->]. exists (CtSeq cs). reflexivity.
  - assert (G : exists cs, m = vals cs).
    { assert (N' : forall k x, In (k, x) m -> ~ has_wide x) by (intros k x Hx Hw; apply N; econstructor; eauto). clear N.
      induction m as [|[k x] m IHm]; [exists []; reflexivity|]. destruct (IH k x (or_introl eq_refl)) as [c ->]; [eapply N'; left; auto|].
      destruct IHm as [cs ->]; [intros; eapply IH; eauto; right; eauto | intros; eapply N'; right; eauto |]. exists ((k, c) :: cs); reflexivity. }
    destruct G as [cs ->]. exists (CtMap cs). reflexivity.
Qed.
Lemma buffer_done v : (exists c, buffer v = Done c) <-> ~ has_wide v.
Proof.
  split.
  - intros (c & H%buffer_val). subst v. apply val_narrow.
  - intros (c & ->)%narrow_val. exists c. apply buffer_of_val.
Qed.
Lemma buffer_no_panic v : buffer v <> Panic.
Proof.
  induction v as [v S|l IH|m IH] using value_ind'; intros H.
  - destruct v; cbn in S; try tauto; discriminate H.
  - assert (G : buffer_list buffer l <> Panic).
    { clear H. induction l as [|x l IHl]; [discriminate|]. cbn [map]. rewrite buffer_list_cons.
      pose proof (IH x (or_introl eq_refl)). destruct (buffer x); cbn; try congruence.
      specialize (IHl (fun y Hy => IH y (or_intror Hy))). destruct (buffer_list buffer l); cbn; congruence. }
    cbn [buffer] in H. destruct (buffer_list buffer l); cbn in H; congruence.
  - assert (G : buffer_entries buffer m <> Panic).
    { clear H. induction m as [|[k x] m IHm]; [discriminate|]. cbn [map fst snd]. rewrite buffer_entries_cons.
      pose proof (IH k x (or_introl eq_refl)). destruct (buffer x); cbn; try congruence.
      specialize (IHm (fun k y Hy => IH k y (or_intror Hy))). destruct (buffer_entries buffer m); cbn; congruence. }
    cbn [buffer] in H. destruct (buffer_entries buffer m); cbn in H; congruence.
Qed.

(** The first 128-bit number is the one named. *)
Lemma buffer_list_fails l e : buffer_list buffer l = Fail e <->
  exists l1 x l2, l = l1 ++ x :: l2 /\ (forall y, In y l1 -> ~ has_wide y) /\ buffer x = Fail e.
Proof.
  induction l as [|x l IH].
  - split; [discriminate | intros (l1 & x & l2 & E & _); now destruct l1].
  - cbn [map]. rewrite buffer_list_cons. destruct (buffer x) as [c|e'|] eqn:B; cbn [obind].
    + transitivity (buffer_list buffer l = Fail e).
      { destruct (buffer_list buffer l); cbn; split; congruence. }
      etransitivity; [exact IH|]. split.
      * intros (l1 & y & l2 & -> & N & F). exists (x :: l1), y, l2. split; auto. split; auto. intros z [<-|Hz]; auto. apply buffer_done; eauto.
      * intros (l1 & y & l2 & E & N & F). destruct l1 as [|x' l1]; injection E as -> ->; [congruence|].
        exists l1, y, l2. split; auto. split; auto. intros; apply N; right; auto.
    + split.
      * intros [= ->]. exists [], x, l. split; [reflexivity|]. split; [intros _ [] | exact B].
      * intros (l1 & y & l2 & E & N & F). destruct l1 as [|x' l1]; injection E as -> ->; [congruence|].
        exfalso. specialize (N x' (or_introl eq_refl)). apply buffer_done in N as (c & N). congruence.
    + destruct (buffer_no_panic x B).
Qed.
Lemma buffer_entries_fails m e : buffer_entries buffer m = Fail e <->
  exists m1 k x m2, m = m1 ++ (k, x) :: m2 /\ (forall k y, In (k, y) m1 -> ~ has_wide y) /\ buffer x = Fail e.
Proof.
  induction m as [|[k x] m IH].
  - split; [discriminate | intros (l1 & k & x & l2 & E & _); now destruct l1].
  - cbn [map fst snd]. rewrite buffer_entries_cons. destruct (buffer x) as [c|e'|] eqn:B; cbn [obind].
    + transitivity (buffer_entries buffer m = Fail e).
      { destruct (buffer_entries buffer m); cbn; split; congruence. }
      etransitivity; [exact IH|]. split.
      * intros (l1 & k' & y & l2 & -> & N & F). exists ((k, x) :: l1), k', y, l2. split; auto. split; auto.
        intros k2 z [[= <- <-]|Hz]; eauto. apply buffer_done; eauto.
      * intros (l1 & k' & y & l2 & E & N & F). destruct l1 as [|x' l1]; [injection E as -> -> ->; congruence|]. injection E as <- ->.
        exists l1, k', y, l2. split; auto. split; auto. intros k2 z Hz. apply (N k2). right; auto.
    + split.
      * intros [= ->]. exists [], k, x, m. split; [reflexivity|]. split; [intros _ _ [] | exact B].
      * intros (l1 & k' & y & l2 & E & N & F). destruct l1 as [|x' l1]; [injection E as -> -> ->; congruence|]. injection E as <- ->.
        exfalso. specialize (N k x (or_introl eq_refl)). apply buffer_done in N as (c & N). congruence.
    + destruct (buffer_no_panic x B).
Qed.
Lemma no_wide_text {A} z t s : canonical s z -> @no_wide_content A z t =
  Fail (EDeserialization (lit "invalid type: integer `" ++ s ++ lit "` as " ++ lit t ++ lit ", expected any value")).
Proof. intros ->%canonical_print. reflexivity. Qed.
Lemma buffer_fails v : forall e, buffer v = Fail e <-> first_wide v e.
Proof.
  induction v as [v S|l IH|m IH] using value_ind'; intros e.
  - destruct v as [| |z|z|z|z| | | |]; cbn in S; try tauto; try (split; [discriminate | intros H; inversion H]).
    + pose proof (print_int_canonical z) as C. cbn [buffer]. rewrite (no_wide_text z "i128" _ C). split.
      * intros [= <-]. now apply FwLong.
      * intros H. inversion H as [? s C'| | |]; subst. rewrite (canonical_unique _ _ _ C C'). reflexivity.
    + pose proof (print_int_canonical z) as C. cbn [buffer]. rewrite (no_wide_text z "u128" _ C). split.
      * intros [= <-]. now apply FwULong.
      * intros H. inversion H as [|? s C'| |]; subst. rewrite (canonical_unique _ _ _ C C'). reflexivity.
  - cbn [buffer]. transitivity (buffer_list buffer l = Fail e); [destruct (buffer_list buffer l); cbn; split; congruence|].
    etransitivity; [apply buffer_list_fails|]. split.
    + intros (l1 & x & l2 & -> & N & F). apply FwArr; auto. apply IH; auto. apply in_or_app; right; left; auto.
    + intros H. inversion H as [| |l1 x l2 ? N F|]; subst. exists l1, x, l2. split; auto. split; auto. apply IH; auto. apply in_or_app; right; left; auto.
  - cbn [buffer]. transitivity (buffer_entries buffer m = Fail e); [destruct (buffer_entries buffer m); cbn; split; congruence|].
    etransitivity; [apply buffer_entries_fails|]. split.
    + intros (l1 & k & x & l2 & -> & N & F). apply FwMap; auto. apply (IH k); auto. apply in_or_app; right; left; auto.
    + intros H. inversion H as [| | |l1 k x l2 ? N F]; subst. exists l1, k, x, l2. split; auto. split; auto. apply (IH k); auto. apply in_or_app; right; left; auto.
Qed.

(** ** The helpers *)
Lemma c_seq_done {A} (f : content -> mres A) l ds : c_seq f l = Done ds <-> Forall2 (fun c d => f c = Done d) l ds.
Proof.
  revert ds. induction l as [|c l IH]; intros ds.
  - split; [intros [= <-]; constructor | intros F; inversion F; auto].
  - rewrite c_seq_cons. etransitivity; [apply obind_done|]. split.
    + intros (d & E & H). apply obind_done in H as (ds' & H & [= <-]). constructor; auto. now apply IH.
    + intros F. inversion F as [|? d ? ds' E F']; subst. exists d. split; auto. apply IH in F'. rewrite F'. reflexivity.
Qed.
Lemma c_tuple_done fs l ds : c_tuple fs l = Done ds <->
  List.length fs = List.length l /\ Forall2 (fun fc d => fst fc (snd fc) = Done d) (List.combine fs l) ds.
Proof.
  revert l ds. induction fs as [|f fs IH]; intros [|c l] ds; cbn.
  - split; [intros [= <-]; auto | intros [_ F]; inversion F; auto].
  - split; [discriminate | intros [E _]; discriminate].
  - split; [discriminate | intros [E _]; discriminate].
  - etransitivity; [apply obind_done|]. split.
    + intros (d & E & H). apply obind_done in H as (ds' & H & [= <-]). apply IH in H as [L F]. split; [congruence|]. constructor; auto.
    + intros [L F]. inversion F as [|? d ? ds' E F']; subst. exists d. split; auto.
      assert (H : c_tuple fs l = Done ds') by (apply IH; split; [congruence | auto]). rewrite H. reflexivity.
Qed.
Definition c_map_loop {A B} (dek : content -> mres A) (dev : content -> mres B) (ins : A -> B -> list (A * B) -> list (A * B)) :=
  fix go (m : list (str * content)) (acc : list (A * B)) : mres (list (A * B)) :=
     match m with
     | [] => Done acc
     | (k, x) :: t => obind (dek (CtStr k)) (fun kd => obind (dev x) (fun d => go t (ins kd d acc)))
     end.
Lemma c_map_fold {A B} (dek : content -> mres A) (dev : content -> mres B) ins m acc es :
  c_map_loop dek dev ins m acc = Done es <->
  exists ps, Forall2 (fun e p => dek (CtStr (fst e)) = Done (fst p) /\ dev (snd e) = Done (snd p)) m ps
    /\ es = fold_left (fun acc p => ins (fst p) (snd p) acc) ps acc.
Proof.
  revert acc; induction m as [|[k x] m IH]; intros acc; cbn.
  - split; [intros [= <-]; exists []; auto | intros (ps & F & ->); inversion F; auto].
  - fold (c_map_loop dek dev ins). etransitivity; [apply obind_done|]. split.
    + intros (kd & E & H). apply obind_done in H as (d & E' & H). apply IH in H as (ps & F & ->).
      exists ((kd, d) :: ps); auto.
    + intros (ps & F & ->). inversion F as [|? [kd d] ? ps' [E1 E2] F']; subst; cbn in *.
      exists kd; split; auto. rewrite E2; cbn. apply IH. eauto.
Qed.

Definition c_find (fs : list c_slot) (k : str) := find (fun f => str_eqb k (cs_name f)) fs.
Lemma c_loop_inv fs m acc slots : NoDup (map fst m) -> c_struct_loop fs m acc = Done slots ->
  forall k, mget k slots =
    match mget k m, c_find fs k with
    | Some x, Some f => match cs_de f x with Done d => Some d | _ => None end
    | _, _ => mget k acc
    end
  /\ (forall x f, mget k m = Some x -> c_find fs k = Some f -> exists d, cs_de f x = Done d).
Proof.
  revert acc; induction m as [|[k0 x0] m IH]; intros acc ND H k.
  - cbn in *. injection H as <-. split; [reflexivity | discriminate].
  - cbn [c_struct_loop] in H. fold (c_find fs k0) in H. cbn in ND; inversion ND as [|? ? N1 N2]; subst.
    assert (G0 : mget k0 m = None) by (apply mget_None; exact N1).
    cbn [mget]. destruct (c_find fs k0) as [f0|] eqn:Ef.
    + destruct (mget k0 acc) eqn:Ea; [discriminate|]. apply obind_done in H as (d & Ed & H).
      destruct (IH _ N2 H k) as [IH1 IH2]. destruct (str_eqb_spec k k0) as [->|Nk].
      * rewrite G0 in IH1. rewrite mget_minsert_eq in IH1. rewrite Ef, Ed. split; auto.
        intros x f [= <-] [= <-]. eauto.
      * rewrite mget_minsert_neq in IH1 by auto. split; auto.
    + destruct (IH _ N2 H k) as [IH1 IH2]. destruct (str_eqb_spec k k0) as [->|Nk].
      * rewrite G0 in IH1. rewrite Ef in *. split; auto. intros; discriminate.
      * split; auto.
Qed.
Lemma c_loop_ok fs m acc : NoDup (map fst m) -> (forall k, In k (map fst m) -> mget k acc = None) ->
  (forall k x f, In (k, x) m -> c_find fs k = Some f -> exists d, cs_de f x = Done d) -> exists slots, c_struct_loop fs m acc = Done slots.
Proof.
  revert acc; induction m as [|[k0 x0] m IH]; intros acc ND HA H; [cbn; eauto|].
  cbn [c_struct_loop]. fold (c_find fs k0). cbn in ND; inversion ND as [|? ? N1 N2]; subst.
  destruct (c_find fs k0) as [f0|] eqn:Ef.
  - rewrite (HA k0) by (cbn; auto). destruct (H k0 x0 f0) as [d ->]; cbn; auto.
    apply IH; auto.
    + intros k Hk. rewrite mget_minsert_neq; [apply HA; cbn; auto | intros ->; auto].
    + intros; eapply H; cbn; eauto.
  - apply IH; auto.
    + intros; apply HA; cbn; auto.
    + intros; eapply H; cbn; eauto.
Qed.
Lemma c_collect_done fs slots ds : c_collect fs slots = Done ds <->
  Forall2 (fun f d => fst d = cs_name f /\
     match mget (cs_name f) slots with Some x => snd d = x | None => cs_optional f = true /\ snd d = DNone end) fs ds.
Proof.
  revert ds; induction fs as [|f fs IH]; intros ds; cbn.
  - split; [intros [= <-]; constructor | intros F; inversion F; auto].
  - etransitivity; [apply obind_done|]. split.
    + intros (d & E & H). apply obind_done in H as (ds' & H & [= <-]). apply IH in H. constructor; auto.
      cbn; split; auto. destruct (mget (cs_name f) slots); [congruence|].
      destruct (cs_optional f); [split; congruence | discriminate].
    + intros F; inversion F as [|? [n d] ? ds' [E1 E2] F']; subst; cbn in *. subst n.
      apply IH in F'. exists d; split; [|rewrite F'; reflexivity].
      destruct (mget (cs_name f) slots); [congruence|]. destruct E2 as [-> ->]; reflexivity.
Qed.
Definition c_slots (owned : bool) (fs : list (str * ty)) : list c_slot :=
  map (fun p => {| cs_name := fst p; cs_optional := is_option (snd p); cs_de := de_content owned (snd p) |}) fs.
Lemma c_find_in o fs n t : NoDup (map fst fs) -> In (n, t) fs ->
  c_find (c_slots o fs) n = Some {| cs_name := n; cs_optional := is_option t; cs_de := de_content o t |}.
Proof.
  induction fs as [|[n' t'] fs IH]; cbn; [tauto|]. intros ND [[= -> ->]|H].
  - now rewrite str_eqb_refl.
  - inversion ND as [|? ? N1 N2]; subst. destruct (str_eqb_spec n n') as [->|N]; auto.
    destruct N1. apply (in_map fst) in H. exact H.
Qed.
Lemma c_find_some o fs k f : c_find (c_slots o fs) k = Some f ->
  exists t, In (k, t) fs /\ f = {| cs_name := k; cs_optional := is_option t; cs_de := de_content o t |}.
Proof.
  induction fs as [|[n t] fs IH]; cbn; [discriminate|].
  destruct (str_eqb_spec k n) as [->|N]; [intros [= <-]; eauto|].
  intros H; destruct (IH H) as (t' & ? & ?); eauto.
Qed.
Definition c_field (o : bool) (m : list (str * content)) (f : str * ty) (d : str * data) : Prop :=
  fst d = fst f /\
  ((exists x, In (fst f, x) m /\ de_content o (snd f) x = Done (snd d))
   \/ ((forall x, ~ In (fst f, x) m) /\ (exists t, snd f = TOption t) /\ snd d = DNone)).
Lemma c_struct_done o fs m l : NoDup (map fst fs) -> NoDup (map fst m) ->
  (c_struct (c_slots o fs) m = Done l <-> Forall2 (c_field o m) fs l).
Proof.
  intros NF NM. unfold c_struct. split.
  - intros H. apply obind_done in H as (slots & Hs & Hl). apply c_collect_done in Hl.
    pose proof (c_loop_inv _ _ _ _ NM Hs) as SL.
    assert (K : forall f d, In f fs -> (fst d = fst f /\ match mget (fst f) slots with
        | Some x => snd d = x | None => is_option (snd f) = true /\ snd d = DNone end) -> c_field o m f d).
    { intros [n t] [n' d] Hin [E1 E2]; cbn in *. subst n'. split; [reflexivity|]. cbn.
      pose proof (c_find_in o fs n t NF Hin) as FF. destruct (SL n) as [S1 S2].
      destruct (mget n m) as [x|] eqn:Em.
      - destruct (S2 _ _ eq_refl FF) as [d' Hd']. rewrite FF, Hd' in S1. cbn in Hd'.
        left; exists x; split; [now apply mget_In|]. rewrite S1 in E2. congruence.
      - right. rewrite S1 in E2. cbn in E2. destruct E2 as [E2 ->]. split; [now apply mget_None_In|].
        split; auto. now apply DeProofs.is_option_iff. }
    clear - Hl K. unfold c_slots in Hl. revert l Hl; induction fs as [|f fs IH]; intros l Hl; cbn in Hl.
    + inversion Hl; constructor.
    + inversion Hl as [|? d ? l' Hd Hl']; subst. constructor; [apply K; cbn; auto|].
      apply IH; auto. intros; apply K; cbn; auto.
  - intros F.
    assert (OK : forall k x f, In (k, x) m -> c_find (c_slots o fs) k = Some f -> exists d, cs_de f x = Done d).
    { intros k x f Hx Hf. apply c_find_some in Hf as (t & Ht & ->). cbn.
      destruct (Forall2_in_l _ _ _ _ F Ht) as (d & _ & E & [(y & Hy & Hd)|(N & _)]); cbn in *; [|destruct (N x Hx)].
      assert (y = x) as -> by (apply In_mget in Hx; auto; apply In_mget in Hy; auto; congruence). eauto. }
    destruct (c_loop_ok (c_slots o fs) m [] NM (fun _ _ => eq_refl) OK) as [slots Hs].
    rewrite Hs; cbn [obind]. pose proof (c_loop_inv _ _ _ _ NM Hs) as SL.
    apply c_collect_done. unfold c_slots.
    assert (K : forall f d, In f fs -> c_field o m f d -> fst d = fst f /\ match mget (fst f) slots with
        | Some x => snd d = x | None => is_option (snd f) = true /\ snd d = DNone end).
    { intros [n t] [n' d] Hin [E1 E2]; cbn in *. subst n'. split; [reflexivity|].
      pose proof (c_find_in o fs n t NF Hin) as FF. destruct (SL n) as [S1 S2].
      destruct E2 as [(x & Hx & Hd)|(N & Op & ->)].
      - apply In_mget in Hx; auto. rewrite Hx, FF in S1. cbn in S1. rewrite Hd in S1. now rewrite S1.
      - apply mget_None_In in N. rewrite N in S1. cbn in S1. rewrite S1. split; auto. now apply DeProofs.is_option_iff. }
    clear - F K. induction F as [|f d fs l Hd F IH]; cbn; constructor; [apply K; cbn; auto | apply IH; intros; apply K; cbn; auto].
Qed.

(** ** What comes out of the buffer *)
Lemma Forall2_map_l {A B C} (f : A -> B) (R : B -> C -> Prop) l r : Forall2 R (map f l) r <-> Forall2 (fun a c => R (f a) c) l r.
Proof.
  revert r. induction l as [|a l IH]; intros r; cbn.
  - split; intros F; inversion F; constructor.
  - split; intros F; inversion F; subst; constructor; auto; now apply IH.
Qed.
Lemma Forall2_iff_in {A B} (R S : A -> B -> Prop) l r : (forall a b, In a l -> (R a b <-> S a b)) -> (Forall2 R l r <-> Forall2 S l r).
Proof. intros H. split; apply Forall2_impl_in; intros a b Ha; apply H; auto. Qed.
Lemma uniq_vals_seq l : uniq (val (CtSeq l)) <-> forall c, In c l -> uniq (val c).
Proof.
  cbn [val]. rewrite uniq_arr. split.
  - intros H c Hc. apply H. now apply in_map.
  - intros H x Hx. apply in_map_iff in Hx as (c & <- & Hc). auto.
Qed.
Lemma vals_keys m : map fst (vals m) = map fst m.
Proof. unfold vals. rewrite map_map. reflexivity. Qed.
Lemma in_vals m k v : In (k, v) (vals m) <-> exists c, v = val c /\ In (k, c) m.
Proof.
  unfold vals. rewrite in_map_iff. split.
  - intros ([k' c] & [= <- <-] & H). eauto.
  - intros (c & -> & H). exists (k, c). auto.
Qed.
Lemma uniq_vals_map m : uniq (val (CtMap m)) <-> NoDup (map fst m) /\ forall k c, In (k, c) m -> uniq (val c).
Proof.
  cbn [val]. fold (vals m). rewrite uniq_map, vals_keys. split; intros [N H]; split; auto.
  - intros k c Hc. apply (H k). apply in_vals; eauto.
  - intros k x Hx. apply in_vals in Hx as (c & -> & Hc). eauto.
Qed.

Lemma value_of_content_val c : uniq (val c) -> value_of_content c = Done (val c).
Proof.
  induction c as [c S|l IH|m IH] using content_ind'; intros U.
  - destruct c; cbn in S; try tauto; reflexivity.
  - pose proof (proj1 (uniq_vals_seq l) U) as Ul. cbn [value_of_content val].
    assert (E : c_seq value_of_content l = Done (map val l)).
    { apply c_seq_done. clear U. induction l as [|c l IHl]; cbn; constructor.
      - apply IH; [left; reflexivity | apply Ul; left; reflexivity].
      - apply IHl; intros c' H; [apply IH | apply Ul]; right; exact H. }
    rewrite E. reflexivity.
  - pose proof (proj1 (uniq_vals_map m) U) as [N Um]. cbn [value_of_content val]. fold (vals m).
    assert (E : c_map_loop (fun k => match k with CtStr s => Done s | _ => invalid end) value_of_content minsert m [] = Done (vals m)).
    { apply c_map_fold. exists (vals m). split.
      - clear U N. induction m as [|[k c] m IHm]; cbn; constructor; cbn.
        + split; auto. apply (IH k); [left; reflexivity | apply (Um k); left; reflexivity].
        + apply IHm.
          * intros k' c' H. apply (IH k'). right; exact H.
          * intros k' c' H. apply (Um k'). right; exact H.
      - symmetry. apply (fold_minsert_new (vals m) []). cbn [app]. now rewrite vals_keys. }
    unfold c_map. fold (@c_map_loop str value (fun k => match k with CtStr s => Done s | _ => invalid end) value_of_content minsert). rewrite E. reflexivity.
Qed.

Definition strict_ok (o : bool) (t : ty) : Prop :=
  forall c, uniq (val c) -> forall d, de_content o t c = Done d <-> strict o true t (val c) d.

Lemma each_ok o ts : (forall t, In t ts -> strict_ok o t) -> forall l ds, (forall c, In c l -> uniq (val c)) ->
  (c_tuple (map (fun t => de_content o t) ts) l = Done ds <-> strict_each o true ts (map val l) ds).
Proof.
  induction ts as [|t ts IH]; intros O [|c l] ds U; cbn.
  - split; [intros [= <-]; constructor | intros H; inversion H; reflexivity].
  - split; [discriminate | intros H; inversion H].
  - split; [discriminate | intros H; inversion H].
  - etransitivity; [apply obind_done|]. split.
    + intros (d & Ed & H). apply obind_done in H as (ds' & H & [= <-]). constructor.
      * apply (O t (or_introl eq_refl) c (U c (or_introl eq_refl))). exact Ed.
      * apply IH; auto; intros; [apply O | apply U]; right; auto.
    + intros H. inversion H as [|? ? ? ? d ds' Hd Hs]; subst. exists d. split; [apply (O t (or_introl eq_refl) c (U c (or_introl eq_refl))); exact Hd|].
      apply IH in Hs; [rewrite Hs; reflexivity | intros; apply O; right; auto | intros; apply U; right; auto].
Qed.

Lemma key_reading o tk s a : key_type tk -> de_content o tk (CtStr s) = Done a ->
  (exists u, key_eqb a u = true) /\ forall s' a', de_content o tk (CtStr s') = Done a' -> key_eqb a' a = true -> s = s'.
Proof.
  intros K. revert s a. induction K as [|t W| | |t K IH]; intros s a H.
  - discriminate H.
  - destruct t; discriminate H.
  - cbn in H. destruct s as [|x [|]]; try discriminate. injection H as <-. split; [exists (DChar x); apply Z.eqb_refl|].
    intros s' a' H' E. cbn in H'. destruct s' as [|x' [|]]; try discriminate. injection H' as <-. cbn in E. apply Z.eqb_eq in E. congruence.
  - cbn in H. injection H as <-. split; [exists (DStr s); apply str_eqb_refl|].
    intros s' a' H' E. cbn in H'. injection H' as <-. cbn in E. symmetry. now apply str_eqb_eq.
  - cbn [de_content] in H. apply obind_done in H as (d & H & [= <-]). destruct (IH s d H) as [(u & Hu) I2]. split; [exists (DNewtype u); exact Hu|].
    intros s' a' H' E. cbn [de_content] in H'. apply obind_done in H' as (d' & H' & [= <-]). eauto.
Qed.

Lemma text_keys_distinct o tk m ps acc : key_type tk -> NoDup (map fst m) -> acc = [] ->
  Forall2 (fun (e : str * content) (p : data * data) => de_content o tk (CtStr (fst e)) = Done (fst p)) m ps ->
  fold_left (fun acc p => dinsert (fst p) (snd p) acc) ps acc = acc ++ ps.
Proof.
  intros K N -> F. apply fold_dinsert_new. cbn [app]. intros i j k k' v v' L Hi Hj.
  destruct (nth_error_Forall2_r _ _ _ _ _ F Hi) as ([s1 x1] & E1 & H1). destruct (nth_error_Forall2_r _ _ _ _ _ F Hj) as ([s2 x2] & E2 & H2). cbn in H1, H2.
  destruct (key_eqb k' k) eqn:E; auto. exfalso.
  pose proof (proj2 (key_reading o tk s1 k K H1) s2 k' H2 E) as <-.
  apply (map_nth_error fst) in E1, E2. cbn in E1, E2. assert (i = j); [|lia].
  eapply NoDup_nth_error; [exact N | | congruence]. apply nth_error_Some. congruence.
Qed.

Lemma obind_iff {A B E} (x : outcome A E) (f : A -> B) b : obind x (fun a => Done (f a)) = Done b <-> exists a, x = Done a /\ b = f a.
Proof. split; [intros H; apply obind_done in H as (a & E1 & [= <-]); eauto | intros (a & -> & ->); reflexivity]. Qed.

Theorem strict_iff o t : proper t -> no_enum t -> strict_ok o t.
Proof.
  induction t as [ |t| | | | | | |t IH|t IH|ts IH|tk tv IHk IHv|fs IH|t IH|n ts IH| | | ] using ty_ind'; intros P Ne c U d.
  - destruct c; cbn; split; try discriminate; try (intros H; inversion H; fail).
    + intros [= <-]. constructor.
    + intros H; inversion H; reflexivity.
  - assert (W : forall v z, whole v z -> v = val c -> (c = CtI64 z \/ c = CtU64 z)).
    { intros v z [->| ->] E; destruct c; inversion E; subst; auto. }
    split.
    + intros H. destruct (wide_dec t) as [Wt|Wt]; [destruct t; cbn in Wt; try tauto; destruct c; discriminate H|].
      assert (E : exists z, (c = CtI64 z \/ c = CtU64 z) /\ fits t z /\ d = DInt t z).
      { destruct c as [| |z|z| | | |]; try (destruct t; discriminate H);
          (exists z; split; [auto|]; assert (R : in_range t z = true) by (destruct t; cbn in Wt; try tauto; cbn [de_content c_int] in H; match type of H with (if ?b then _ else _) = _ => destruct b; [reflexivity | discriminate H] end);
           split; [now apply in_range_fits|]; destruct t; cbn in Wt; try tauto; cbn [de_content c_int] in H; rewrite R in H; congruence). }
      destruct E as (z & [->| ->] & F & ->); constructor; auto; [left | right]; reflexivity.
    + intros H. inversion H as [|? v z Hw Wt F| | | | | | | | | | | | | | | | | | | | |]; subst.
      apply in_range_fits in F. destruct (W _ _ Hw eq_refl) as [->| ->]; destruct t; cbn in Wt; try tauto; cbn [de_content c_int]; rewrite F; reflexivity.
  - split.
    + intros H. destruct c; cbn in H; try discriminate H; injection H as <-; [apply StF32Whole; left; reflexivity | apply StF32Whole; right; reflexivity | apply StF32].
    + intros H. inversion H as [| | | |f E|v z [E|E]| | | | | | | | | | | | | | | | |]; destruct c; cbn in *; try discriminate; congruence.
  - split.
    + intros H. destruct c; cbn in H; try discriminate H; injection H as <-; [apply StF64Whole; left; reflexivity | apply StF64Whole; right; reflexivity | apply StF64].
    + intros H. inversion H as [| |f E|v z [E|E]| | | | | | | | | | | | | | | | | | |]; destruct c; cbn in *; try discriminate; congruence.
  - split.
    + intros H. destruct c as [| | | | |[|x [|]]| |]; cbn in H; try discriminate H. injection H as <-. constructor.
    + intros H. inversion H; subst. destruct c; cbn in *; try discriminate. match goal with X : VStr _ = VStr _ |- _ => injection X as <- end. reflexivity.
  - split.
    + intros H. destruct c; cbn in H; try discriminate H. injection H as <-. constructor.
    + intros H. inversion H; subst. destruct c; cbn in *; try discriminate. congruence.
  - inversion Ne.
  - split.
    + intros H. destruct c as [| | | | | | |[|]]; cbn in H; try discriminate H; [injection H as <-; constructor|].
      destruct o; [|discriminate H]. injection H as <-. now apply StUnitMap.
    + intros H. inversion H; subst; destruct c as [| | | | | | |[|]]; cbn in *; try discriminate; reflexivity.
  - assert (Pt : strict_ok o t) by (apply IH; [inversion P as [? X| | | | | | |]; subst; [destruct X | auto] | inversion Ne; auto]).
    split.
    + intros H. cbn [de_content] in H.
      destruct c; try (injection H as <-; constructor; fail); apply obind_iff in H as (x & E & ->); apply StSome; (discriminate || now apply Pt).
    + intros H. inversion H as [| | | | | | | | | | | | | | ? ? x Nv Rx| | | | | | | |]; subst.
      * destruct c; cbn in *; try discriminate. reflexivity.
      * apply Pt in Rx; auto. cbn [de_content]. rewrite Rx. destruct c; cbn in Nv; congruence || reflexivity.
  - assert (Pt : strict_ok o t) by (apply IH; [inversion P as [? X| | | | | | |]; subst; [destruct X | auto] | inversion Ne; auto]).
    assert (E : forall l r, c = CtSeq l -> (c_seq (de_content o t) l = Done r <-> Forall2 (strict o true t) (map val l) r)).
    { intros l r ->. pose proof (proj1 (uniq_vals_seq l) U) as Ul. etransitivity; [apply c_seq_done|]. symmetry. etransitivity; [apply Forall2_map_l|].
      apply Forall2_iff_in. intros a b Ha. symmetry. apply Pt. auto. }
    split.
    + intros H. cbn [de_content] in H. destruct c; try discriminate H. apply obind_iff in H as (r & H & ->). constructor. now apply E.
    + intros H. inversion H; subst. destruct c as [| | | | | |l0|]; cbn in *; try discriminate.
      match goal with X : VArr _ = VArr _ |- _ => injection X as -> end. match goal with X : Forall2 _ _ _ |- _ => apply (E l0 _ eq_refl) in X; rewrite X end. reflexivity.
  - assert (Pt : forall t, In t ts -> strict_ok o t).
    { intros t Ht. apply IH; auto; [inversion P as [? X| | | | | | |]; subst; [destruct X | auto] | inversion Ne; auto]. }
    split.
    + intros H. cbn [de_content] in H. destruct c; try discriminate H. apply obind_iff in H as (r & H & ->). constructor. apply each_ok; auto. now apply uniq_vals_seq.
    + intros H. inversion H; subst. destruct c as [| | | | | |l0|]; cbn [val] in *; try discriminate.
      match goal with X : VArr _ = VArr _ |- _ => injection X as -> end. match goal with X : strict_each _ _ _ _ _ |- _ => apply each_ok in X; auto; [|now apply uniq_vals_seq]; cbn [de_content]; rewrite X end. reflexivity.
  - assert (K : key_type tk /\ proper tv) by (inversion P as [? X| | | | | | |]; subst; [destruct X | auto]). destruct K as [K Pv].
    assert (N : no_enum tk /\ no_enum tv) by (inversion Ne; auto). destruct N as [Nk Nv].
    specialize (IHk (key_proper tk K) Nk). specialize (IHv Pv Nv).
    assert (E : forall m r, c = CtMap m -> (c_map (de_content o tk) (de_content o tv) dinsert m = Done r <->
      Forall2 (fun e p => strict o true tk (VStr (fst e)) (fst p) /\ strict o true tv (snd e) (snd p)) (vals m) r)).
    { intros m r ->. apply uniq_vals_map in U as [ND Um].
      change (@c_map data data (de_content o tk) (de_content o tv) dinsert m) with (c_map_loop (de_content o tk) (de_content o tv) dinsert m []).
      assert (G : forall ps, Forall2 (fun e p => de_content o tk (CtStr (fst e)) = Done (fst p) /\ de_content o tv (snd e) = Done (snd p)) m ps <->
        Forall2 (fun e p => strict o true tk (VStr (fst e)) (fst p) /\ strict o true tv (snd e) (snd p)) (vals m) ps).
      { intros ps. symmetry. etransitivity; [apply Forall2_map_l|]. apply Forall2_iff_in. intros [k x] [a b] Hk. cbn [fst snd].
        pose proof (IHk (CtStr k) (UScalar (VStr k) I) a) as I1. pose proof (IHv x (Um k x Hk) b) as I2. cbn [val] in I1. tauto. }
      etransitivity; [apply c_map_fold|]. split.
      - intros (ps & F & ->). erewrite (text_keys_distinct o tk m ps []); eauto; [cbn [app]; now apply G|].
        eapply Forall2_impl_in; [|exact F]. intros ? ? _ [? _]; assumption.
      - intros F. apply G in F. exists r. split; auto. symmetry. erewrite (text_keys_distinct o tk m r []); eauto.
        eapply Forall2_impl_in; [|exact F]. intros ? ? _ [? _]; assumption. }
    split.
    + intros H. cbn [de_content] in H. destruct c; try discriminate H. apply obind_iff in H as (r & H & ->). constructor. now apply E.
    + intros H. destruct c as [| | | | | | |m0]; cbn [val] in H; try (inversion H; fail).
      inversion H as [| | | | | | | | | | | | | | | | | | |? ? m r F| | |]; subst. fold (vals m0) in F. apply (E m0 r eq_refl) in F. cbn [de_content]. rewrite F. reflexivity.
  - assert (K : NoDup (map fst fs) /\ forall n t, In (n, t) fs -> proper t) by (inversion P as [? X| | | | | | |]; subst; [destruct X | auto]).
    destruct K as [ND Pf]. assert (Nf : forall n t, In (n, t) fs -> no_enum t) by (inversion Ne; auto).
    assert (Ok : forall n t, In (n, t) fs -> strict_ok o t) by (intros n t H; eapply IH; eauto).
    assert (E : forall m l, c = CtMap m -> (c_struct (c_slots o fs) m = Done l <->
      Forall2 (fun f d => fst d = fst f /\
      ((exists x, holds (val c) (fst f) x /\ strict o true (snd f) x (snd d))
       \/ (lacks (val c) (fst f) /\ (exists t, snd f = TOption t) /\ snd d = DNone))) fs l)).
    { intros m l ->. apply uniq_vals_map in U as [NM Um]. etransitivity; [apply c_struct_done; auto|].
      apply Forall2_iff_in. intros [n t] [n' x] Hf. unfold c_field. cbn [fst snd val]. fold (vals m).
      assert (G : (exists x0, In (n, x0) m /\ de_content o t x0 = Done x) <-> exists x0, holds (VMap (vals m)) n x0 /\ strict o true t x0 x).
      { split.
        - intros (y & Hy & Hd). exists (val y). split; [apply holds_map, in_vals; eauto|]. apply (Ok n t Hf); eauto.
        - intros (v & Hv & Hs). apply holds_map, in_vals in Hv as (y & -> & Hy). exists y. split; auto. apply (Ok n t Hf); eauto. }
      assert (L : (forall x0, ~ In (n, x0) m) <-> lacks (VMap (vals m)) n).
      { split.
        - intros H v Hv. apply holds_map, in_vals in Hv as (y & -> & Hy). exact (H y Hy).
        - intros H y Hy. apply (H (val y)). apply holds_map, in_vals; eauto. }
      rewrite G, L. reflexivity. }
    assert (Eq : forall l ds, c = CtSeq l -> (c_tuple (map (fun p => de_content o (snd p)) fs) l = Done ds <-> strict_each o true (map snd fs) (map val l) ds)).
    { intros l ds ->. rewrite <- (each_ok o (map snd fs)), map_map; [reflexivity | | now apply uniq_vals_seq].
      intros t Ht. apply in_map_iff in Ht as ([n t'] & <- & Ht). eauto. }
    assert (Len : forall l ds, c_tuple (map (fun p : str * ty => de_content o (snd p)) fs) l = Done ds -> List.length ds = List.length (map fst fs)).
    { intros l ds H. apply c_tuple_done in H as [L F]. apply Forall2_length' in F. rewrite combine_length, L, Nat.min_id in F. rewrite map_length in *. congruence. }
    split.
    + intros H. cbn [de_content] in H. destruct c as [| | | | | |l|m]; try discriminate H.
      * apply obind_iff in H as (ds & H & ->). assert (L := Len _ _ H). apply Eq in H; [|reflexivity]. cbn [val].
        assert (S2 : forall (a : list str) (b : list data), List.length b = List.length a -> map snd (List.combine a b) = b).
        { induction a; intros [|? ?]; cbn; intros; try discriminate; auto. f_equal; auto. }
        assert (S1 : forall (a : list str) (b : list data), List.length b = List.length a -> map fst (List.combine a b) = a).
        { induction a; intros [|? ?]; cbn; intros; try discriminate; auto. f_equal; auto. }
        apply StPositional; [reflexivity | now rewrite S2 | now apply S1].
      * apply obind_iff in H as (l & H & ->). apply StStruct; [eexists; reflexivity|]. apply (E m); auto.
    + intros H. inversion H as [| | | | | | | | | | | | | | | | | | | |? ? l M F|? l r _ F Ek|]; subst.
      * destruct M as (m0 & M). destruct c as [| | | | | | |m]; cbn [val] in M; try discriminate. apply (E m) in F; auto.
        cbn [de_content]. fold (c_slots o fs). rewrite F. reflexivity.
      * destruct c as [| | | | | |l0|]; cbn [val] in *; try discriminate. match goal with X : VArr _ = VArr _ |- _ => injection X as -> end.
        apply (Eq l0) in F; auto. cbn [de_content]. rewrite F. cbn [obind]. f_equal. f_equal. rewrite <- Ek. clear.
        induction r as [|[a b] r IHr]; cbn; congruence.
  - assert (Pt : strict_ok o t) by (apply IH; [inversion P as [? X| | | | | | |]; subst; [destruct X | auto] | inversion Ne; auto]).
    split.
    + intros H. cbn [de_content] in H. apply obind_iff in H as (x & E & ->). constructor. now apply Pt.
    + intros H. inversion H as [| | | | | | | | | | | | | | | ? ? x Rx| | | | | | |]; subst. apply Pt in Rx; auto. cbn [de_content]. rewrite Rx. reflexivity.
  - assert (Pt : forall t, In t ts -> strict_ok o t).
    { intros t Ht. apply IH; auto; [inversion P as [? X| | | | | | |]; subst; [destruct X | auto] | inversion Ne; auto]. }
    split.
    + intros H. cbn [de_content] in H. destruct c; try discriminate H. apply obind_iff in H as (r & H & ->). constructor. apply each_ok; auto. now apply uniq_vals_seq.
    + intros H. inversion H; subst. destruct c as [| | | | | |l0|]; cbn [val] in *; try discriminate.
      match goal with X : VArr _ = VArr _ |- _ => injection X as -> end. match goal with X : strict_each _ _ _ _ _ |- _ => apply each_ok in X; auto; [|now apply uniq_vals_seq]; cbn [de_content]; rewrite X end. reflexivity.
  - split.
    + intros H. destruct c as [| | | | | |[|]|[|]]; cbn in H; try discriminate H; [injection H as <-; constructor| |];
        (destruct o; [|discriminate H]; injection H as <-; now constructor).
    + intros H. inversion H; subst; destruct c as [| | | | | |[|]|[|]]; cbn in *; try discriminate; reflexivity.
  - inversion Ne.
  - cbn [de_content]. rewrite value_of_content_val by auto. split.
    + intros [= <-]. constructor.
    + intros H. inversion H; subst. reflexivity.
Qed.
