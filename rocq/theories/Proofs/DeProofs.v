(** Deserialisation from Values (C56, C58-C62, C64, C65, C67). *)
From Coq Require Import ZArith Bool String Lia List Permutation.
Import ListNotations.
From Verif.Model Require Import Text Num Flt Value Convert Serde.
From Verif.Spec Require Import Spec Numerals SerdeSpec.
From Verif.Proofs Require Import Basics Conversions SerProofs.
Open Scope Z_scope.

(** ** Induction on types *)
Section TyInd.
Variable P : ty -> Prop.
Hypothesis Hbool : P TBool.
Hypothesis Hint : forall t, P (TInt t).
Hypothesis Hf32 : P TF32.
Hypothesis Hf64 : P TF64.
Hypothesis Hchar : P TChar.
Hypothesis Hstring : P TString.
Hypothesis Hbytes : P TBytes.
Hypothesis Hunit : P TUnit.
Hypothesis Hoption : forall t, P t -> P (TOption t).
Hypothesis Hseq : forall t, P t -> P (TSeq t).
Hypothesis Htuple : forall ts, (forall t, In t ts -> P t) -> P (TTuple ts).
Hypothesis Hmap : forall k v, P k -> P v -> P (TMap k v).
Hypothesis Hstruct : forall fs, (forall n t, In (n, t) fs -> P t) -> P (TStruct fs).
Hypothesis Hnewtype : forall t, P t -> P (TNewtype t).
Hypothesis Hts : forall n ts, (forall t, In t ts -> P t) -> P (TTupleStruct n ts).
Hypothesis Hus : P TUnitStruct.
Hypothesis Henum : P TEnum.
Hypothesis Hvalue : P TValue.

Fixpoint ty_ind' (t : ty) : P t.
Proof.
  destruct t as [| | | | | | | |t|t|ts|k v|fs|t|n ts| | |].
  - apply Hbool.
  - apply Hint.
  - apply Hf32.
  - apply Hf64.
  - apply Hchar.
  - apply Hstring.
  - apply Hbytes.
  - apply Hunit.
  - apply Hoption, ty_ind'.
  - apply Hseq, ty_ind'.
  - apply Htuple. induction ts as [|a ts IH]; intros x H; [destruct H|].
    destruct H as [<-|H]; [apply ty_ind' | apply IH, H].
  - apply Hmap; apply ty_ind'.
  - apply Hstruct. induction fs as [|[k a] fs IH]; intros n x H; [destruct H|].
    destruct H as [E|H]; [exact (eq_ind a P (ty_ind' a) x (f_equal snd E)) | apply (IH n x H)].
  - apply Hnewtype, ty_ind'.
  - apply Hts. induction ts as [|a ts IH]; intros x H; [destruct H|].
    destruct H as [<-|H]; [apply ty_ind' | apply IH, H].
  - apply Hus.
  - apply Henum.
  - apply Hvalue.
Defined.
End TyInd.

Lemma Forall2_length' {A B} (R : A -> B -> Prop) l r : Forall2 R l r -> List.length l = List.length r.
Proof. induction 1; cbn; auto. Qed.

(** ** Sequences *)
Lemma de_seq_done {A} (de1 : value -> mres A) l ds :
  de_seq de1 l = Done ds <-> Forall2 (fun x d => de1 x = Done d) l ds.
Proof.
  revert ds; induction l as [|x l IH]; intros ds; cbn.
  - split; [intros [= <-]; constructor | intros F; inversion F; auto].
  - fold (de_seq de1 l). etransitivity; [apply obind_done|]. split.
    + intros (d & E & H). apply obind_done in H as (ds' & H & [= <-]). constructor; auto. now apply IH.
    + intros F; inversion F as [|? d ? ds' E F']; subst. exists d; split; auto.
      apply IH in F'. rewrite F'. reflexivity.
Qed.
Lemma de_seq_no_panic {A} (de1 : value -> mres A) l :
  (forall x, In x l -> de1 x <> Panic) -> de_seq de1 l <> Panic.
Proof.
  induction l as [|x l IH]; intros NP; cbn; [discriminate|]. fold (de_seq de1 l).
  destruct (de1 x) eqn:E; cbn; [|discriminate|destruct (NP x); cbn; auto].
  destruct (de_seq de1 l) eqn:E'; cbn; try discriminate. apply IH; auto. intros; apply NP; cbn; auto.
Qed.

Lemma de_tuple_done expecting i fs l ds :
  de_tuple expecting i fs l = Done ds <->
  exists l1 l2, l = l1 ++ l2 /\ Forall2 (fun (fx : (value -> mres data) * value) d => fst fx (snd fx) = Done d) (combine fs l1) ds
    /\ List.length l1 = List.length fs.
Proof.
  revert i l ds; induction fs as [|f fs IH]; intros i l ds; cbn.
  - split.
    + intros [= <-]. exists [], l; repeat split; auto.
    + intros (l1 & l2 & -> & F & L). inversion F; auto.
  - destruct l as [|x l]; cbn.
    + split; [discriminate|]. intros (l1 & l2 & E & F & L). destruct l1; discriminate.
    + etransitivity; [apply obind_done|]. split.
      * intros (d & E & H). apply obind_done in H as (ds' & H & [= <-]).
        apply IH in H as (l1 & l2 & -> & F & L). exists (x :: l1), l2; repeat split; cbn; auto.
      * intros (l1 & l2 & E & F & L). destruct l1 as [|x' l1]; [discriminate|]. cbn in E. injection E as <- ->.
        cbn in F. inversion F as [|? d ? ds' Hd F']; subst. exists d; split; auto.
        assert (H : de_tuple expecting (S i) fs (l1 ++ l2) = Done ds') by (apply IH; exists l1, l2; auto).
        rewrite H. reflexivity.
Qed.
Lemma de_tuple_no_panic expecting i fs l :
  (forall f x, In f fs -> f x <> Panic) -> de_tuple expecting i fs l <> Panic.
Proof.
  revert i l; induction fs as [|f fs IH]; intros i l NP; cbn; [discriminate|].
  destruct l as [|x l]; [discriminate|].
  destruct (f x) eqn:E; cbn; [|discriminate|destruct (NP f x); cbn; auto].
  destruct (de_tuple expecting (S i) fs l) eqn:E'; cbn; try discriminate.
  destruct (IH (S i) l); auto. intros; apply NP; cbn; auto.
Qed.
Lemma de_tuple_types expecting i ts l ds :
  de_tuple expecting i (map (fun t => de t) ts) l = Done ds <->
  exists l1 l2, l = l1 ++ l2 /\ List.length l1 = List.length ts /\ List.length ds = List.length ts /\
    forall j t x, nth_error ts j = Some t -> nth_error l1 j = Some x ->
      exists d, nth_error ds j = Some d /\ de t x = Done d.
Proof.
  rewrite de_tuple_done. split.
  - intros (l1 & l2 & -> & F & L). exists l1, l2. rewrite map_length in L. repeat split; auto.
    + apply Forall2_length' in F. rewrite combine_length, map_length in F. lia.
    + clear - F L. revert l1 ds F L; induction ts as [|t0 ts IH]; intros l1 ds F L j t x Ht Hx; [destruct j; discriminate|].
      destruct l1 as [|x0 l1]; [discriminate|]. cbn in F. inversion F as [|? d0 ? ds' Hd F']; subst.
      destruct j as [|j]; cbn in *.
      * injection Ht as <-; injection Hx as <-. eauto.
      * eapply IH; eauto.
  - intros (l1 & l2 & -> & L1 & L2 & H). exists l1, l2. rewrite map_length. repeat split; auto.
    clear l2. revert l1 ds L1 L2 H; induction ts as [|t0 ts IH]; intros l1 ds L1 L2 H.
    + destruct ds; [constructor | discriminate].
    + destruct l1 as [|x0 l1]; [discriminate|]. destruct ds as [|d0 ds]; [discriminate|].
      cbn. constructor.
      * destruct (H 0%nat t0 x0 eq_refl eq_refl) as (d & [= <-] & E). exact E.
      * apply IH; [cbn in *; lia | cbn in *; lia|].
        intros j t x Ht Hx. exact (H (S j) t x Ht Hx).
Qed.

(** ** Maps *)
Definition de_map_loop {A B} (dek : value -> mres A) (dev : value -> mres B)
  (ins : A -> B -> list (A * B) -> list (A * B)) :=
  fix go (m : vmap) (acc : list (A * B)) : mres (list (A * B)) :=
     match m with
     | [] => Done acc
     | (k, x) :: t =>
       obind (dek (VStr k)) (fun kd =>
       obind (dev x) (fun d => go t (ins kd d acc)))
     end.
Lemma de_map_fold {A B} (dek : value -> mres A) (dev : value -> mres B) ins m acc es :
  de_map_loop dek dev ins m acc = Done es <->
  exists ps, Forall2 (fun e p => dek (VStr (fst e)) = Done (fst p) /\ dev (snd e) = Done (snd p)) m ps
    /\ es = fold_left (fun acc p => ins (fst p) (snd p) acc) ps acc.
Proof.
  revert acc; induction m as [|[k x] m IH]; intros acc; cbn.
  - split; [intros [= <-]; exists []; auto | intros (ps & F & ->); inversion F; auto].
  - fold (de_map_loop dek dev ins). etransitivity; [apply obind_done|]. split.
    + intros (kd & E & H). apply obind_done in H as (d & E' & H). apply IH in H as (ps & F & ->).
      exists ((kd, d) :: ps); auto.
    + intros (ps & F & ->). inversion F as [|? [kd d] ? ps' [E1 E2] F']; subst; cbn in *.
      exists kd; split; auto. rewrite E2; cbn. apply IH. eauto.
Qed.
Lemma de_map_no_panic {A B} (dek : value -> mres A) (dev : value -> mres B) ins m :
  (forall k, dek (VStr k) <> Panic) -> (forall k x, In (k, x) m -> dev x <> Panic) ->
  de_map dek dev ins m <> Panic.
Proof.
  intros NK. change (@de_map A B dek dev ins m) with (de_map_loop dek dev ins m []).
  generalize (@nil (A * B)) as acc.
  induction m as [|[k x] m IH]; intros acc NV; cbn; [discriminate|]. fold (de_map_loop dek dev ins).
  pose proof (NK k). destruct (dek (VStr k)); cbn; try congruence.
  pose proof (NV k x (or_introl eq_refl)). destruct (dev x); cbn; try congruence.
  apply IH; intros; eapply NV; cbn; eauto.
Qed.

Lemma fold_minsert_new {V} (ps acc : list (str * V)) : NoDup (map fst (acc ++ ps)) ->
  fold_left (fun acc p => minsert (fst p) (snd p) acc) ps acc = acc ++ ps.
Proof.
  revert acc; induction ps as [|[k x] ps IH]; intros acc ND; cbn; [now rewrite app_nil_r|].
  rewrite minsert_keys_new.
  - rewrite IH; rewrite <- app_assoc; auto.
  - rewrite map_app in ND; cbn in ND. intros HIn. apply NoDup_remove_2 in ND. apply ND, in_or_app; auto.
Qed.

Lemma dinsert_new k v m : (forall k' v', In (k', v') m -> key_eqb k k' = false) -> dinsert k v m = m ++ [(k, v)].
Proof.
  induction m as [|[k' v'] m IH]; intros H; cbn; auto.
  rewrite (H k' v') by (cbn; auto). f_equal. apply IH; intros; eapply H; cbn; eauto.
Qed.
Lemma fold_dinsert_new ps acc :
  (forall i j k k' v v', (i < j)%nat -> nth_error (acc ++ ps) i = Some (k, v) -> nth_error (acc ++ ps) j = Some (k', v') -> key_eqb k' k = false) ->
  fold_left (fun acc p => dinsert (fst p) (snd p) acc) ps acc = acc ++ ps.
Proof.
  revert acc; induction ps as [|[k x] ps IH]; intros acc H; cbn; [now rewrite app_nil_r|].
  rewrite dinsert_new.
  - rewrite IH; rewrite <- app_assoc; auto.
  - intros k' v' Hin. apply In_nth_error in Hin as [i Hi].
    assert (L : (i < List.length acc)%nat) by (apply nth_error_Some; congruence).
    apply (H i (List.length acc) k' k v' x L).
    + rewrite nth_error_app1; auto.
    + rewrite nth_error_app2, Nat.sub_diag; auto.
Qed.

(** ** C56: a Value into a Value *)
Lemma de_value_identity v : uniq v -> de_value v = Done v.
Proof.
  induction v as [v S|l IH|m IH] using value_ind'; intros U.
  - destruct v; cbn in S; try tauto; reflexivity.
  - cbn [de_value]. pose proof (proj1 (uniq_arr l) U) as Ul.
    assert (E : de_seq de_value l = Done l).
    { apply de_seq_done. clear U. induction l as [|x l IHl]; constructor.
      - apply IH; cbn; auto. apply Ul; cbn; auto.
      - apply IHl; intros; [apply IH | apply Ul]; cbn; auto. }
    rewrite E; reflexivity.
  - cbn [de_value]. apply uniq_map in U as [ND Um].
    assert (E : de_map (fun k => of_result (into_string k)) de_value minsert m = Done m).
    { change (de_map_loop (fun k => of_result (into_string k)) de_value minsert m [] = Done m).
      apply de_map_fold. exists m. split.
      - clear ND. induction m as [|[k x] m IHm]; constructor.
        + split; [reflexivity|]. cbn. apply (IH k x); cbn; auto. apply (Um k x); cbn; auto.
        + apply IHm; intros; [eapply IH | eapply Um]; cbn; eauto.
      - symmetry. apply (fold_minsert_new m []). exact ND. }
    rewrite E; reflexivity.
Qed.

(** ** [IgnoredAny] *)
Lemma ignored_any_done v : ignored_any v = Done tt.
Proof.
  induction v as [v S|l IH|m IH] using value_ind'.
  - destruct v; cbn in S; try tauto; reflexivity.
  - cbn [ignored_any]. assert (E : de_seq ignored_any l = Done (map (fun _ => tt) l)).
    { apply de_seq_done. induction l as [|x l IHl]; cbn; constructor.
      - apply IH; cbn; auto.
      - apply IHl; intros; apply IH; cbn; auto. }
    rewrite E; reflexivity.
  - cbn [ignored_any].
    set (g := fun (_ _ : unit) (_ : list (unit * unit)) => @nil (unit * unit)).
    assert (E : exists r, de_map (fun _ : value => Done tt) ignored_any g m = Done r).
    { exists (fold_left (fun acc p => g (fst p) (snd p) acc) (map (fun _ => (tt, tt)) m) []).
      change (de_map_loop (fun _ : value => Done tt) ignored_any g m [] =
        Done (fold_left (fun acc p => g (fst p) (snd p) acc) (map (fun _ => (tt, tt)) m) [])).
      apply de_map_fold. exists (map (fun _ => (tt, tt)) m). split; [|reflexivity].
      clear g. induction m as [|[k x] m IHm]; cbn; constructor.
      - split; [reflexivity|]. cbn. eapply IH; cbn; eauto.
      - apply IHm; intros; eapply IH; cbn; eauto. }
    destruct E as [r ->]. reflexivity.
Qed.

(** ** Structs *)
Definition struct_loop (fs : list field_slot) :=
  fix go (m : vmap) (slots : list (str * data)) : mres (list (str * data)) :=
     match m with
     | [] => Done slots
     | (k, x) :: t =>
       obind (of_result (into_string (VStr k))) (fun k =>
       match find_field k fs with
       | Some f =>
         match mget k slots with
         | Some _ => de_fail (lit "duplicate field `" ++ k ++ lit "`")
         | None => obind (fs_de f x) (fun d => go t (minsert k d slots))
         end
       | None => obind (ignored_any x) (fun _ => go t slots)
       end)
     end.
Lemma struct_loop_step fs k x m acc :
  struct_loop fs ((k, x) :: m) acc =
  match find_field k fs with
  | Some f =>
    match mget k acc with
    | Some _ => de_fail (lit "duplicate field `" ++ k ++ lit "`")
    | None => obind (fs_de f x) (fun d => struct_loop fs m (minsert k d acc))
    end
  | None => struct_loop fs m acc
  end.
Proof. cbn. destruct (find_field k fs); auto. rewrite ignored_any_done; reflexivity. Qed.

Lemma struct_loop_inv fs m acc slots : NoDup (map fst m) ->
  struct_loop fs m acc = Done slots ->
  forall k, mget k slots =
    match mget k m, find_field k fs with
    | Some x, Some f => match fs_de f x with Done d => Some d | _ => None end
    | _, _ => mget k acc
    end
  /\ (forall x f, mget k m = Some x -> find_field k fs = Some f -> exists d, fs_de f x = Done d).
Proof.
  revert acc; induction m as [|[k0 x0] m IH]; intros acc ND H k.
  - cbn in *. injection H as <-. split; [reflexivity | discriminate].
  - rewrite struct_loop_step in H. cbn in ND; inversion ND as [|? ? N1 N2]; subst.
    assert (G0 : mget k0 m = None) by (apply mget_None; exact N1).
    cbn [mget]. destruct (find_field k0 fs) as [f0|] eqn:Ef.
    + destruct (mget k0 acc) eqn:Ea; [discriminate|]. apply obind_done in H as (d & Ed & H).
      destruct (IH _ N2 H k) as [IH1 IH2]. destruct (str_eqb_spec k k0) as [->|Nk].
      * rewrite G0 in IH1. rewrite mget_minsert_eq in IH1. rewrite Ef, Ed. split; auto.
        intros x f [= <-] [= <-]. eauto.
      * rewrite mget_minsert_neq in IH1 by auto. split; auto.
    + destruct (IH _ N2 H k) as [IH1 IH2]. destruct (str_eqb_spec k k0) as [->|Nk].
      * rewrite G0 in IH1. rewrite Ef in *. split; auto. intros; discriminate.
      * split; auto.
Qed.
Lemma struct_loop_ok fs m acc : NoDup (map fst m) ->
  (forall k, In k (map fst m) -> mget k acc = None) ->
  (forall k x f, In (k, x) m -> find_field k fs = Some f -> exists d, fs_de f x = Done d) ->
  exists slots, struct_loop fs m acc = Done slots.
Proof.
  revert acc; induction m as [|[k0 x0] m IH]; intros acc ND HA H; [cbn; eauto|].
  rewrite struct_loop_step. cbn in ND; inversion ND as [|? ? N1 N2]; subst.
  destruct (find_field k0 fs) as [f0|] eqn:Ef.
  - rewrite (HA k0) by (cbn; auto). destruct (H k0 x0 f0) as [d ->]; cbn; auto.
    apply IH; auto.
    + intros k Hk. rewrite mget_minsert_neq; [apply HA; cbn; auto | intros ->; auto].
    + intros; eapply H; cbn; eauto.
  - apply IH; auto.
    + intros; apply HA; cbn; auto.
    + intros; eapply H; cbn; eauto.
Qed.
Lemma struct_loop_no_panic fs m acc : (forall f x, In f fs -> fs_de f x <> Panic) -> struct_loop fs m acc <> Panic.
Proof.
  intros NP; revert acc; induction m as [|[k0 x0] m IH]; intros acc; [discriminate|].
  rewrite struct_loop_step. destruct (find_field k0 fs) as [f0|] eqn:Ef; auto.
  destruct (mget k0 acc); [discriminate|].
  assert (In f0 fs).
  { clear - Ef. induction fs as [|f fs IH]; cbn in *; [discriminate|].
    destruct (str_eqb k0 (fs_name f)); [injection Ef as <-; auto | auto]. }
  pose proof (NP f0 x0 H). destruct (fs_de f0 x0); cbn; auto; congruence.
Qed.
Lemma collect_done fs slots ds :
  collect_fields fs slots = Done ds <->
  Forall2 (fun f d => fst d = fs_name f /\
     match mget (fs_name f) slots with
     | Some x => snd d = x
     | None => fs_optional f = true /\ snd d = DNone
     end) fs ds.
Proof.
  revert ds; induction fs as [|f fs IH]; intros ds; cbn.
  - split; [intros [= <-]; constructor | intros F; inversion F; auto].
  - etransitivity; [apply obind_done|]. split.
    + intros (d & E & H). apply obind_done in H as (ds' & H & [= <-]). apply IH in H. constructor; auto.
      cbn; split; auto. destruct (mget (fs_name f) slots); [congruence|].
      destruct (fs_optional f); [split; congruence | discriminate].
    + intros F; inversion F as [|? [n d] ? ds' [E1 E2] F']; subst; cbn in *. subst n.
      apply IH in F'. exists d; split; [|rewrite F'; reflexivity].
      destruct (mget (fs_name f) slots); [congruence|]. destruct E2 as [-> ->]; reflexivity.
Qed.
Lemma collect_no_panic fs slots : collect_fields fs slots <> Panic.
Proof.
  induction fs as [|f fs IH]; cbn; [discriminate|].
  destruct (mget (fs_name f) slots); [|destruct (fs_optional f)]; cbn; try discriminate;
    (destruct (collect_fields fs slots) eqn:E; cbn; [discriminate|discriminate|congruence]).
Qed.

Definition slots_of (fs : list (str * ty)) : list field_slot :=
  map (fun p => {| fs_name := fst p; fs_optional := is_option (snd p); fs_de := de (snd p) |}) fs.

Lemma find_field_some fs k f : find_field k (slots_of fs) = Some f ->
  exists t, In (k, t) fs /\ f = {| fs_name := k; fs_optional := is_option t; fs_de := de t |}.
Proof.
  induction fs as [|[n t] fs IH]; cbn; [discriminate|].
  destruct (str_eqb_spec k n) as [->|N]; [intros [= <-]; eauto|].
  intros H; destruct (IH H) as (t' & ? & ?); eauto.
Qed.
Lemma find_field_in fs k t : NoDup (map fst fs) -> In (k, t) fs ->
  find_field k (slots_of fs) = Some {| fs_name := k; fs_optional := is_option t; fs_de := de t |}.
Proof.
  induction fs as [|[n t'] fs IH]; cbn; [tauto|]. intros ND [[= -> ->]|H].
  - now rewrite str_eqb_refl.
  - inversion ND as [|? ? N1 N2]; subst. destruct (str_eqb_spec k n) as [->|N]; auto.
    destruct N1. apply (in_map fst) in H. exact H.
Qed.

(** The exact condition for a struct to come out of a map. *)
Definition field_result (m : vmap) (f : str * ty) (d : str * data) : Prop :=
  fst d = fst f /\
  ((exists x, In (fst f, x) m /\ de (snd f) x = Done (snd d))
   \/ ((forall x, ~ In (fst f, x) m) /\ (exists t, snd f = TOption t) /\ snd d = DNone)).

Lemma is_option_iff t : is_option t = true <-> exists u, t = TOption u.
Proof. destruct t; cbn; split; try discriminate; eauto; intros [u E]; discriminate. Qed.

Lemma de_struct_done fs m ds : NoDup (map fst fs) -> NoDup (map fst m) ->
  de (TStruct fs) (VMap m) = Done ds <-> exists l, ds = DStruct l /\ Forall2 (field_result m) fs l.
Proof.
  intros NF NM. cbn [de]. fold (slots_of fs). unfold de_struct.
  change (de_struct_loop (slots_of fs) m) with (struct_loop (slots_of fs) m []). split.
  - intros H. apply obind_done in H as (slots & Hs & H). apply obind_done in H as (l & Hl & [= <-]).
    exists l; split; auto. apply collect_done in Hl.
    pose proof (struct_loop_inv _ _ _ _ NM Hs) as SL.
    assert (K : forall f d, In f fs -> (fst d = fst f /\ match mget (fst f) slots with
        | Some x => snd d = x | None => is_option (snd f) = true /\ snd d = DNone end) -> field_result m f d).
    { intros [n t] [n' d] Hin [E1 E2]; cbn in *. subst n'. split; [reflexivity|]. cbn.
      pose proof (find_field_in fs n t NF Hin) as FF. destruct (SL n) as [S1 S2].
      destruct (mget n m) as [x|] eqn:Em.
      - destruct (S2 _ _ eq_refl FF) as [d' Hd']. rewrite FF, Hd' in S1. cbn in Hd'.
        left; exists x; split; [now apply mget_In|]. rewrite S1 in E2. congruence.
      - right. rewrite S1 in E2. cbn in E2. destruct E2 as [E2 ->]. split; [now apply mget_None_In|].
        split; auto. now apply is_option_iff. }
    clear - Hl K. unfold slots_of in Hl. revert l Hl; induction fs as [|f fs IH]; intros l Hl; cbn in Hl.
    + inversion Hl; constructor.
    + inversion Hl as [|? d ? l' Hd Hl']; subst. constructor; [apply K; cbn; auto|].
      apply IH; auto. intros; apply K; cbn; auto.
  - intros (l & -> & F). 
    assert (OK : forall k x f, In (k, x) m -> find_field k (slots_of fs) = Some f -> exists d, fs_de f x = Done d).
    { intros k x f Hx Hf. apply find_field_some in Hf as (t & Ht & ->). cbn.
      clear - F Ht Hx NM. induction F as [|f d fs l Hd F IH]; [destruct Ht|]. destruct Ht as [->|Ht]; auto.
      destruct Hd as [E [(y & Hy & Hd)|(N & _)]]; cbn in *; [|destruct (N x Hx)].
      assert (y = x) as -> by (apply In_mget in Hx; auto; apply In_mget in Hy; auto; congruence). eauto. }
    destruct (struct_loop_ok (slots_of fs) m [] NM (fun _ _ => eq_refl) OK) as [slots Hs].
    rewrite Hs; cbn [obind]. pose proof (struct_loop_inv _ _ _ _ NM Hs) as SL.
    assert (C : collect_fields (slots_of fs) slots = Done l).
    { apply collect_done. unfold slots_of.
      assert (K : forall f d, In f fs -> field_result m f d -> fst d = fst f /\ match mget (fst f) slots with
        | Some x => snd d = x | None => is_option (snd f) = true /\ snd d = DNone end).
      { intros [n t] [n' d] Hin [E H]; cbn in *. subst n'. split; [reflexivity|].
        pose proof (find_field_in fs n t NF Hin) as FF. destruct (SL n) as [S1 S2].
        destruct H as [(x & Hx & Hd)|(N & Ho & ->)].
        - apply In_mget in Hx; auto. rewrite Hx, FF in S1. cbn in S1. rewrite Hd in S1. rewrite S1; reflexivity.
        - apply mget_None_In in N. rewrite N in S1. rewrite S1. cbn. split; auto. now apply is_option_iff. }
      clear - F K. induction F as [|f d fs l Hd F IH]; cbn; constructor.
      - apply K; cbn; auto.
      - apply IH; intros; apply K; cbn; auto. }
    rewrite C; reflexivity.
Qed.
