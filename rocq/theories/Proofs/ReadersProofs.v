(** Types made of parts with their own impls (C118, C119). *)
From Coq Require Import ZArith Bool String Lia List.
Import ListNotations.
From Verif.Model Require Import Text Num Flt Value Convert Serde Readers.
From Verif.Spec Require Import Spec Numerals SerdeSpec ReadersSpec.
From Verif.Proofs Require Import Basics Conversions SerProofs DeProofs SerdeMore RoundTrip Loaded ReadAs.
Local Open Scope nat_scope.

Section RtyInd.
Variable P : rty -> Prop.
Hypothesis Hown : forall r w, P (ROwn r w).
Hypothesis Hopt : forall t, P t -> P (ROption t).
Hypothesis Hnew : forall t, P t -> P (RNewtype t).
Hypothesis Hseq : forall t, P t -> P (RSeq t).
Hypothesis Htup : forall ts, (forall t, In t ts -> P t) -> P (RTuple ts).
Hypothesis Hmap : forall t, P t -> P (RMap t).
Hypothesis Hstr : forall fs, (forall n t, In (n, t) fs -> P t) -> P (RStruct fs).
Fixpoint rty_ind' (t : rty) : P t.
Proof.
  destruct t as [r w|t|t|t|ts|t|fs].
  - apply Hown.
  - apply Hopt, rty_ind'.
  - apply Hnew, rty_ind'.
  - apply Hseq, rty_ind'.
  - apply Htup. induction ts as [|a ts IH]; intros x H; [destruct H|].
    destruct H as [<-|H]; [apply rty_ind' | apply IH, H].
  - apply Hmap, rty_ind'.
  - apply Hstr. induction fs as [|[k a] fs IH]; intros n x H; [destruct H|].
    destruct H as [E|H]; [exact (eq_ind a P (rty_ind' a) x (f_equal snd E)) | apply (IH n x H)].
Defined.
End RtyInd.

(** ** Loops that stop *)
Definition cast {A B : Type} (o : mres A) : mres B := match o with Done _ => Panic | Fail e => Fail e | Panic => Panic end.
Lemma cast_bind {A B C : Type} (o : mres A) (f : B -> mres C) : obind (cast o) f = cast o.
Proof. now destruct o. Qed.
Lemma bind_cast {A B : Type} (o : mres A) (f : A -> mres B) : stops o -> obind o f = cast o.
Proof. destruct o as [d| |]; intros S; [destruct (S d) | |]; reflexivity. Qed.
Lemma cast_same {A : Type} (o : mres A) : stops o -> cast o = o.
Proof. destruct o as [d| |]; intros S; [destruct (S d) | |]; reflexivity. Qed.
Lemma stop_or_done {A : Type} (o : mres A) : (exists d, o = Done d) \/ stops o.
Proof. destruct o; [eauto | right; intros d; discriminate | right; intros d; discriminate]. Qed.
Lemma stops_not {A : Type} (d : A) : stops (@Done A model_error d) -> False.
Proof. intros S. now apply (S d). Qed.

Lemma seq_halt (f : value -> mres data) l1 x l2 : (forall y, In y l1 -> exists d, f y = Done d) -> stops (f x) ->
  de_seq f (l1 ++ x :: l2) = cast (f x).
Proof.
  intros H S. induction l1 as [|y l1 IH]; cbn.
  - now apply bind_cast.
  - destruct (H y (or_introl eq_refl)) as (d & ->). cbn. fold (de_seq f (l1 ++ x :: l2)). rewrite IH by (intros; apply H; cbn; auto). apply cast_bind.
Qed.
Lemma seq_total (f : value -> mres data) l : (exists r, de_seq f l = Done r) \/
  exists l1 x l2, l = l1 ++ x :: l2 /\ (forall y, In y l1 -> exists d, f y = Done d) /\ stops (f x).
Proof.
  induction l as [|x l IH].
  - left. exists []. reflexivity.
  - destruct (stop_or_done (f x)) as [(d & E)|S].
    + destruct IH as [(r & R)|(l1 & y & l2 & -> & H & S)].
      * left. exists (d :: r). cbn. rewrite E. cbn. fold (de_seq f l). now rewrite R.
      * right. exists (x :: l1), y, l2. split; [reflexivity|]. split; [|auto]. intros z [<-|Hz]; eauto.
    + right. exists [], x, l. split; [reflexivity|]. split; [|auto]. intros z [].
Qed.

Lemma tuple_halt what f1 f f2 : forall i l1 x l2, List.length l1 = List.length f1 ->
  (forall g y, In (g, y) (List.combine f1 l1) -> exists d, g y = Done d) -> stops (f x) ->
  de_tuple what i (f1 ++ f :: f2) (l1 ++ x :: l2) = cast (f x).
Proof.
  induction f1 as [|g f1 IH]; intros i [|y l1] x l2 L H S; try discriminate; cbn [de_tuple app].
  - now apply bind_cast.
  - destruct (H g y (or_introl eq_refl)) as (d & ->). cbn [obind]. rewrite IH; auto; [apply cast_bind | intros; apply H; cbn; auto].
Qed.
Lemma tuple_short what f1 f f2 : forall i l, List.length l = List.length f1 ->
  (forall g y, In (g, y) (List.combine f1 l) -> exists d, g y = Done d) ->
  de_tuple what i (f1 ++ f :: f2) l = de_fail (lit "invalid length " ++ print_int (Z.of_nat (i + List.length l)) ++ lit ", expected " ++ what).
Proof.
  induction f1 as [|g f1 IH]; intros i [|y l] L H; try discriminate; cbn [de_tuple app].
  - cbn. now rewrite Nat.add_0_r.
  - destruct (H g y (or_introl eq_refl)) as (d & ->). cbn [obind]. rewrite IH; auto; [|intros; apply H; cbn; auto].
    cbn [List.length]. rewrite Nat.add_succ_r. reflexivity.
Qed.
Lemma tuple_total what fs : forall i l,
  (exists l1 rest r, l = l1 ++ rest /\ List.length l1 = List.length fs /\ Forall2 (fun p d => fst p (snd p) = Done d) (List.combine fs l1) r
     /\ de_tuple what i fs l = Done r) \/
  (exists f1 f f2 l1 x l2, fs = f1 ++ f :: f2 /\ l = l1 ++ x :: l2 /\ List.length l1 = List.length f1 /\
     (forall g y, In (g, y) (List.combine f1 l1) -> exists d, g y = Done d) /\ stops (f x)) \/
  (exists f1 f f2, fs = f1 ++ f :: f2 /\ List.length l = List.length f1 /\
     (forall g y, In (g, y) (List.combine f1 l) -> exists d, g y = Done d)).
Proof.
  induction fs as [|f fs IH]; intros i l.
  - left. exists [], l, []. repeat split; auto. constructor.
  - destruct l as [|x l].
    + right; right. exists [], f, fs. repeat split; auto. intros g y [].
    + destruct (stop_or_done (f x)) as [(d & E)|S].
      * destruct (IH (S i) l) as [(l1 & rest & r & -> & L & F & R)|[(f1 & g & f2 & l1 & y & l2 & -> & -> & L & H & S)|(f1 & g & f2 & -> & L & H)]].
        -- left. exists (x :: l1), rest, (d :: r). repeat split; [cbn; lia | cbn; constructor; auto |]. cbn. rewrite E. cbn. now rewrite R.
        -- right; left. exists (f :: f1), g, f2, (x :: l1), y, l2. repeat split; [cbn; lia | | auto]. intros g' z [[= <- <-]|Hz]; eauto.
        -- right; right. exists (f :: f1), g, f2. repeat split; [cbn; lia |]. intros g' z [[= <- <-]|Hz]; eauto.
      * right; left. exists [], f, fs, [], x, l. repeat split; auto. intros g y [].
Qed.
Lemma tuple_ok what fs : forall i l rest r, List.length l = List.length fs ->
  Forall2 (fun p d => fst p (snd p) = Done d) (List.combine fs l) r -> de_tuple what i fs (l ++ rest) = Done r.
Proof.
  induction fs as [|f fs IH]; intros i [|x l] rest r L F; try discriminate; cbn in F.
  - inversion F; subst. reflexivity.
  - inversion F as [|? d ? r' E F']; subst. cbn in *. rewrite E. cbn. now rewrite (IH (S i) l rest r') by (auto; lia).
Qed.

(** ** Maps keyed by String *)
Lemma strings_fold (m : vmap) (ps : list (data * data)) acc : NoDup (map fst m) -> map fst ps = map (fun e => DStr (fst e)) m ->
  (forall k, In k (map fst m) -> forall q, In q acc -> fst q <> DStr k) ->
  (forall q, In q acc -> exists s, fst q = DStr s) ->
  fold_left (fun acc p => dinsert (fst p) (snd p) acc) ps acc = acc ++ ps.
Proof.
  revert ps acc; induction m as [|[k x] m IH]; intros ps acc ND E A S; destruct ps as [|[a b] ps]; try discriminate; cbn [fold_left].
  - now rewrite app_nil_r.
  - cbn in E. injection E as -> E. cbn in ND; inversion ND as [|? ? N1 N2]; subst. cbn [fst snd]. rewrite dinsert_new.
    + rewrite IH; auto.
      * now rewrite <- app_assoc.
      * intros k' Hk q Hq. apply in_app_iff in Hq as [Hq|[<-|[]]]; [apply (A k'); cbn; auto|]. cbn. intros [= ->]. contradiction.
      * intros q Hq. apply in_app_iff in Hq as [Hq|[<-|[]]]; eauto. cbn; eauto.
    + intros k' v' Hk. destruct (S _ Hk) as (s & Es). cbn in Es; subst k'. cbn. destruct (str_eqb_spec k s) as [->|]; auto.
      exfalso. exact (A s (or_introl eq_refl) _ Hk eq_refl).
Qed.
Lemma map_done (f : value -> mres data) m r : NoDup (map fst m) ->
  (de_map (de TString) f dinsert m = Done r <-> Forall2 (fun e p => fst p = DStr (fst e) /\ f (snd e) = Done (snd p)) m r).
Proof.
  intros ND. change (@de_map data data (de TString) f dinsert m) with (de_map_loop (de TString) f dinsert m []).
  etransitivity; [apply de_map_fold|]. split.
  - intros (ps & F & ->). rewrite (strings_fold m ps []); auto.
    + cbn. eapply Forall2_imp; [|exact F]. intros [k x] [a b] _ _ [E1 E2]. cbn in *. split; congruence.
    + clear ND. induction F as [|[k x] [a b] m ps [E1 _] F IH]; cbn in *; congruence.
    + intros q [].
  - intros F. exists r. split.
    + eapply Forall2_imp; [|exact F]. intros [k x] [a b] _ _ [E1 E2]. cbn in *. split; congruence.
    + rewrite (strings_fold m r []); auto; [|intros q []].
      clear ND. induction F as [|[k x] [a b] m ps [E1 _] F IH]; cbn in *; congruence.
Qed.
Lemma map_halt (f : value -> mres data) m1 k x m2 : (forall k' y, In (k', y) m1 -> exists d, f y = Done d) -> stops (f x) ->
  de_map (de TString) f dinsert (m1 ++ (k, x) :: m2) = cast (f x).
Proof.
  intros H S. change (@de_map data data (de TString) f dinsert (m1 ++ (k, x) :: m2)) with (de_map_loop (de TString) f dinsert (m1 ++ (k, x) :: m2) []).
  generalize (@nil (data * data)) as acc. induction m1 as [|[k' y] m1 IH]; intros acc; cbn.
  - now apply bind_cast.
  - destruct (H k' y (or_introl eq_refl)) as (d & ->). cbn. apply IH. intros; eapply H; cbn; eauto.
Qed.
Lemma map_total (f : value -> mres data) m : (exists r, de_map (de TString) f dinsert m = Done r) \/
  exists m1 k x m2, m = m1 ++ (k, x) :: m2 /\ (forall k' y, In (k', y) m1 -> exists d, f y = Done d) /\ stops (f x).
Proof.
  change (@de_map data data (de TString) f dinsert m) with (de_map_loop (de TString) f dinsert m []).
  generalize (@nil (data * data)) as acc. induction m as [|[k x] m IH]; intros acc.
  - left. exists acc. reflexivity.
  - destruct (stop_or_done (f x)) as [(d & E)|S].
    + destruct (IH (dinsert (DStr k) d acc)) as [(r & R)|(m1 & k' & y & m2 & -> & H & S)].
      * left. exists r. cbn. rewrite E. cbn. exact R.
      * right. exists ((k, x) :: m1), k', y, m2. split; [reflexivity|]. split; [|auto]. intros k0 z [[= <- <-]|Hz]; eauto.
    + right. exists [], k, x, m. split; [reflexivity|]. split; [|auto]. intros k0 z [].
Qed.

(** ** Structs *)
Definition rslots (fs : list (str * rty)) : list field_slot :=
  map (fun p => {| fs_name := fst p; fs_optional := r_is_option (snd p); fs_de := de_r (snd p) |}) fs.
Lemma rfind_some fs k f : find_field k (rslots fs) = Some f ->
  exists t, In (k, t) fs /\ f = {| fs_name := k; fs_optional := r_is_option t; fs_de := de_r t |}.
Proof.
  induction fs as [|[n t] fs IH]; cbn; [discriminate|].
  destruct (str_eqb_spec k n) as [->|N]; [intros [= <-]; eauto|].
  intros H; destruct (IH H) as (t' & ? & ?); eauto.
Qed.
Lemma rfind_in fs k t : NoDup (map fst fs) -> In (k, t) fs ->
  find_field k (rslots fs) = Some {| fs_name := k; fs_optional := r_is_option t; fs_de := de_r t |}.
Proof.
  induction fs as [|[n t'] fs IH]; cbn; [tauto|]. intros ND [[= -> ->]|H].
  - now rewrite str_eqb_refl.
  - inversion ND as [|? ? N1 N2]; subst. destruct (str_eqb_spec k n) as [->|N]; auto.
    destruct N1. apply (in_map fst) in H. exact H.
Qed.
Lemma ropt_iff t : r_is_option t = true <-> exists u, t = ROption u.
Proof. destruct t; cbn; split; try discriminate; eauto; intros [u E]; discriminate. Qed.

Lemma loop_halt fs m1 k x m2 f acc : NoDup (map fst (m1 ++ (k, x) :: m2)) ->
  (forall k', In k' (map fst (m1 ++ (k, x) :: m2)) -> mget k' acc = None) ->
  (forall k' y g, In (k', y) m1 -> find_field k' fs = Some g -> exists d, fs_de g y = Done d) ->
  find_field k fs = Some f -> stops (fs_de f x) -> struct_loop fs (m1 ++ (k, x) :: m2) acc = cast (fs_de f x).
Proof.
  revert acc; induction m1 as [|[k' y] m1 IH]; intros acc ND A H Ff S; cbn [app]; rewrite struct_loop_step.
  - rewrite Ff, (A k) by (cbn; auto). now apply bind_cast.
  - cbn in ND; inversion ND as [|? ? N1 N2]; subst. destruct (find_field k' fs) as [g|] eqn:Eg.
    + rewrite (A k') by (cbn; auto). destruct (H k' y g (or_introl eq_refl) Eg) as (d & ->). cbn [obind]. apply IH; auto.
      * intros k0 Hk. rewrite mget_minsert_neq; [apply A; cbn; auto | intros ->; auto].
      * intros; eapply H; cbn; eauto.
    + apply IH; auto; [intros; apply A; cbn; auto | intros; eapply H; cbn; eauto].
Qed.
Lemma loop_total fs m acc : NoDup (map fst m) -> (forall k, In k (map fst m) -> mget k acc = None) ->
  (exists slots, struct_loop fs m acc = Done slots) \/
  exists m1 k x m2 f, m = m1 ++ (k, x) :: m2 /\ find_field k fs = Some f /\ stops (fs_de f x) /\
    (forall k' y g, In (k', y) m1 -> find_field k' fs = Some g -> exists d, fs_de g y = Done d).
Proof.
  revert acc; induction m as [|[k x] m IH]; intros acc ND A.
  - left. exists acc. reflexivity.
  - rewrite struct_loop_step. cbn in ND; inversion ND as [|? ? N1 N2]; subst. destruct (find_field k fs) as [f|] eqn:Ef.
    + rewrite (A k) by (cbn; auto). destruct (stop_or_done (fs_de f x)) as [(d & E)|S].
      * destruct (IH (minsert k d acc)) as [(s & Hs)|(m1 & k' & y & m2 & g & -> & Hg & S & H)]; auto.
        { intros k0 Hk. rewrite mget_minsert_neq; [apply A; cbn; auto | intros ->; auto]. }
        -- left. exists s. rewrite E. exact Hs.
        -- right. exists ((k, x) :: m1), k', y, m2, g. repeat split; auto. intros k0 z g0 [[= <- <-]|Hz] Hg0; [|eauto].
           rewrite Ef in Hg0. injection Hg0 as <-. eauto.
      * right. exists [], k, x, m, f. repeat split; auto. intros k0 z g0 [].
    + destruct (IH acc) as [(s & Hs)|(m1 & k' & y & m2 & g & -> & Hg & S & H)]; auto; [intros; apply A; cbn; auto | left; eauto |].
      right. exists ((k, x) :: m1), k', y, m2, g. repeat split; auto. intros k0 z g0 [[= <- <-]|Hz] Hg0; [congruence | eauto].
Qed.

Lemma Forall2_map_l {A B C} (R : B -> C -> Prop) (g : A -> B) l r : Forall2 R (map g l) r <-> Forall2 (fun a c => R (g a) c) l r.
Proof. revert r; induction l as [|a l IH]; intros [|c r]; cbn; split; intros H; inversion H; subst; constructor; auto; now apply IH. Qed.
Lemma struct_parts fs m r : NoDup (map fst fs) -> NoDup (map fst m) ->
  (de_struct (rslots fs) m = Done (DStruct r) <->
   Forall2 (fun f d => fst d = fst f /\
      ((exists x, In (fst f, x) m /\ de_r (snd f) x = Done (snd d))
       \/ ((forall x, ~ In (fst f, x) m) /\ (exists t, snd f = ROption t) /\ snd d = DNone))) fs r).
Proof.
  intros NF NM. unfold de_struct. change (de_struct_loop (rslots fs) m) with (struct_loop (rslots fs) m []).
  assert (K : forall slots, struct_loop (rslots fs) m [] = Done slots -> forall n t d, In (n, t) fs ->
    (match mget n slots with Some x => d = x | None => r_is_option t = true /\ d = DNone end <->
     ((exists x, In (n, x) m /\ de_r t x = Done d) \/ ((forall x, ~ In (n, x) m) /\ (exists u, t = ROption u) /\ d = DNone)))).
  { intros slots Hs n t d Hin. pose proof (rfind_in fs n t NF Hin) as FF. destruct (struct_loop_inv _ _ _ _ NM Hs n) as [S1 S2].
    destruct (mget n m) as [x|] eqn:Em.
    - destruct (S2 _ _ eq_refl FF) as [d' Hd']. rewrite FF, Hd' in S1. cbn in Hd'. rewrite S1. pose proof (mget_In _ _ _ Em) as Hx. split.
      + intros ->. left; eauto.
      + intros [(y & Hy & Hd)|(N & _)]; [|destruct (N x Hx)]. apply (In_mget _ _ _ NM) in Hy. congruence.
    - cbn in S1. rewrite S1. pose proof (proj1 (mget_None_In _ _) Em) as Nx. rewrite ropt_iff. split.
      + intros [O ->]. right; auto.
      + intros [(y & Hy & Hd)|(_ & O & ->)]; [destruct (Nx y Hy) | auto]. }
  split.
  - intros H. apply obind_done in H as (slots & Hs & H). apply obind_done in H as (l & Hl & [= <-]).
    specialize (K slots Hs). apply collect_done in Hl. unfold rslots in Hl. apply Forall2_map_l in Hl.
    eapply Forall2_imp; [|exact Hl]. intros [n t] [n' d] Hf _ [E Hd]. cbn in *. split; auto. now apply K.
  - intros F.
    assert (OK : forall k x f, In (k, x) m -> find_field k (rslots fs) = Some f -> exists d, fs_de f x = Done d).
    { intros k x f Hx Hf. apply rfind_some in Hf as (t & Ht & ->). cbn.
      clear - F Ht Hx NM. induction F as [|f d fs l Hd F IH]; [destruct Ht|]. destruct Ht as [->|Ht]; auto.
      destruct Hd as [E [(y & Hy & Hd)|(N & _)]]; cbn in *; [|destruct (N x Hx)].
      assert (y = x) as -> by (apply In_mget in Hx; auto; apply In_mget in Hy; auto; congruence). eauto. }
    destruct (struct_loop_ok (rslots fs) m [] NM (fun _ _ => eq_refl) OK) as [slots Hs].
    rewrite Hs; cbn [obind]. specialize (K slots Hs).
    assert (C : collect_fields (rslots fs) slots = Done r).
    { apply collect_done. unfold rslots. apply Forall2_map_l. eapply Forall2_imp; [|exact F].
      intros [n t] [n' d] Hf _ [E Hd]. cbn in *. split; auto. now apply (K n t d Hf). }
    rewrite C. reflexivity.
Qed.

Lemma stop_unique fs m k x f m1 m2 : m = m1 ++ (k, x) :: m2 -> find_field k fs = Some f -> stops (fs_de f x) ->
  forall slots, NoDup (map fst m) -> struct_loop fs m [] <> Done slots.
Proof.
  intros -> Ff S slots ND H. destruct (struct_loop_inv _ _ _ _ ND H k) as [_ I].
  destruct (I x f) as (d & E); auto; [|exact (S d E)]. apply In_mget; auto. apply in_or_app; cbn; auto.
Qed.

(** ** The answers *)
Lemma not_array v t : ~ arrayv v -> de_r (RSeq t) v = wrong_kind_error v (lit "Array").
Proof. intros N. destruct v; try reflexivity. destruct N; eexists; reflexivity. Qed.
Lemma not_array_tuple v ts : ~ arrayv v -> de_r (RTuple ts) v = wrong_kind_error v (lit "Array").
Proof. intros N. destruct v; try reflexivity. destruct N; eexists; reflexivity. Qed.
Lemma not_map v t : ~ mapv v -> de_r (RMap t) v = wrong_kind_error v (lit "Map").
Proof. intros N. destruct v; try reflexivity. destruct N; eexists; reflexivity. Qed.
Lemma not_map_struct v fs : ~ mapv v -> de_r (RStruct fs) v = wrong_kind_error v (lit "Map").
Proof. intros N. destruct v; try reflexivity. destruct N; eexists; reflexivity. Qed.
Lemma arrayv_dec v : arrayv v \/ ~ arrayv v.
Proof. destruct v; try (right; intros (l & H); discriminate). left; eexists; reflexivity. Qed.

Definition agrees (t : rty) : Prop := forall v, uniq v -> answers t v (de_r t v) /\ forall o, answers t v o -> de_r t v = o.
Lemma agrees_done t : agrees t -> forall v d, uniq v -> (answers t v (Done d) <-> de_r t v = Done d).
Proof. intros A v d U. destruct (A v U) as [A1 A2]. split; [apply A2 | intros <-; exact A1]. Qed.

Theorem de_answers t : rproper t -> agrees t.
Proof.
  induction t as [r w|t IH|t IH|t IH|ts IH|t IH|fs IH] using rty_ind'; intros P v U.
  - split; [constructor | intros o H; now inversion H].
  - inversion P; subst. destruct (IH ltac:(assumption) v U) as [I1 I2]. destruct (value_eq_none v) as [->|N].
    + split; [constructor | intros o H; inversion H; subst; congruence || reflexivity].
    + assert (E : de_r (ROption t) v = obind (de_r t v) (fun d => Done (DSome d))) by (destruct v; congruence || reflexivity).
      rewrite E. split.
      * destruct (stop_or_done (de_r t v)) as [(d & D)|S].
        -- rewrite D in *. cbn. now apply AnSome.
        -- rewrite bind_cast by auto. rewrite cast_same by auto. now apply AnSomeStop.
      * intros o H. inversion H as [|?|? ? d Nv A|? ? ? Nv A S| | | | | | | | | | | | | | | | ]; subst; try congruence.
        -- now rewrite (I2 _ A).
        -- rewrite (I2 _ A). rewrite bind_cast by auto. now apply cast_same.
  - inversion P; subst. destruct (IH ltac:(assumption) v U) as [I1 I2]. cbn [de_r]. split.
    + destruct (stop_or_done (de_r t v)) as [(d & D)|S].
      * rewrite D in *. cbn. now apply AnNewtype.
      * rewrite bind_cast by auto. rewrite cast_same by auto. now apply AnNewtypeStop.
    + intros o H. inversion H; subst.
      * match goal with A : answers t v _ |- _ => now rewrite (I2 _ A) end.
      * match goal with A : answers t v _ |- _ => rewrite (I2 _ A) end. rewrite bind_cast by auto. now apply cast_same.
  - inversion P; subst. specialize (IH ltac:(assumption)). destruct (arrayv_dec v) as [(l & ->)|N].
    2:{ rewrite not_array by auto. split; [now constructor|]. intros o H. inversion H; subst; try reflexivity; destruct N; eexists; reflexivity. }
    pose proof (proj1 (uniq_arr l) U) as Ul. cbn [de_r]. split.
    + destruct (seq_total (de_r t) l) as [(r & R)|(l1 & x & l2 & -> & H & S)].
      * rewrite R. cbn. constructor. apply de_seq_done in R. eapply Forall2_imp; [|exact R]. intros x d Hx _ E. now apply agrees_done; auto.
      * rewrite seq_halt by auto. rewrite cast_bind, cast_same by auto. apply AnSeqStop; auto.
        -- intros y Hy. destruct (H y Hy) as (d & E). exists d. apply agrees_done; auto. apply Ul, in_or_app; auto.
        -- apply IH. apply Ul, in_or_app; cbn; auto.
    + intros o H. inversion H as [| | | | | |? ? N|? ? r F|? l1 x l2 ? A1 A2 S| | | | | | | | | | | ]; subst.
      * destruct N; eexists; reflexivity.
      * assert (R : de_seq (de_r t) l = Done r).
        { apply de_seq_done. eapply Forall2_imp; [|exact F]. intros x d Hx _ E. apply agrees_done in E; auto. }
        rewrite R. reflexivity.
      * assert (Ex : de_r t x = o) by (apply IH; auto; apply Ul, in_or_app; cbn; auto).
        rewrite seq_halt; [rewrite cast_bind, Ex; now apply cast_same | | now rewrite Ex].
        intros y Hy. destruct (A1 y Hy) as (d & E). exists d. apply agrees_done in E; auto. apply Ul, in_or_app; auto.
  - assert (IH' : forall t, In t ts -> agrees t) by (inversion P; subst; auto). clear IH.
    destruct (arrayv_dec v) as [(l & ->)|N].
    2:{ rewrite not_array_tuple by auto. split; [now constructor|]. intros o H. inversion H; subst; try reflexivity; destruct N; eexists; reflexivity. }
    pose proof (proj1 (uniq_arr l) U) as Ul. cbn [de_r].
    assert (Cm : forall ts1 (l1 : list value), List.combine (map (fun t => de_r t) ts1) l1 = map (fun p => (de_r (fst p), snd p)) (List.combine ts1 l1)).
    { clear. induction ts1 as [|t ts1 IH]; intros [|x l1]; cbn; auto. now rewrite IH. }
    assert (Dn : forall ts1 l1, incl ts1 ts -> incl l1 l ->
      ((forall g y, In (g, y) (List.combine (map (fun t => de_r t) ts1) l1) -> exists d, g y = Done d) <->
       (forall t' y, In (t', y) (List.combine ts1 l1) -> exists d, answers t' y (Done d)))).
    { intros ts1 l1 I1 I2. rewrite Cm. split.
      - intros H t' y Hy. destruct (H (de_r t') y) as (d & E); [apply in_map_iff; exists (t', y); auto|].
        exists d. apply agrees_done; auto; [apply IH', I1; now apply in_combine_l in Hy | apply Ul, I2; now apply in_combine_r in Hy].
      - intros H g y Hg. apply in_map_iff in Hg as ([t' y'] & [= <- <-] & Hy). destruct (H t' y' Hy) as (d & E). exists d. cbn.
        apply agrees_done in E; auto; [apply IH', I1; now apply in_combine_l in Hy | apply Ul, I2; now apply in_combine_r in Hy]. }
    assert (Map : forall f1 g f2, map (fun t => de_r t) ts = f1 ++ g :: f2 -> exists ts1 t ts2, ts = ts1 ++ t :: ts2 /\ f1 = map (fun t => de_r t) ts1 /\ g = de_r t
       /\ f2 = map (fun t => de_r t) ts2).
    { clear. induction ts as [|t ts IH]; intros f1 g f2 E; [destruct f1; discriminate|]. destruct f1 as [|f f1]; cbn in E.
      - injection E as <- <-. exists [], t, ts. auto.
      - injection E as <- E. destruct (IH _ _ _ E) as (ts1 & u & ts2 & -> & -> & -> & ->). exists (t :: ts1), u, ts2. auto. }
    split.
    + destruct (tuple_total (expecting_tuple (List.length ts)) (map (fun t => de_r t) ts) 0 l)
        as [(l1 & rest & r & -> & L & F & R)|[(f1 & f & f2 & l1 & x & l2 & E & -> & L & H & S)|(f1 & f & f2 & E & L & H)]].
      * rewrite R. cbn. rewrite map_length in L. apply AnTuple; auto. rewrite Cm in F. apply Forall2_map_l in F.
        eapply Forall2_imp; [|exact F]. intros [t' y] d Hy _ E. cbn in *.
        apply agrees_done; auto; [apply IH'; now apply in_combine_l in Hy | apply Ul, in_or_app; left; now apply in_combine_r in Hy].
      * destruct (Map _ _ _ E) as (ts1 & t & ts2 & Et & -> & -> & ->). rewrite E. rewrite tuple_halt by auto. rewrite cast_bind, cast_same by auto.
        rewrite map_length in L. subst ts. apply AnTupleStop; auto.
        -- apply Dn; auto; intros z Hz; apply in_or_app; auto.
        -- apply IH'; [apply in_or_app; cbn; auto | apply Ul, in_or_app; cbn; auto].
      * destruct (Map _ _ _ E) as (ts1 & t & ts2 & Et & -> & -> & ->). rewrite E. rewrite tuple_short by auto. rewrite map_length in L. cbn [obind de_fail].
        subst ts. unfold de_fail, expecting_tuple. cbn [obind]. rewrite !Nat.add_0_l.
        apply (AnTupleShort ts1 t ts2 l); auto; try apply print_int_canonical. apply Dn; auto; intros z Hz; auto. apply in_or_app; auto.
    + intros o H. inversion H as [| | | | | | | | |? ? N|? l1 rest r L F|ts1 t ts2 l1 x l2 ? L A1 A2 S|ts1 t ts2 ? here all L A1 C1 C2| | | | | | | ]; subst.
      * destruct N; eexists; reflexivity.
      * rewrite (tuple_ok _ (map (fun t => de_r t) ts) 0 l1 rest r); [reflexivity | now rewrite map_length |].
        rewrite Cm. apply Forall2_map_l. eapply Forall2_imp; [|exact F]. intros [t' y] d Hy _ E. cbn in *.
        apply agrees_done in E; auto; [apply IH'; now apply in_combine_l in Hy | apply Ul, in_or_app; left; now apply in_combine_r in Hy].
      * assert (Ex : de_r t x = o) by (apply IH'; auto; [apply in_or_app; cbn; auto | apply Ul, in_or_app; cbn; auto]).
        rewrite map_app. cbn [map]. rewrite tuple_halt; [rewrite cast_bind, Ex; now apply cast_same | now rewrite map_length | | now rewrite Ex].
        apply Dn; auto; intros z Hz; apply in_or_app; auto.
      * rewrite map_app. cbn [map]. rewrite tuple_short; [| now rewrite map_length |].
        -- unfold de_fail, expecting_tuple. cbn [obind]. rewrite Nat.add_0_l. now rewrite (canonical_print _ _ C1), (canonical_print _ _ C2).
        -- apply Dn; auto; intros z Hz; auto. apply in_or_app; auto.
  - inversion P; subst. specialize (IH ltac:(assumption)). destruct (mapv_dec v) as [(m & ->)|N].
    2:{ rewrite not_map by auto. split; [now constructor|]. intros o H. inversion H; subst; try reflexivity; destruct N; eexists; reflexivity. }
    apply uniq_map in U as [ND Um]. cbn [de_r]. split.
    + destruct (map_total (de_r t) m) as [(r & R)|(m1 & k & x & m2 & -> & H & S)].
      * rewrite R. cbn. constructor. apply map_done in R; auto. eapply Forall2_imp; [|exact R]. intros [k x] [a b] Hx _ [E1 E2]. cbn in *. split; auto.
        apply agrees_done; eauto.
      * rewrite map_halt by auto. rewrite cast_bind, cast_same by auto. apply AnMapStop; auto.
        -- intros k' y Hy. destruct (H k' y Hy) as (d & E). exists d. apply agrees_done; auto. apply (Um k'), in_or_app; auto.
        -- apply IH. apply (Um k), in_or_app; cbn; auto.
    + intros o H. inversion H as [| | | | | | | | | | | | |? ? N|? ? r F|? m1 k x m2 ? A1 A2 S| | | | ]; subst.
      * destruct N; eexists; reflexivity.
      * assert (R : de_map (de TString) (de_r t) dinsert m = Done r).
        { apply map_done; auto. eapply Forall2_imp; [|exact F]. intros [k x] [a b] Hx _ [E1 E2]. cbn in *. split; auto. apply agrees_done in E2; eauto. }
        rewrite R. reflexivity.
      * assert (Ex : de_r t x = o) by (apply IH; auto; apply (Um k), in_or_app; cbn; auto).
        rewrite map_halt; [rewrite cast_bind, Ex; now apply cast_same | | now rewrite Ex].
        intros k' y Hy. destruct (A1 k' y Hy) as (d & E). exists d. apply agrees_done in E; auto. apply (Um k'), in_or_app; auto.
  - assert (K : NoDup (map fst fs) /\ forall n t, In (n, t) fs -> agrees t) by (inversion P; subst; split; eauto). clear IH. destruct K as [NF IH].
    destruct (mapv_dec v) as [(m & ->)|N].
    2:{ rewrite not_map_struct by auto. split; [now constructor|]. intros o H. inversion H; subst; try reflexivity; destruct N; eexists; reflexivity. }
    apply uniq_map in U as [ND Um]. cbn [de_r]. fold (rslots fs).
    assert (AD : forall n x t d, In (n, x) m -> In (n, t) fs -> (answers t x (Done d) <-> de_r t x = Done d)) by (intros; apply agrees_done; eauto).
    assert (Halt : forall m1 n x m2 t, m = m1 ++ (n, x) :: m2 -> In (n, t) fs -> stops (de_r t x) ->
      (forall n' y t', In (n', y) m1 -> In (n', t') fs -> exists d, de_r t' y = Done d) -> de_struct (rslots fs) m = de_r t x).
    { intros m1 n x m2 t -> Ht S H. unfold de_struct.
      change (de_struct_loop (rslots fs) (m1 ++ (n, x) :: m2)) with (struct_loop (rslots fs) (m1 ++ (n, x) :: m2) []).
      rewrite (loop_halt (rslots fs) m1 n x m2 {| fs_name := n; fs_optional := r_is_option t; fs_de := de_r t |} [] ND (fun _ _ => eq_refl)).
      - rewrite cast_bind. now apply cast_same.
      - intros k' y g Hk Hg. apply rfind_some in Hg as (t' & Ht' & ->). cbn. eauto.
      - now apply rfind_in.
      - exact S. }
    assert (Miss : forall f1 n t f2, fs = f1 ++ (n, t) :: f2 ->
      (forall n' y t', In (n', y) m -> In (n', t') fs -> exists d, de_r t' y = Done d) ->
      (forall n' t', In (n', t') f1 -> (exists x, In (n', x) m) \/ exists u, t' = ROption u) ->
      (forall x, ~ In (n, x) m) -> (forall u, t <> ROption u) ->
      de_struct (rslots fs) m = de_fail (lit "missing field `" ++ n ++ lit "`")).
    { intros f1 n t f2 E H H1 H2 H3. unfold de_struct. change (de_struct_loop (rslots fs) m) with (struct_loop (rslots fs) m []).
      destruct (struct_loop_ok (rslots fs) m [] ND (fun _ _ => eq_refl)) as [slots Hs].
      { intros k x f Hx Hf. apply rfind_some in Hf as (t' & Ht & ->). cbn. eauto. }
      rewrite Hs. cbn [obind]. assert (C : collect_fields (rslots fs) slots = de_fail (lit "missing field `" ++ n ++ lit "`")).
      { apply collect_fails. exists (rslots f1), {| fs_name := n; fs_optional := r_is_option t; fs_de := de_r t |}, (rslots f2).
        assert (Gn : forall n', mget n' slots = match mget n' m, find_field n' (rslots fs) with Some x, Some f => match fs_de f x with Done d => Some d | _ => None end | _, _ => None end)
          by (intros n'; exact (proj1 (struct_loop_inv _ _ _ _ ND Hs n'))).
        split; [subst fs; unfold rslots; now rewrite map_app|]. cbn [fs_name fs_optional]. split; [|split; [|split; [reflexivity|]]].
        - rewrite Gn. destruct (mget n m) as [x|] eqn:Em; auto. apply mget_In in Em. destruct (H2 x Em).
        - destruct (r_is_option t) eqn:O; auto. apply ropt_iff in O as (u & ->). now destruct (H3 u).
        - intros g Hg. apply in_map_iff in Hg as ([n' t'] & <- & Hn). cbn. destruct (H1 n' t' Hn) as [(x & Hx)|O]; [left | right; now apply ropt_iff].
          assert (Hin : In (n', t') fs) by (subst fs; apply in_or_app; auto).
          rewrite Gn. rewrite (rfind_in fs n' t' NF Hin). apply (In_mget _ _ _ ND) in Hx as Hx'. rewrite Hx'. cbn.
          destruct (H n' x t' Hx Hin) as (d & ->). discriminate. }
      rewrite C. reflexivity. }
    split.
    + destruct (loop_total (rslots fs) m [] ND (fun _ _ => eq_refl)) as [(slots & Hs)|(m1 & k & x & m2 & f & E & Ff & S & H)].
      * assert (H : forall n' y t', In (n', y) m -> In (n', t') fs -> exists d, de_r t' y = Done d).
        { intros n' y t' Hy Ht. destruct (struct_loop_inv _ _ _ _ ND Hs n') as [_ I]. apply (I y _ (In_mget _ _ _ ND Hy) (rfind_in fs n' t' NF Ht)). }
        destruct (collect_fields (rslots fs) slots) as [r|e|] eqn:C.
        -- assert (D : de_struct (rslots fs) m = Done (DStruct r)).
           { unfold de_struct. change (de_struct_loop (rslots fs) m) with (struct_loop (rslots fs) m []). rewrite Hs. cbn [obind]. now rewrite C. }
           rewrite D. constructor. apply (struct_parts fs m r NF ND) in D. eapply Forall2_imp; [|exact D].
           intros [n t] [n' d] Hf _ [En R]. cbn in *. split; auto. destruct R as [(x & Hx & Hd)|R]; [left | auto]. exists x. split; auto. now apply (AD n x t d).
        -- pose proof C as C'. apply collect_fails in C' as (g1 & g & g2 & Eg & G1 & G2 & -> & G4).
           assert (Map : exists f1 n t f2, fs = f1 ++ (n, t) :: f2 /\ g1 = rslots f1 /\ g = {| fs_name := n; fs_optional := r_is_option t; fs_de := de_r t |}).
           { clear - Eg. revert g1 Eg. induction fs as [|[n t] fs IH]; intros [|h g1] E; try discriminate; cbn in E.
             - injection E as <- _. exists [], n, t, fs. auto.
             - injection E as <- E. destruct (IH _ E) as (f1 & n' & t' & f2 & -> & -> & ->). exists ((n, t) :: f1), n', t', f2. auto. }
           destruct Map as (f1 & n & t & f2 & Ef & -> & ->). cbn in *.
           assert (D : de_struct (rslots fs) m = de_fail (lit "missing field `" ++ n ++ lit "`")).
           { unfold de_struct. change (de_struct_loop (rslots fs) m) with (struct_loop (rslots fs) m []). rewrite Hs. cbn [obind]. now rewrite C. }
           rewrite D. unfold de_fail.
           assert (Gn : forall n', mget n' slots = match mget n' m, find_field n' (rslots fs) with Some x, Some f => match fs_de f x with Done d => Some d | _ => None end | _, _ => None end)
             by (intros n'; exact (proj1 (struct_loop_inv _ _ _ _ ND Hs n'))).
           rewrite Ef. apply AnStructMissing; [rewrite <- Ef| | |].
           ++ intros n' y t' Hy Ht. destruct (H n' y t' Hy Ht) as (d & E). exists d. now apply (AD n' y t' d).
           ++ intros n' t' Hn. destruct (G4 {| fs_name := n'; fs_optional := r_is_option t'; fs_de := de_r t' |}) as [G|G].
              ** apply in_map_iff. exists (n', t'); auto.
              ** left. cbn in G. rewrite Gn in G. destruct (mget n' m) as [x|] eqn:Em; [|congruence]. exists x. now apply mget_In.
              ** right. now apply ropt_iff.
           ++ intros x Hx. assert (Hn : In (n, t) fs) by (subst fs; apply in_or_app; cbn; auto).
              rewrite Gn, (In_mget _ _ _ ND Hx), (rfind_in fs n t NF Hn) in G1. cbn in G1. destruct (H n x t Hx Hn) as (d & E). rewrite E in G1. discriminate.
           ++ intros u ->. discriminate.
        -- now destruct (collect_no_panic _ _ C).
      * apply rfind_some in Ff as (t & Ht & ->). cbn in S.
        assert (H' : forall n' y t', In (n', y) m1 -> In (n', t') fs -> exists d, de_r t' y = Done d).
        { intros n' y t' Hy Ht'. apply (H n' y _ Hy (rfind_in fs n' t' NF Ht')). }
        rewrite (Halt m1 k x m2 t E Ht S H'). subst m. apply (AnStructStop fs m1 k x m2 t); auto.
        -- intros n' y t' Hy Ht'. destruct (H' n' y t' Hy Ht') as (d & E). exists d. apply (AD n' y t' d); auto. apply in_or_app; auto.
        -- apply (IH k t Ht). apply (Um k), in_or_app; cbn; auto.
    + intros o H. inversion H as [| | | | | | | | | | | | | | | |? ? N|? ? r F|? m1 n x m2 t ? A1 Ht A2 S|f1 n t f2 ? A1 A2 A3 A4]; subst.
      * destruct N; eexists; reflexivity.
      * apply struct_parts; auto. eapply Forall2_imp; [|exact F]. intros [n t] [n' d] Hf _ [En R]. cbn in *. split; auto.
        destruct R as [(x & Hx & Hd)|R]; [left | auto]. exists x. split; auto. now apply (AD n x t d).
      * assert (Ex : de_r t x = o) by (apply (IH n t Ht); auto; apply (Um n), in_or_app; cbn; auto).
        rewrite <- Ex in S |- *. apply (Halt m1 n x m2 t); auto. intros n' y t' Hy Ht'. destruct (A1 n' y t' Hy Ht') as (d & E).
        exists d. apply (AD n' y t' d); auto. apply in_or_app; auto.
      * apply (Miss f1 n t f2); auto. intros n' y t' Hy Ht'. destruct (A1 n' y t' Hy Ht') as (d & E). exists d. now apply (AD n' y t' d).
Qed.

(** ** Writing *)
Lemma sseq_halt {A : Type} (f : A -> mres value) l1 x l2 acc : (forall y, In y l1 -> exists v, f y = Done v) -> stops (f x) ->
  ser_seq f (VArr acc) (l1 ++ x :: l2) = f x.
Proof.
  intros H S. revert acc; induction l1 as [|y l1 IH]; intros acc; cbn.
  - rewrite bind_cast by auto. now apply cast_same.
  - destruct (H y (or_introl eq_refl)) as (v & ->). cbn. apply IH. intros; apply H; cbn; auto.
Qed.
Lemma done_or_stop {A B : Type} (f : A -> mres B) l : (exists vs, Forall2 (fun x v => f x = Done v) l vs) \/
  exists l1 x l2, l = l1 ++ x :: l2 /\ (forall y, In y l1 -> exists v, f y = Done v) /\ stops (f x).
Proof.
  induction l as [|x l IH].
  - left. exists []. constructor.
  - destruct (stop_or_done (f x)) as [(d & E)|S].
    + destruct IH as [(r & R)|(l1 & y & l2 & -> & H & S)].
      * left. exists (d :: r). constructor; auto.
      * right. exists (x :: l1), y, l2. split; [reflexivity|]. split; [|auto]. intros z [<-|Hz]; eauto.
    + right. exists [], x, l. split; [reflexivity|]. split; [|auto]. intros z [].
Qed.
Lemma sfields_halt {A : Type} (f : A -> mres value) l1 n x l2 acc : (forall k y, In (k, y) l1 -> exists v, f y = Done v) -> stops (f x) ->
  ser_fields f (VMap acc) (l1 ++ (n, x) :: l2) = f x.
Proof.
  intros H S. revert acc; induction l1 as [|[k y] l1 IH]; intros acc; cbn.
  - rewrite bind_cast by auto. now apply cast_same.
  - destruct (H k y (or_introl eq_refl)) as (v & ->). cbn. apply IH. intros; eapply H; cbn; eauto.
Qed.
Lemma sentries_halt (f : data -> mres value) m1 s x m2 acc : (forall k y, In (k, y) m1 -> (exists s, k = DStr s) /\ exists v, f y = Done v) -> stops (f x) ->
  entries_loop (fun e => ser (fst e)) (fun e => f (snd e)) {| sm_map := VMap acc; sm_key := None |} (m1 ++ (DStr s, x) :: m2) = f x.
Proof.
  intros H S. revert acc; induction m1 as [|[k y] m1 IH]; intros acc; cbn [app]; rewrite entries_step.
  - cbn. rewrite bind_cast by auto. now apply cast_same.
  - destruct (H k y (or_introl eq_refl)) as ((s' & ->) & (v & E)). cbn. rewrite E. cbn. apply IH. intros; eapply H; cbn; eauto.
Qed.

Definition wagrees (t : rty) : Prop := forall d, rtyped t d -> writes t d (ser_r t d) /\ forall o, writes t d o -> ser_r t d = o.
Lemma wagrees_done t : wagrees t -> forall d v, rtyped t d -> (writes t d (Done v) <-> ser_r t d = Done v).
Proof. intros A d v T. destruct (A d T) as [A1 A2]. split; [apply A2 | intros <-; exact A1]. Qed.

Lemma Forall2_len {A B} (R : A -> B -> Prop) l r : Forall2 R l r -> List.length l = List.length r.
Proof. induction 1; cbn; auto. Qed.
Lemma Forall2_combine {A B} (R : A -> B -> Prop) l r a b : Forall2 R l r -> In (a, b) (List.combine l r) -> R a b.
Proof. intros F. induction F as [|x y l r H F IH]; cbn; [tauto|]. intros [[= <- <-]|E]; auto. Qed.
Lemma combine_split {A B} (l : list A) (r : list B) c1 x y c2 : List.combine l r = c1 ++ (x, y) :: c2 -> List.length l = List.length r ->
  exists l1 l2 r1 r2, l = l1 ++ x :: l2 /\ r = r1 ++ y :: r2 /\ List.length r1 = List.length l1 /\ c1 = List.combine l1 r1.
Proof.
  revert r c1; induction l as [|a l IH]; intros [|b r] c1 E L; try discriminate; [destruct c1; discriminate|]. destruct c1 as [|p c1]; cbn in E.
  - injection E as -> -> _. exists [], l, [], r. auto.
  - injection E as <- E. destruct (IH r c1 E) as (l1 & l2 & r1 & r2 & -> & -> & L1 & ->); [cbn in L; lia|].
    exists (a :: l1), l2, (b :: r1), r2. cbn. auto.
Qed.
Lemma combine_app' {A B} (l1 l2 : list A) (r1 r2 : list B) : List.length r1 = List.length l1 ->
  List.combine (l1 ++ l2) (r1 ++ r2) = List.combine l1 r1 ++ List.combine l2 r2.
Proof. revert r1; induction l1 as [|a l1 IH]; intros [|b r1] L; try discriminate; cbn; auto. f_equal. apply IH. cbn in L; lia. Qed.

Theorem ser_writes t : rproper t -> wagrees t.
Proof.
  induction t as [r w|t IH|t IH|t IH|ts IH|t IH|fs IH] using rty_ind'; intros P d T.
  - split; [constructor | intros o H; now inversion H].
  - inversion P; subst. inversion T; subst.
    + split; [constructor | intros o H; now inversion H].
    + match goal with X : rtyped t ?x |- _ => destruct (IH ltac:(assumption) x X) as [I1 I2] end.
      cbn [ser_r]. split; [now constructor|]. intros o H. inversion H; subst; auto.
  - inversion P; subst. inversion T; subst.
    match goal with X : rtyped t ?x |- _ => destruct (IH ltac:(assumption) x X) as [I1 I2] end.
    cbn [ser_r]. split; [now constructor|]. intros o H. inversion H; subst; auto.
  - inversion P; subst. inversion T as [| | | |? l Tl| | |]; subst. specialize (IH ltac:(assumption)). cbn [ser_r]. split.
    + destruct (done_or_stop (ser_r t) l) as [(vs & F)|(l1 & x & l2 & -> & H & S)].
      * unfold new_array. rewrite (ser_seq_done _ _ _ _ F). constructor. eapply Forall2_imp; [|exact F]. intros x v Hx _ E. now apply wagrees_done; auto.
      * unfold new_array. rewrite sseq_halt by auto. apply WrSeqStop; auto.
        -- intros y Hy. destruct (H y Hy) as (v & E). exists v. apply wagrees_done; auto. apply Tl, in_or_app; auto.
        -- apply IH. apply Tl, in_or_app; cbn; auto.
    + intros o H. inversion H as [| | | |? ? vs F|? l1 x l2 ? A1 A2 S| | | | | |]; subst.
      * unfold new_array. rewrite (ser_seq_done _ _ _ vs); [reflexivity|]. eapply Forall2_imp; [|exact F]. intros x v Hx _ E. apply wagrees_done in E; auto.
      * assert (Ex : ser_r t x = o) by (apply IH; auto; apply Tl, in_or_app; cbn; auto).
        unfold new_array. rewrite sseq_halt; auto; [|now rewrite Ex].
        intros y Hy. destruct (A1 y Hy) as (v & E). exists v. apply wagrees_done in E; auto. apply Tl, in_or_app; auto.
  - assert (IH' : forall t, In t ts -> wagrees t) by (inversion P; subst; auto). clear IH.
    inversion T as [| | | | |? l Tl| |]; subst. cbn [ser_r]. pose proof (Forall2_len _ _ _ Tl) as L. rewrite L, Nat.eqb_refl.
    assert (Cm : forall ts1 (l1 : list data), map (fun p => fst p (snd p)) (List.combine (map (fun t => ser_r t) ts1) l1) = map (fun p => ser_r (fst p) (snd p)) (List.combine ts1 l1)).
    { clear. induction ts1 as [|t ts1 IH]; intros [|x l1]; cbn; auto. now rewrite IH. }
    rewrite Cm.
    assert (Wp : forall t x v, In (t, x) (List.combine ts l) -> (writes t x (Done v) <-> ser_r t x = Done v)).
    { intros t x v H. apply wagrees_done; [apply IH'; now apply in_combine_l in H | now apply (Forall2_combine _ _ _ _ _ Tl)]. }
    assert (Sm : forall ps, ser_seq (fun f : mres value => f) new_array (map (fun p => ser_r (fst p) (snd p)) ps) = ser_seq (fun p => ser_r (fst p) (snd p)) new_array ps).
    { intros ps. unfold new_array. generalize (@nil value) as acc. clear. induction ps as [|p ps IH]; intros acc; cbn; auto.
      destruct (ser_r (fst p) (snd p)); cbn; auto. }
    rewrite Sm. clear Sm Cm. split.
    + destruct (done_or_stop (fun p => ser_r (fst p) (snd p)) (List.combine ts l)) as [(vs & F)|(c1 & [t x] & c2 & E & H & S)].
      * unfold new_array. rewrite (ser_seq_done _ _ _ _ F). constructor. eapply Forall2_imp; [|exact F]. intros [t x] v Hx _ E. cbn in *. now apply Wp.
      * unfold new_array. rewrite E, sseq_halt by auto. cbn [fst snd] in *. destruct (combine_split _ _ _ _ _ _ E L) as (ts1 & ts2 & l1 & l2 & -> & -> & L1 & ->).
        apply WrTupleStop; auto.
        -- intros t' y Hy. destruct (H (t', y) Hy) as (v & Ev). exists v. apply Wp; auto. rewrite E. apply in_or_app; auto.
        -- apply IH'; [apply in_or_app; cbn; auto|]. apply (Forall2_combine _ _ _ _ _ Tl). rewrite E. apply in_or_app; cbn; auto.
    + intros o H. inversion H as [| | | | | |? ? vs F|ts1 t ts2 l1 x l2 ? L1 A1 A2 S| | | |]; subst.
      * unfold new_array. rewrite (ser_seq_done _ _ _ vs); [reflexivity|]. eapply Forall2_imp; [|exact F]. intros [t x] v Hx _ E. cbn in *. now apply Wp.
      * rewrite combine_app' in * by auto. cbn [List.combine] in *.
        assert (Ex : ser_r t x = o).
        { apply IH'; auto; [apply in_or_app; cbn; auto|]. apply (Forall2_combine _ _ _ _ _ Tl). rewrite combine_app' by auto. apply in_or_app; cbn; auto. }
        unfold new_array. rewrite sseq_halt; cbn [fst snd]; auto; [|now rewrite Ex].
        intros [t' y] Hy. destruct (A1 t' y Hy) as (v & E). exists v. cbn. apply Wp; auto. apply in_or_app; auto.
  - inversion P; subst. inversion T as [| | | | | |? m ND Tm|]; subst. specialize (IH ltac:(assumption)). cbn [ser_r].
    change (ser_map_entries (fun e : data * data => ser (fst e)) (fun e => ser_r t (snd e)) m)
      with (entries_loop (fun e : data * data => ser (fst e)) (fun e => ser_r t (snd e)) {| sm_map := VMap []; sm_key := None |} m).
    assert (Keys : forall vs : list (str * value), Forall2 (fun p e => fst p = DStr (fst e) /\ ser_r t (snd p) = Done (snd e)) m vs ->
      entries_loop (fun e : data * data => ser (fst e)) (fun e => ser_r t (snd e)) {| sm_map := VMap []; sm_key := None |} m = Done (VMap vs)).
    { intros vs F. change vs with ([] ++ vs). apply entries_done.
      - eapply Forall2_imp; [|exact F]. intros [k x] [s v] _ _ [E1 E2]. cbn in *. subst k. split; [|auto]. exists (VStr s). auto.
      - cbn. clear - F ND. induction F as [|[k x] [s v] m vs [E1 _] F IH]; cbn in *; constructor; inversion ND as [|? ? N1 N2]; subst; auto.
        intros H. apply N1. clear - F H. induction F as [|[k x'] [s' v'] m vs [E1 _] F IH]; cbn in *; [tauto|]. subst. destruct H as [->|H]; auto. }
    split.
    + destruct (done_or_stop (fun e : data * data => ser_r t (snd e)) m) as [(vs & F)|(m1 & [k x] & m2 & E & H & S)].
      * assert (G : exists es : list (str * value), Forall2 (fun p e => fst p = DStr (fst e) /\ ser_r t (snd p) = Done (snd e)) m es).
        { clear - F Tm. induction F as [|[k x] v m vs E F IH]; [exists []; constructor|]. destruct IH as (es & G); [intros; apply Tm; cbn; auto|].
          destruct (Tm k x (or_introl eq_refl)) as ((s & ->) & _). exists ((s, v) :: es). constructor; auto. }
        destruct G as (es & G). rewrite (Keys es G). constructor. eapply Forall2_imp; [|exact G]. intros [k x] [s v] Hk _ [E1 E2]. cbn in *. split; auto.
        apply wagrees_done; auto. now destruct (Tm k x Hk).
      * subst m. destruct (Tm k x ltac:(apply in_or_app; cbn; auto)) as ((s & ->) & Tx). cbn [fst snd] in *. rewrite sentries_halt; auto.
        2:{ intros k y Hy. split; [apply (Tm k y); apply in_or_app; auto|]. exact (H _ Hy). }
        apply WrMapStop; auto.
        -- intros k y Hy. destruct (H _ Hy) as (v & E). exists v. cbn in E. apply wagrees_done; auto. apply (Tm k y), in_or_app; auto.
        -- now apply IH.
    + intros o H. inversion H as [| | | | | | | |? ? vs F|? m1 k x m2 ? A1 A2 S| |]; subst.
      * apply Keys. eapply Forall2_imp; [|exact F]. intros [k x] [s v] Hk _ [E1 E2]. cbn in *. split; auto. apply wagrees_done in E2; auto. now destruct (Tm k x Hk).
      * destruct (Tm k x ltac:(apply in_or_app; cbn; auto)) as ((s & ->) & Tx).
        assert (Ex : ser_r t x = o) by (apply IH; auto). rewrite sentries_halt; auto; [|now rewrite Ex].
        intros k y Hy. destruct (Tm k y ltac:(apply in_or_app; auto)) as (Ks & Ty). split; auto. destruct (A1 k y Hy) as (v & E). exists v. apply wagrees_done in E; auto.
  - assert (K : NoDup (map fst fs) /\ forall n t, In (n, t) fs -> wagrees t) by (inversion P; subst; split; eauto). clear IH. destruct K as [NF IH].
    inversion T as [| | | | | | |? l Tl]; subst. cbn [ser_r]. pose proof (Forall2_len _ _ _ Tl) as L. rewrite L, Nat.eqb_refl.
    set (one := fun p : (str * rty) * (str * data) => ser_r (snd (fst p)) (snd (snd p))).
    assert (Cm : forall fs1 (l1 : list (str * data)),
      map (fun p => (fst (fst p), snd (fst p) (snd (snd p)))) (List.combine (map (fun f => (fst f, ser_r (snd f))) fs1) l1)
      = map (fun p => (fst (fst p), one p)) (List.combine fs1 l1)).
    { clear. induction fs1 as [|t ts1 IH]; intros [|x l1]; cbn; auto. now rewrite IH. }
    rewrite Cm. clear Cm.
    assert (Wp : forall f x v, In (f, x) (List.combine fs l) -> (writes (snd f) (snd x) (Done v) <-> ser_r (snd f) (snd x) = Done v)).
    { intros [n t] x v H. apply wagrees_done; [apply (IH n); now apply in_combine_l in H | now apply (Forall2_combine _ _ _ _ _ Tl)]. }
    assert (All : forall vs : list (str * value), Forall2 (fun p e => fst (fst p) = fst e /\ one p = Done (snd e)) (List.combine fs l) vs ->
      ser_fields (fun f : mres value => f) new_map (map (fun p => (fst (fst p), one p)) (List.combine fs l)) = Done (VMap vs)).
    { intros vs F. change vs with ([] ++ vs). apply ser_fields_done.
      - apply Forall2_map_l. eapply Forall2_imp; [|exact F]. intros [f x] [k v] _ _ [E1 E2]. auto.
      - cbn [app]. assert (E : map fst vs = map fst fs).
        { clear - F L. revert l vs L F. induction fs as [|f fs IH]; intros [|x l] vs L F; try discriminate; cbn in F; inversion F as [|? e ? vs' [E _] F']; subst; cbn; auto.
          cbn in E. rewrite E. f_equal. apply (IH l); auto. }
        rewrite E; auto. }
    assert (Hlt : forall c1 n t y c2, List.combine fs l = c1 ++ ((n, t), y) :: c2 -> (forall q, In q c1 -> exists v, one q = Done v) -> stops (ser_r t (snd y)) ->
      ser_fields (fun f : mres value => f) new_map (map (fun p => (fst (fst p), one p)) (List.combine fs l)) = ser_r t (snd y)).
    { intros c1 n t y c2 E H S. rewrite E, map_app. cbn [map fst snd]. unfold new_map. change (one (n, t, y)) with (ser_r t (snd y)).
      apply (sfields_halt (fun f : mres value => f)); auto.
      intros k z Hz. apply in_map_iff in Hz as (q & [= <- <-] & Hq). eauto. }
    split.
    + destruct (done_or_stop one (List.combine fs l)) as [(vs & F)|(c1 & [[n t] y] & c2 & E & H & S)].
      * assert (G : exists es : list (str * value), Forall2 (fun p e => fst (fst p) = fst e /\ one p = Done (snd e)) (List.combine fs l) es).
        { clear - F. induction F as [|p v m vs E F IH]; [exists []; constructor|]. destruct IH as (es & G). exists ((fst (fst p), v) :: es). constructor; auto. }
        destruct G as (es & G). rewrite (All es G). constructor. eapply Forall2_imp; [|exact G]. intros [f x] [k v] Hp _ [E1 E2]. cbn in *. split; auto.
        now apply Wp.
      * rewrite (Hlt _ _ _ _ _ E H S). destruct (combine_split _ _ _ _ _ _ E L) as (f1 & f2 & l1 & l2 & -> & -> & L1 & ->).
        pose proof (Forall2_combine _ _ _ (n, t) y Tl ltac:(rewrite E; apply in_or_app; cbn; auto)) as [En Ty]. destruct y as [n' y]. cbn in En, Ty. subst n'. cbn [snd].
        apply WrStructStop; auto.
        -- intros f y' Hy. destruct (H (f, y') Hy) as (v & Ev). exists v. apply Wp; auto. rewrite E. apply in_or_app; auto.
        -- apply (IH n); auto. apply in_or_app; cbn; auto.
    + intros o H. inversion H as [| | | | | | | | | |? ? vs F|f1 n t f2 l1 x l2 ? L1 A1 A2 S]; subst.
      * apply All. eapply Forall2_imp; [|exact F]. intros [f x] [k v] Hp _ [E1 E2]. cbn in *. split; auto. now apply Wp.
      * assert (E : List.combine (f1 ++ (n, t) :: f2) (l1 ++ (n, x) :: l2) = List.combine f1 l1 ++ ((n, t), (n, x)) :: List.combine f2 l2) by (rewrite combine_app'; auto).
        pose proof (Forall2_combine _ _ _ (n, t) (n, x) Tl ltac:(rewrite E; apply in_or_app; cbn; auto)) as [_ Ty]. cbn in Ty.
        assert (Ex : ser_r t x = o) by (apply (IH n t); auto; apply in_or_app; cbn; auto).
        rewrite (Hlt (List.combine f1 l1) n t (n, x) (List.combine f2 l2)); auto; [|cbn; now rewrite Ex].
        intros [f y] Hy. destruct (A1 f y Hy) as (v & Ev). exists v. apply Wp; auto. rewrite E. apply in_or_app; auto.
Qed.

(** ** Writing, then reading *)
Definition back (t : rty) (d : data) : Prop := exists v, ser_r t d = Done v /\ de_r t v = Done d.
Lemma none_iff t : rproper t -> forall d, rtyped t d -> (ser_r t d = Done VNone <-> writes_none t d).
Proof.
  assert (C : forall t d, rproper t -> rtyped t d -> (writes t d (Done VNone) -> False) -> (writes_none t d -> False) -> (ser_r t d = Done VNone <-> writes_none t d)).
  { clear. intros t d P T H1 H2. split; intros H; exfalso; [apply H1, wagrees_done; auto; now apply ser_writes | auto]. }
  induction t as [r w|t IH|t IH|t IH|ts IH|t IH|fs IH] using rty_ind'; intros P d T.
  - cbn. split; [now constructor | intros H; now inversion H].
  - inversion P; subst. inversion T; subst; cbn [ser_r].
    + split; [constructor | reflexivity].
    + rewrite IH by assumption. split; [now constructor | intros H; now inversion H].
  - inversion P; subst. inversion T; subst; cbn [ser_r].
    rewrite IH by assumption. split; [now constructor | intros H; now inversion H].
  - apply C; auto; intros H; inversion H; subst. eapply stops_not; eassumption.
  - apply C; auto; intros H; inversion H; subst. eapply stops_not; eassumption.
  - apply C; auto; intros H; inversion H; subst. eapply stops_not; eassumption.
  - apply C; auto; intros H; inversion H; subst. eapply stops_not; eassumption.
Qed.

Lemma Forall2_flip' {A B} (R : A -> B -> Prop) l r : Forall2 R l r -> Forall2 (fun b a => R a b) r l.
Proof. induction 1; constructor; auto. Qed.
Lemma Forall2_both {A B} (R S : A -> B -> Prop) l r : Forall2 R l r -> Forall2 S l r -> Forall2 (fun a b => R a b /\ S a b) l r.
Proof. intros F; induction F as [|a b l r H F IH]; intros G; inversion G; subst; constructor; auto. Qed.

Lemma tuple_back ts l : Forall2 rtyped ts l -> (forall t, In t ts -> rproper t /\ forall d, rtyped t d -> (back t d <-> keeps t d)) ->
  ((exists vs, Forall2 (fun p v => writes (fst p) (snd p) (Done v)) (List.combine ts l) vs /\
     forall what i, de_tuple what i (map (fun t => de_r t) ts) vs = Done l) <-> Forall2 keeps ts l).
Proof.
  intros T. induction T as [|t d ts l Td T IH]; intros K.
  - split; [constructor | intros _; exists []; split; constructor].
  - destruct (K t (or_introl eq_refl)) as [Pt Kt]. specialize (Kt d Td). assert (K' : forall t, In t ts -> rproper t /\ forall d, rtyped t d -> (back t d <-> keeps t d)) by (intros; apply K; cbn; auto).
    specialize (IH K'). assert (Wd : forall v, writes t d (Done v) <-> ser_r t d = Done v) by (intros; apply wagrees_done; auto; now apply ser_writes). split.
    + intros (vs & F & D). cbn in F. inversion F as [|? v ? vs' Wv F']; subst. cbn in Wv, D. constructor.
      * apply Kt. exists v. split; [now apply Wd|]. specialize (D [] 0). apply obind_done in D as (x & E & D). apply obind_done in D as (xs & _ & [= <- <-]). exact E.
      * apply IH. exists vs'. split; auto. intros what i. specialize (D what (i - 1)). apply obind_done in D as (x & E & D). apply obind_done in D as (xs & E' & [= <- <-]).
        destruct i; [|now rewrite Nat.sub_succ, Nat.sub_0_r in E'].
        clear - E'. revert E'. cbn. generalize 1. clear. intros j E.
        assert (G : forall fs ws r a b, de_tuple what a fs ws = Done r -> de_tuple what b fs ws = Done r).
        { clear. induction fs as [|f fs IH]; intros [|w ws] r a b H; cbn in *; try discriminate; auto.
          apply obind_done in H as (x & E & H). apply obind_done in H as (xs & E' & [= <-]). rewrite E. cbn. now rewrite (IH _ _ _ (S b) E'). }
        eapply G; eauto.
    + intros F. inversion F as [|? ? ? ? Kd F']; subst. apply Kt in Kd as (v & E1 & E2). apply IH in F' as (vs & F1 & F2).
      exists (v :: vs). split; [cbn; constructor; [now apply Wd | auto]|]. intros what i. cbn. rewrite E2. cbn. now rewrite F2.
Qed.

Theorem back_iff t : rproper t -> forall d, rtyped t d -> (back t d <-> keeps t d).
Proof.
  induction t as [r w|t IH|t IH|t IH|ts IH|t IH|fs IH] using rty_ind'; intros P d T.
  - split; [intros (v & E1 & E2); econstructor; eauto | intros H; inversion H; subst; exists v; auto].
  - inversion P; subst. inversion T as [|?|? x Tx| | | | |]; subst.
    + split; [constructor|]. intros _. exists VNone. auto.
    + split.
      * intros (v & E1 & E2). cbn [ser_r] in E1. destruct (value_eq_none v) as [->|N]; [discriminate|].
        assert (D : de_r (ROption t) v = obind (de_r t v) (fun d => Done (DSome d))) by (destruct v; congruence || reflexivity).
        rewrite D in E2. apply obind_done in E2 as (y & E2 & [= ->]). constructor.
        -- apply IH; auto. exists v; auto.
        -- intros W. apply none_iff in W; auto. congruence.
      * intros H. inversion H as [| |? ? Kx Nw| | | | |]; subst. apply IH in Kx as (v & E1 & E2); auto. exists v. split; auto.
        assert (N : v <> VNone) by (intros ->; apply Nw, none_iff; auto).
        assert (D : de_r (ROption t) v = obind (de_r t v) (fun d => Done (DSome d))) by (destruct v; congruence || reflexivity).
        rewrite D, E2. reflexivity.
  - inversion P; subst. inversion T as [| | |? x Tx| | | |]; subst. split.
    + intros (v & E1 & E2). cbn [ser_r de_r] in *. apply obind_done in E2 as (y & E2 & [= ->]). constructor. apply IH; auto. exists v; auto.
    + intros H. inversion H; subst. match goal with K : keeps t x |- _ => apply IH in K as (v & E1 & E2); auto end. exists v. split; auto. cbn. now rewrite E2.
  - inversion P; subst. inversion T as [| | | |? l Tl| | |]; subst. specialize (IH ltac:(assumption)). split.
    + intros (v & E1 & E2). cbn [ser_r] in E1. apply ser_seq_inv in E1 as (vs & F & ->). cbn [app de_r] in E2. apply obind_done in E2 as (l' & E2 & [= ->]).
      apply de_seq_done in E2. constructor. intros d Hd. apply IH; auto.
      destruct (Forall2_in_l _ _ _ _ (Forall2_both _ _ _ _ F (Forall2_flip' _ _ _ E2)) Hd) as (v & _ & A & B). exists v; auto.
    + intros H. inversion H as [| | | |? ? Kl| | |]; subst.
      destruct (Forall2_exists (fun d v => ser_r t d = Done v /\ de_r t v = Done d) l) as (vs & F).
      { intros d Hd. apply IH; auto. }
      exists (VArr vs). split.
      * cbn [ser_r]. apply (ser_seq_done _ l [] vs). eapply Forall2_imp; [|exact F]. intros ? ? _ _ Hq; cbn in Hq; tauto.
      * cbn [de_r]. assert (D : de_seq (de_r t) vs = Done l). { apply de_seq_done. apply Forall2_flip' in F. eapply Forall2_imp; [|exact F]. intros ? ? _ _ Hq; cbn in Hq; tauto. }
        rewrite D. reflexivity.
  - assert (K : forall t, In t ts -> rproper t /\ forall d, rtyped t d -> (back t d <-> keeps t d)) by (inversion P; subst; intros t Ht; split; auto).
    pose proof (ser_writes _ P _ T) as W. inversion T as [| | | | |? l Tl| |]; subst. etransitivity; [|etransitivity; [exact (tuple_back ts l Tl K)|]].
    + split.
      * intros (v & E1 & E2). destruct W as [W _]. rewrite E1 in W. inversion W as [| | | | | |? ? vs F|? ? ? ? ? ? ? ? ? ? S| | | |]; subst; [|exfalso; eapply stops_not; eassumption].
        exists vs. split; auto. cbn [de_r] in E2. apply obind_done in E2 as (l' & E2 & [= ->]). intros what i.
        assert (G : forall fs ws r w1 w2 a b, de_tuple w1 a fs ws = Done r -> de_tuple w2 b fs ws = Done r).
        { clear. induction fs as [|f fs IH]; intros [|w ws] r w1 w2 a b H; cbn in *; try discriminate; auto.
          apply obind_done in H as (x & E & H). apply obind_done in H as (xs & E' & [= <-]). rewrite E. cbn. now rewrite (IH _ _ _ w2 _ (S b) E'). }
        eapply G; eauto.
      * intros (vs & F & D). exists (VArr vs). destruct W as [_ W]. split; [apply W; now constructor|]. cbn [de_r]. now rewrite D.
    + split; [now constructor | intros H; now inversion H].
  - inversion P; subst. inversion T as [| | | | | |? m ND Tm|]; subst. specialize (IH ltac:(assumption)).
    destruct (ser_writes _ P _ T) as [W1 W2].
    assert (NDe : forall es : list (str * value), (Forall2 (fun p e => fst p = DStr (fst e) /\ writes t (snd p) (Done (snd e))) m es) -> NoDup (map fst es)).
    { intros es F. clear - F ND. induction F as [|[k x] [s v] m es [E1 _] F IH]; cbn in *; constructor; inversion ND as [|? ? N1 N2]; subst; auto.
      intros H. apply N1. clear - F H. induction F as [|[k x'] [s' v'] m es [E1 _] F IH]; cbn in *; [tauto|]. subst. destruct H as [->|H]; auto. }
    split.
    + intros (v & E1 & E2). rewrite E1 in W1. inversion W1 as [| | | | | | | |? ? es F|? ? ? ? ? ? ? ? S| |]; subst; [|exfalso; eapply stops_not; eassumption].
      cbn [de_r] in E2. apply obind_done in E2 as (m' & E2 & [= ->]). apply map_done in E2; [|now apply NDe].
      constructor. intros k d Hk. destruct (Tm k d Hk) as [_ Td]. apply IH; auto.
      destruct (Forall2_in_l _ _ _ _ (Forall2_both _ _ _ _ F (Forall2_flip' _ _ _ E2)) Hk) as ([s v] & _ & [_ A] & [_ B]). cbn in *.
      exists v. split; auto. apply wagrees_done in A; auto. now apply ser_writes.
    + intros H. inversion H as [| | | | | |? ? Km|]; subst.
      destruct (Forall2_exists (fun p e => fst p = DStr (fst e) /\ (writes t (snd p) (Done (snd e)) /\ de_r t (snd e) = Done (snd p))) m) as (es & F).
      { intros [k d] Hk. destruct (Tm k d Hk) as [(s & ->) Td]. apply Km in Hk. apply IH in Hk as (v & A & B); auto. exists (s, v). cbn. repeat split; auto.
        apply wagrees_done; auto. now apply ser_writes. }
      assert (F1 : Forall2 (fun p e => fst p = DStr (fst e) /\ writes t (snd p) (Done (snd e))) m es) by (eapply Forall2_imp; [|exact F]; intros ? ? _ _ Hq; cbn in Hq; tauto).
      exists (VMap es). split; [apply W2; now constructor|]. cbn [de_r].
      assert (D : de_map (de TString) (de_r t) dinsert es = Done m).
      { apply map_done; [now apply NDe|]. apply Forall2_flip' in F. eapply Forall2_imp; [|exact F]. intros ? ? _ _ Hq; cbn in Hq; tauto. }
      rewrite D. reflexivity.
  - assert (K : NoDup (map fst fs) /\ forall n t, In (n, t) fs -> rproper t /\ forall d, rtyped t d -> (back t d <-> keeps t d)) by (inversion P; subst; split; [auto | intros n t Hn; split; eauto]).
    destruct K as [NF K]. destruct (ser_writes _ P _ T) as [W1 W2]. inversion T as [| | | | | | |? l Tl]; subst. pose proof (Forall2_len _ _ _ Tl) as L.
    assert (Nm : forall es : list (str * value), Forall2 (fun p e => fst (fst p) = fst e /\ writes (snd (fst p)) (snd (snd p)) (Done (snd e))) (List.combine fs l) es ->
      map fst es = map fst fs).
    { intros es F. clear - F L. revert l es L F. induction fs as [|f fs IH]; intros [|x l] es L F; try discriminate; cbn in F; inversion F as [|? e ? es' [E _] F']; subst; cbn; auto.
      cbn in E. rewrite E. f_equal. apply (IH l); auto. }
    assert (Ic : forall f x, In (f, x) (List.combine fs l) -> rproper (snd f) /\ rtyped (snd f) (snd x) /\ (back (snd f) (snd x) <-> keeps (snd f) (snd x))).
    { intros [n t] x H. destruct (Forall2_combine _ _ _ _ _ Tl H) as [_ Tx]. apply in_combine_l in H. destruct (K n t H) as [Pt Kt]. cbn in *. auto. }
    split.
    + intros (v & E1 & E2). rewrite E1 in W1. inversion W1 as [| | | | | | | | | |? ? es F|? ? ? ? ? ? ? ? ? ? ? S]; subst; [|exfalso; eapply stops_not; eassumption].
      pose proof (Nm es F) as En. cbn [de_r] in E2. fold (rslots fs) in E2. apply struct_parts in E2; auto; [|now rewrite En]. constructor.
      clear - E2 F NF En Ic L. 
      assert (G : forall gs hs, incl (List.combine gs hs) (List.combine fs l) -> incl gs fs -> Forall2 (fun f d => fst d = fst f /\
         ((exists x, In (fst f, x) es /\ de_r (snd f) x = Done (snd d)) \/ ((forall x, ~ In (fst f, x) es) /\ (exists t, snd f = ROption t) /\ snd d = DNone))) gs hs ->
         Forall2 (fun f d => keeps (snd f) (snd d)) gs hs).
      { induction gs as [|f gs IHg]; intros hs I1 I2 Fg; inversion Fg as [|? h ? hs' [Eh R] Fg']; subst; constructor.
        - assert (Hin : In (f, h) (List.combine fs l)) by (apply I1; cbn; auto). destruct (Ic f h Hin) as (Pf & Tf & Kf). apply Kf.
          destruct (Forall2_in_l _ _ _ _ F Hin) as ([n v] & He & E & Wv). cbn in E, Wv. subst n.
          exists v. split; [apply wagrees_done in Wv; auto; now apply ser_writes|].
          destruct R as [(x & Hx & D)|(N & _)]; [|now destruct (N v)].
          assert (NDe : NoDup (map fst es)) by now rewrite En. apply (In_mget _ _ _ NDe) in Hx. apply (In_mget _ _ _ NDe) in He. congruence.
        - apply IHg; auto; [intros p Hp; apply I1; cbn; auto | intros p Hp; apply I2; cbn; auto]. }
      apply G; auto; apply incl_refl.
    + intros H. inversion H as [| | | | | | |? ? Kl]; subst.
      destruct (Forall2_exists (fun p e => fst (fst p) = fst e /\ (writes (snd (fst p)) (snd (snd p)) (Done (snd e)) /\ de_r (snd (fst p)) (snd e) = Done (snd (snd p)))) (List.combine fs l)) as (es & F).
      { intros [f x] Hx. destruct (Ic f x Hx) as (Pf & Tf & Kf). pose proof (Forall2_combine _ _ _ _ _ Kl Hx) as Kx. apply Kf in Kx as (v & A & B).
        exists (fst f, v). cbn. repeat split; auto. apply wagrees_done; auto. now apply ser_writes. }
      assert (F1 : Forall2 (fun p e => fst (fst p) = fst e /\ writes (snd (fst p)) (snd (snd p)) (Done (snd e))) (List.combine fs l) es) by (eapply Forall2_imp; [|exact F]; intros ? ? _ _ Hq; cbn in Hq; tauto).
      exists (VMap es). split; [apply W2; now constructor|]. cbn [de_r]. fold (rslots fs). apply struct_parts; auto; [now rewrite (Nm es F1)|].
      assert (G : forall gs hs, incl (List.combine gs hs) (List.combine fs l) -> Forall2 (fun f d => fst d = fst f /\ rtyped (snd f) (snd d)) gs hs ->
        Forall2 (fun f d => fst d = fst f /\ ((exists x, In (fst f, x) es /\ de_r (snd f) x = Done (snd d)) \/ ((forall x, ~ In (fst f, x) es) /\ (exists t, snd f = ROption t) /\ snd d = DNone))) gs hs).
      { induction gs as [|f gs IHg]; intros hs I1 Fg; inversion Fg as [|? h ? hs' [Eh R] Fg']; subst; constructor.
        - split; auto. left. assert (Hin : In (f, h) (List.combine fs l)) by (apply I1; cbn; auto).
          destruct (Forall2_in_l _ _ _ _ F Hin) as ([n v] & He & E & _ & D). cbn in E, D. subst n. eauto.
        - apply IHg; auto. intros p Hp; apply I1; cbn; auto. }
      apply G; [apply incl_refl | auto].
Qed.
