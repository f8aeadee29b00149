(** Proofs for C122: what the TOML writer does with every Value. *)
From Coq Require Import ZArith Bool String Lia.
From Coq Require Import List.
Import ListNotations.
From Verif.Model Require Import Text Num Flt Value Serde Visitor Layers Toml.
From Verif.Spec Require Import Spec Numerals EnvSpec SerdeSpec VisitorSpec TomlSpec.
From Verif.Proofs Require Import Basics Conversions TomlProofs.
Local Open Scope Z_scope.

Definition why_error (w : toml_why) : toml_error :=
  match w with WhyNone => UnsupportedNone | WhyRange => OutOfRange | WhyI128 => UnsupportedI128 | WhyU128 => UnsupportedU128 end.
Lemma why_text w : toml_error_text (why_error w) = toml_says w.
Proof. destruct w; reflexivity. Qed.
Lemma why_inj w w' : why_error w = why_error w' -> w = w'.
Proof. destruct w, w'; cbn; congruence. Qed.

Notation entry_call := (fun e : str * value => (DStr (fst e), value_calls (snd e))).
Section Rule.
Variable r : bool.
Notation item := (toml_item r).
Definition says_of (x : result toml_value toml_error) (v : value) : Prop :=
  match x with Ok t => becomes r v t | Err e => exists w, e = why_error w /\ stuck r v w end.
Definition says_items (x : result (list toml_value) toml_error) (l : list value) : Prop :=
  match x with Ok t => items r l t | Err e => exists l1 r1 y l2 w, l = l1 ++ y :: l2 /\ items r l1 r1 /\ e = why_error w /\ stuck r y w end.
Definition says_entries (x : result (list (str * toml_value)) toml_error) (m : vmap) : Prop :=
  match x with Ok n => entries r m n
  | Err e => exists m1 n1 k y m2 w, m = m1 ++ (k, y) :: m2 /\ entries r m1 n1 /\ e = why_error w /\ stuck r y w /\ (w <> WhyNone \/ (r = false /\ y <> VNone)) end.

Lemma items_say l : (forall x, In x l -> says_of (item (value_calls x)) x) -> says_items (toml_items item (map value_calls l)) l.
Proof.
  induction l as [|x l IH]; intros H; cbn [map toml_items says_items]; [constructor|].
  pose proof (H x (or_introl eq_refl)) as Hx. destruct (item (value_calls x)) as [y|e]; cbn [rbind says_of] in *.
  - specialize (IH (fun z Hz => H z (or_intror Hz))). unfold toml_items in IH. destruct ((fix go (l0 : list data) := _) (map value_calls l)) as [q|e] in IH |- *; cbn [rbind says_items] in *.
    + constructor; auto.
    + destruct IH as (l1 & r1 & z & l2 & w & -> & A & -> & S). exists (x :: l1), (y :: r1), z, l2, w. repeat split; auto. constructor; auto.
  - destruct Hx as (w & -> & S). exists [], [], x, l, w. repeat split; auto. constructor.
Qed.
Lemma entries_say m : (forall k x, In (k, x) m -> says_of (item (value_calls x)) x) -> says_entries (toml_entries r item (map entry_call m)) m.
Proof.
  induction m as [|[k x] m IH]; intros H; cbn [map toml_entries says_entries fst snd]; [constructor|].
  pose proof (H k x (or_introl eq_refl)) as Hx. specialize (IH (fun k' z Hz => H k' z (or_intror Hz))).
  change (says_entries (match item (value_calls x) with
     | Ok y => rbind (toml_entries r item (map entry_call m)) (fun q => Ok ((k, y) :: q))
     | Err UnsupportedNone => if r || is_dnone (value_calls x) then toml_entries r item (map entry_call m) else Err UnsupportedNone
     | Err e => Err e
     end) ((k, x) :: m)).
  destruct (item (value_calls x)) as [y|e]; cbn [rbind says_of] in *.
  - destruct (toml_entries r item (map entry_call m)) as [q|e]; cbn [rbind says_entries] in *; [now apply EnKeep|].
    destruct IH as (m1 & n1 & k' & z & m2 & w & -> & A & -> & S & D). exists ((k, x) :: m1), ((k, y) :: n1), k', z, m2, w. repeat split; auto. now apply EnKeep.
  - destruct Hx as (w & -> & S). destruct w; cbn [why_error].
    + assert (D : is_dnone (value_calls x) = true <-> x = VNone) by (destruct x; cbn; split; congruence).
      assert (L : r || is_dnone (value_calls x) = true -> forall n, entries r m n -> entries r ((k, x) :: m) n).
      { intros L n E. apply orb_true_iff in L as [L|L]; [now apply EnLost | apply D in L; subst x; now apply EnNone]. }
      destruct (r || is_dnone (value_calls x)) eqn:Q.
      * destruct (toml_entries r item (map entry_call m)) as [q|e]; cbn [says_entries] in *; [auto|].
        destruct IH as (m1 & n1 & k' & z & m2 & w & -> & A & -> & S' & D'). exists ((k, x) :: m1), n1, k', z, m2, w. repeat split; auto.
        apply orb_true_iff in Q as [Q|Q]; [now apply EnLost | apply D in Q; subst x; now apply EnNone].
      * apply orb_false_iff in Q as [Q1 Q2]. exists [], [], k, x, m, WhyNone. repeat split; auto; [constructor|]. right. split; auto. intros ->. discriminate Q2.
    + exists [], [], k, x, m, WhyRange. repeat split; auto; [constructor | left; discriminate].
    + exists [], [], k, x, m, WhyI128. repeat split; auto; [constructor | left; discriminate].
    + exists [], [], k, x, m, WhyU128. repeat split; auto; [constructor | left; discriminate].
Qed.
Lemma item_says v : wf v -> says_of (item (value_calls v)) v.
Proof.
  induction v as [v S|l IH|m IH] using value_ind'; intros W.
  - destruct v; cbn in S; try tauto; cbn [value_calls toml_item says_of].
    all: try (now constructor).
    all: try (exists WhyNone; split; [reflexivity | constructor]).
    all: try (exists WhyI128; split; [reflexivity | constructor]).
    all: try (exists WhyU128; split; [reflexivity | constructor]).
    { assert (F : fits I64 z) by (apply in_range_fits, W). assert (z <= 2 ^ 63 - 1) by (apply fits_I64 in F; lia). replace (z <=? 2 ^ 63 - 1) with true by lia. now constructor. }
    destruct (z <=? 2 ^ 63 - 1) eqn:E; cbn [says_of]; [|exists WhyRange; split; [reflexivity|]]; constructor; lia.
  - cbn [value_calls]. change (says_of (rbind (toml_items item (map value_calls l)) (fun q => Ok (TvArr q))) (VArr l)).
    assert (G := items_say l (fun x Hx => IH x Hx (proj1 (wf_arr l) W x Hx))). destruct (toml_items item (map value_calls l)) as [q|e]; cbn [rbind says_of says_items] in *; [now constructor|].
    destruct G as (l1 & r1 & y & l2 & w & -> & A & -> & S). exists w. split; auto. eapply SkArr; eauto.
  - rewrite calls_map. change (says_of (rbind (toml_entries r item (map entry_call m)) (fun q => Ok (TvTab q))) (VMap m)).
    assert (G := entries_say m (fun k x Hx => IH k x Hx (proj2 (proj2 (proj1 (wf_map m) W) k x Hx)))). destruct (toml_entries r item (map entry_call m)) as [q|e]; cbn [rbind says_of says_entries] in *; [now constructor|].
    destruct G as (m1 & n1 & k & y & m2 & w & -> & A & -> & S & D). exists w. split; auto. eapply SkMap; eauto.
Qed.

Scheme becomes_mut := Minimality for becomes Sort Prop
  with items_mut := Minimality for items Sort Prop
  with entries_mut := Minimality for entries Sort Prop
  with stuck_mut := Minimality for stuck Sort Prop.
Combined Scheme toml_mut from becomes_mut, items_mut, entries_mut, stuck_mut.
Lemma items_app l1 r1 l2 : toml_items item (map value_calls l1) = Ok r1 ->
  toml_items item (map value_calls (l1 ++ l2)) = rbind (toml_items item (map value_calls l2)) (fun q => Ok (r1 ++ q)).
Proof.
  revert r1. induction l1 as [|x l1 IH]; intros r1 E.
  - injection E as <-. cbn [app]. now destruct (toml_items item (map value_calls l2)).
  - change (rbind (item (value_calls x)) (fun y => rbind (toml_items item (map value_calls l1)) (fun q => Ok (y :: q))) = Ok r1) in E.
    change (rbind (item (value_calls x)) (fun y => rbind (toml_items item (map value_calls (l1 ++ l2))) (fun q => Ok (y :: q))) = rbind (toml_items item (map value_calls l2)) (fun q => Ok (r1 ++ q))).
    destruct (item (value_calls x)) as [y|]; [|discriminate E]. cbn [rbind] in *. destruct (toml_items item (map value_calls l1)) as [q|]; [|discriminate E]. injection E as <-.
    rewrite (IH q eq_refl). now destruct (toml_items item (map value_calls l2)).
Qed.
Lemma entries_cons k x m : toml_entries r item (map entry_call ((k, x) :: m)) =
  match item (value_calls x) with
  | Ok y => rbind (toml_entries r item (map entry_call m)) (fun q => Ok ((k, y) :: q))
  | Err UnsupportedNone => if r || is_dnone (value_calls x) then toml_entries r item (map entry_call m) else Err UnsupportedNone
  | Err e => Err e
  end.
Proof. reflexivity. Qed.
Lemma entries_app m1 n1 m2 : toml_entries r item (map entry_call m1) = Ok n1 ->
  toml_entries r item (map entry_call (m1 ++ m2)) = rbind (toml_entries r item (map entry_call m2)) (fun q => Ok (n1 ++ q)).
Proof.
  revert n1. induction m1 as [|[k x] m1 IH]; intros n1 E.
  - injection E as <-. cbn [app]. now destruct (toml_entries r item (map entry_call m2)).
  - cbn [app]. rewrite entries_cons in *. destruct (item (value_calls x)) as [y|e]; cbn [rbind] in *.
    + destruct (toml_entries r item (map entry_call m1)) as [q|]; [|discriminate E]. injection E as <-. rewrite (IH q eq_refl). now destruct (toml_entries r item (map entry_call m2)).
    + destruct e; try discriminate E. destruct (r || is_dnone (value_calls x)); [|discriminate E]. auto.
Qed.
Lemma toml_complete :
  (forall v t, becomes r v t -> item (value_calls v) = Ok t)
  /\ (forall l q, items r l q -> toml_items item (map value_calls l) = Ok q)
  /\ (forall m n, entries r m n -> toml_entries r item (map entry_call m) = Ok n)
  /\ (forall v w, stuck r v w -> item (value_calls v) = Err (why_error w)).
Proof.
  apply toml_mut.
  - reflexivity.
  - intros z F. cbn [value_calls toml_item]. apply fits_I64 in F. replace (z <=? 2 ^ 63 - 1) with true by lia. reflexivity.
  - intros z F. cbn [value_calls toml_item]. replace (z <=? 2 ^ 63 - 1) with true by lia. reflexivity.
  - reflexivity.
  - reflexivity.
  - intros l q _ E. cbn [value_calls toml_item]. now rewrite E.
  - intros m n _ E. cbn [value_calls toml_item]. now rewrite E.
  - reflexivity.
  - intros x l y q _ Ex _ El. cbn [map]. change (rbind (item (value_calls x)) (fun y => rbind (toml_items item (map value_calls l)) (fun q => Ok (y :: q))) = Ok (y :: q)). rewrite Ex. cbn [rbind]. now rewrite El.
  - reflexivity.
  - intros k x m y n _ Ex _ Em. rewrite entries_cons, Ex, Em. reflexivity.
  - intros k m n _ Em. rewrite entries_cons. cbn [value_calls toml_item is_dnone]. now rewrite orb_true_r.
  - intros k x m n L _ Ex _ Em. rewrite entries_cons, Ex. cbn [why_error]. replace (r || is_dnone (value_calls x)) with true by (rewrite L; reflexivity). exact Em.
  - reflexivity.
  - reflexivity.
  - reflexivity.
  - intros z L. cbn [value_calls toml_item]. replace (z <=? 2 ^ 63 - 1) with false by lia. reflexivity.
  - intros l1 r1 x l2 w _ El _ Ex. cbn [value_calls toml_item]. rewrite (items_app l1 r1 _ El). cbn [map].
    change (toml_items item (value_calls x :: map value_calls l2)) with (rbind (item (value_calls x)) (fun y => rbind (toml_items item (map value_calls l2)) (fun q => Ok (y :: q)))). now rewrite Ex.
  - intros m1 n1 k x m2 w _ Em _ Ex D. rewrite calls_map. cbn [toml_item]. rewrite (entries_app m1 n1 _ Em), entries_cons, Ex.
    destruct w; cbn [why_error rbind]; try reflexivity. destruct D as [D|[-> D]]; [contradiction|]. destruct x; try contradiction; reflexivity.
Qed.
End Rule.

(** What is written is a proper document. *)
Lemma becomes_proper r :
  (forall v t, becomes r v t -> wf v -> proper_toml t)
  /\ (forall l q, items r l q -> (forall x, In x l -> wf x) -> forall t, In t q -> proper_toml t)
  /\ (forall m n, entries r m n -> NoDup (map fst m) -> (forall k x, In (k, x) m -> is_text k = true /\ wf x) ->
        NoDup (map fst n) /\ (forall k t, In (k, t) n -> In k (map fst m) /\ is_text k = true /\ proper_toml t))
  /\ (forall v w, stuck r v w -> True).
Proof.
  apply toml_mut; try (intros; exact I).
  - intros b _. constructor.
  - intros z F _. now constructor.
  - intros z L W. constructor. cbn in W. apply in_range_fits in W. apply fits_U64 in W. apply fits_I64. lia.
  - intros f W. constructor. exact W.
  - intros s W. constructor. exact W.
  - intros l q _ IH W. constructor. intros x Hx. eapply IH; eauto. apply wf_arr. exact W.
  - intros m n _ IH W. apply wf_map in W as [ND W]. destruct (IH ND W) as [N P]. constructor; auto. intros k x Hx. apply (P k x Hx).
  - intros _ t [].
  - intros x l y q _ Hx _ Hl W t [<-|Ht]; [apply Hx, W; left; auto | apply Hl; auto]. intros z Hz. apply W. right; auto.
  - intros _ _. split; [constructor | intros k t []].
  - intros k x m y n _ Hx _ Hm ND W. cbn in ND. inversion ND as [|? ? Nk ND']; subst. destruct Hm as [N P]; auto.
    { intros k' x' H. apply W. right; auto. }
    split.
    + cbn. constructor; auto. intros X. apply in_map_iff in X as ((k', t) & <- & Ht). apply Nk. apply (P k' t Ht).
    + intros k' t [[= <- <-]|Ht]; [split; [left; reflexivity|]; destruct (W k x (or_introl eq_refl)); auto|]. destruct (P k' t Ht) as [I' J]. split; [right; auto | auto].
  - intros k m n _ Hm ND W. cbn in ND. inversion ND as [|? ? Nk ND']; subst. destruct Hm as [N P]; auto.
    { intros k' x' H. apply W. right; auto. }
    split; auto. intros k' t Ht. destruct (P k' t Ht) as [I' J]. split; [right; auto | auto].
  - intros k x m n _ _ _ _ Hm ND W. cbn in ND. inversion ND as [|? ? Nk ND']; subst. destruct Hm as [N P]; auto.
    { intros k' x' H. apply W. right; auto. }
    split; auto. intros k' t Ht. destruct (P k' t Ht) as [I' J]. split; [right; auto | auto].
Qed.
(** The strict rule's documents are the lenient rule's. *)
Lemma strict_lenient :
  (forall v t, becomes false v t -> becomes true v t)
  /\ (forall l q, items false l q -> items true l q)
  /\ (forall m n, entries false m n -> entries true m n)
  /\ (forall v w, stuck false v w -> True).
Proof.
  apply toml_mut; try (intros; exact I); try (intros; now constructor).
Qed.
