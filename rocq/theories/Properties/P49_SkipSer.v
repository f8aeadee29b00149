(** C133: writing types derived with [skip_serializing], [skip_serializing_if],
    [skip] and [rename(serialize = .., deserialize = ..)]. *)
From Coq Require Import ZArith Bool String Lia.
From Coq Require Import List.
Import ListNotations.
From Verif.Model Require Import Text Num Flt Value Merge Convert Serde Attributes SkipSer.
From Verif.Spec Require Import Spec MergeSpec AttrSpec SkipSpec.
From Verif.Proofs Require Import Basics Merge SerProofs DeProofs RoundTrip Attrs SkipProofs.
Local Open Scope Z_scope.

Theorem C133_writes_exactly_this : forall w d v, wproper w -> datum w d -> (ser_w w d = Done v <-> writes w d v).
Proof. intros. now apply writes_ok. Qed.
Print Assumptions C133_writes_exactly_this.

(** What was written is read back as it was exactly when [comes_back] says so. *)
Theorem C133_comes_back_exactly_when : forall w d v, wproper w -> datum w d -> ser_w w d = Done v ->
  (de_attr (read_side w) v = Done d <-> comes_back w d).
Proof.
  intros w d v P D E. apply writes_ok in E; auto. rewrite <- (back_ok w P d v D E). apply (attr_ok _ (read_side_proper w P)). now apply (writes_uniq w P d).
Qed.
Print Assumptions C133_comes_back_exactly_when.

(** A field that is left out leaves what lower layers say about it alone. *)
Theorem C133_left_out_overrides_nothing : forall deny fs l v base f n x, wproper (WStruct deny fs) -> datum (WStruct deny fs) (DStruct l) ->
  ser_w (WStruct deny fs) (DStruct l) = Done v -> In (f, (n, x)) (List.combine fs l) -> w_skip f x = true -> uniq base -> mapv base ->
  forall y, holds (v_merge base v) (w_out f) y <-> holds base (w_out f) y.
Proof.
  intros deny fs l v base f n x P D E J S U M y. apply writes_ok in E; auto. pose proof (writes_uniq _ P _ _ D E) as Uv.
  inversion P as [| | | | |? ? N1 N2 X1 X2 X3]; subst. inversion D as [| | | | | |? ? ? Fl]; subst. assert (exists m, v = VMap m) as (m & ->) by (inversion E; eauto).
  assert (L : List.length fs = List.length l) by (clear - Fl; induction Fl; cbn; congruence).
  pose proof (writes_struct_keys deny fs l m L E) as F.
  assert (La : lacks (VMap m) (w_out f)).
  { intros z (m' & [= <-] & Jz). destruct (Forall2_in_r _ _ _ _ F Jz) as ([g d] & J' & E' & _). cbn [fst snd] in E'. apply outs_in in J' as (n' & J' & S').
    assert (g = f) as ->.
    { pose proof (in_combine_l _ _ _ _ J) as A. pose proof (in_combine_l _ _ _ _ J') as B. clear - N1 A B E'. induction fs as [|h fs IH]; [destruct A|]. cbn [map] in N1. inversion N1 as [|? ? Q1 Q2]; subst.
      destruct A as [->|A], B as [->|B]; auto; exfalso; apply Q1; [rewrite E' | rewrite <- E']; apply in_map_iff; eauto. }
    pose proof (combine_fun _ _ _ _ _ (NoDup_map_inv _ _ N1) J J') as [= <- <-]. congruence. }
  rewrite merge_holds by (auto; eexists; reflexivity). split.
  - intros [[_ H]|[[H _]|(? & z & _ & H & _)]]; [exact H | destruct (La _ H) | destruct (La _ H)].
  - intros H. left. auto.
Qed.
Print Assumptions C133_left_out_overrides_nothing.

(** A [None] that is written overrides whatever lower layers say. *)
Theorem C133_none_written_overrides : forall deny fs l v base f n, wproper (WStruct deny fs) -> datum (WStruct deny fs) (DStruct l) ->
  ser_w (WStruct deny fs) (DStruct l) = Done v -> In (f, (n, DNone)) (List.combine fs l) -> w_skip f DNone = false -> uniq base -> mapv base ->
  forall y, holds (v_merge base v) (w_out f) y <-> y = VNone.
Proof.
  intros deny fs l v base f n P D E J S U M y. apply writes_ok in E; auto. pose proof (writes_uniq _ P _ _ D E) as Uv.
  inversion D as [| | | | | |? ? ? Fl]; subst. assert (exists m, v = VMap m) as (m & ->) by (inversion E; eauto).
  assert (L : List.length fs = List.length l) by (clear - Fl; induction Fl; cbn; congruence).
  pose proof (writes_struct_keys deny fs l m L E) as F. assert (J' : In (f, DNone) (outs fs l)) by (apply outs_in; eauto).
  destruct (Forall2_in_l _ _ _ _ F J') as ([k x] & Jx & Ek & W). cbn [fst snd] in *. subst k.
  assert (x = VNone) as ->.
  { inversion W as [? ? ? Q| | | | | |]; subst; [|reflexivity]. cbn in Q. now injection Q as <-. }
  assert (H : holds (VMap m) (w_out f) VNone) by (exists m; auto).
  assert (Fu : forall z, holds (VMap m) (w_out f) z -> z = VNone).
  { intros z (m' & [= <-] & Jz). inversion Uv as [? Sc| |? Nd _]; subst; [destruct Sc|]. clear - Nd Jx Jz. induction m as [|[k y] m IH]; [destruct Jx|]. cbn [map fst] in Nd. inversion Nd as [|? ? Q1 Q2]; subst.
    destruct Jx as [A|A], Jz as [B|B]; [congruence| | |auto]; exfalso; apply Q1; [injection A as -> _; now apply (in_map fst) in B | injection B as -> _; now apply (in_map fst) in A]. }
  rewrite merge_holds by (auto; eexists; reflexivity). split.
  - intros [[La _]|[[Hy _]|(? & z & _ & Hz & _ & (mz & Mz) & _)]]; [destruct (La _ H) | now apply Fu | apply Fu in Hz; congruence].
  - intros ->. right. left. split; [exact H|]. intros z _ [_ (mz & [=])].
Qed.
Print Assumptions C133_none_written_overrides.

(** Without attributes this is [ser]. *)
Definition bare_out (f : str * ty) : wfield wty := WField (fst f) (fun _ => false) (Field (fst f) [] Required (WPlain (snd f))).
Theorem C133_no_attributes_no_difference : forall fs l, map fst l = map fst fs -> ser_w (WStruct None (map bare_out fs)) (DStruct l) = ser (DStruct l).
Proof.
  intros fs l E. rewrite ser_w_struct. change (ser (DStruct l)) with (ser_fields ser new_map l).
  assert (X : map (fun e => (w_out (fst e), ser_w (f_type (w_in (fst e))) (snd e))) (outs (map bare_out fs) l) = map (fun e => (fst e, ser (snd e))) l).
  { revert l E. induction fs as [|[n t] fs IH]; intros [|[k d] l] E; try discriminate E; [reflexivity|]. cbn [map fst] in E. injection E as -> E. cbn [map outs bare_out w_skip fst snd w_out w_in f_type ser_w]. f_equal. exact (IH l E). }
  rewrite X. generalize new_map. clear. induction l as [|[k d] l IH]; intros acc; [reflexivity|]. cbn [map fst snd ser_fields]. destruct (ser d); cbn [obind]; try reflexivity. destruct acc; cbn; try reflexivity. apply IH.
Qed.
Print Assumptions C133_no_attributes_no_difference.

(** A struct whose [b : Option<i64>] is left out when it is [None], and comes
    back; whose [c] is never written and comes back only as its default; and
    whose [d] is written under a name it is not read under. *)
Definition is_none_d (d : data) : bool := match d with DNone => true | _ => false end.
Definition opts : wty := WStruct None
  [WField (lit "a") (fun _ => false) (Field (lit "a") [] Required (WPlain (TInt I64)));
   WField (lit "b") is_none_d (Field (lit "b") [] Required (WPlain (TOption (TInt I64))));
   WField (lit "c") (fun _ => true) (Field (lit "c") [] (Defaulted (DInt I64 7)) (WPlain (TInt I64)));
   WField (lit "out") (fun _ => false) (Field (lit "in") [] (Defaulted (DInt I64 0)) (WPlain (TInt I64)))].
Definition opts_datum (b : data) (c d : Z) : data := DStruct [(lit "a", DInt I64 1); (lit "b", b); (lit "c", DInt I64 c); (lit "in", DInt I64 d)].
Example C133_example :
  wproper opts /\ datum opts (opts_datum DNone 7 5)
  /\ ser_w opts (opts_datum DNone 7 5) = Done (VMap [(lit "a", VInt 1); (lit "out", VInt 5)])
  /\ ser_w opts (opts_datum (DSome (DInt I64 2)) 7 5) = Done (VMap [(lit "a", VInt 1); (lit "b", VInt 2); (lit "out", VInt 5)])
  /\ comes_back opts (opts_datum DNone 7 0) /\ ~ comes_back opts (opts_datum DNone 7 5) /\ ~ comes_back opts (opts_datum DNone 8 0).
Proof.
  assert (P : wproper opts).
  { apply WpStruct; try (cbn; repeat constructor; cbn; intuition discriminate).
    - cbn. unfold reads_key, known. cbn. intros f g k [<-|[<-|[<-|[<-|[]]]]] [<-|[<-|[<-|[<-|[]]]]]; cbn; intros [[->|[]] _] [[Q|[]] _]; try reflexivity; discriminate Q.
    - cbn. unfold reads_key, known. cbn. intros f g [<-|[<-|[<-|[<-|[]]]]] [<-|[<-|[<-|[<-|[]]]]]; cbn; intros [[Q|[]] _]; try reflexivity; discriminate Q.
    - cbn. intros f [<-|[<-|[<-|[<-|[]]]]]; constructor. }
  assert (D : forall b c d, datum opts (opts_datum b c d)) by (intros; apply DaStruct; repeat constructor).
  split; [exact P|]. split; [apply D|]. split; [reflexivity|]. split; [reflexivity|]. repeat split.
  - eapply (C133_comes_back_exactly_when opts _ _ P (D _ _ _)); reflexivity.
  - intros H. eapply (C133_comes_back_exactly_when opts _ _ P (D _ _ _)) in H; [|reflexivity]. vm_compute in H. discriminate H.
  - intros H. eapply (C133_comes_back_exactly_when opts _ _ P (D _ _ _)) in H; [|reflexivity]. vm_compute in H. discriminate H.
Qed.
