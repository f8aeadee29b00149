(** Untagged and tagged enums, flattened structs, and how strict reading
    compares with direct reading (C100-C102). *)
From Coq Require Import ZArith Bool String Lia.
From Coq Require Import List.
Import ListNotations.
From Verif.Model Require Import Text Num Flt Value Convert Serde Attributes Buffered.
From Verif.Spec Require Import Spec Numerals SerdeSpec ReadSpec AttrSpec BufferedSpec.
From Verif.Proofs Require Import Basics Conversions SerProofs DeProofs SerdeMore RoundTrip Loaded ReadAs Attrs BufferedProofs.
Local Open Scope Z_scope.

(** ** No panics *)
Lemma c_seq_no_panic {A} (f : content -> mres A) l : (forall c, f c <> Panic) -> c_seq f l <> Panic.
Proof.
  intros N. induction l as [|c l IH]; [discriminate|]. rewrite c_seq_cons. specialize (N c).
  destruct (f c); cbn; try congruence. destruct (c_seq f l); cbn; congruence.
Qed.
Lemma c_tuple_no_panic fs : (forall f, In f fs -> forall c, f c <> Panic) -> forall l, c_tuple fs l <> Panic.
Proof.
  induction fs as [|f fs IH]; intros N [|c l]; cbn; try discriminate.
  pose proof (N f (or_introl eq_refl) c). destruct (f c); cbn; try congruence.
  specialize (IH (fun g Hg => N g (or_intror Hg)) l). destruct (c_tuple fs l); cbn; congruence.
Qed.
Lemma c_map_no_panic {A B} (dek : content -> mres A) (dev : content -> mres B) ins m :
  (forall c, dek c <> Panic) -> (forall c, dev c <> Panic) -> c_map dek dev ins m <> Panic.
Proof.
  intros NK NV. change (@c_map A B dek dev ins m) with (c_map_loop dek dev ins m []). generalize (@nil (A * B)).
  induction m as [|[k x] m IH]; intros acc; cbn; [discriminate|]. fold (c_map_loop dek dev ins).
  pose proof (NK (CtStr k)). destruct (dek (CtStr k)); cbn; try congruence. pose proof (NV x). destruct (dev x); cbn; try congruence.
Qed.
Lemma c_struct_no_panic fs m : (forall f, In f fs -> forall c, cs_de f c <> Panic) -> c_struct fs m <> Panic.
Proof.
  intros N. unfold c_struct.
  assert (L : forall acc, c_struct_loop fs m acc <> Panic).
  { induction m as [|[k x] m IH]; intros acc; [discriminate|]. cbn [c_struct_loop].
    destruct (find _ fs) as [f|] eqn:F; [|apply IH]. destruct (mget k acc); [discriminate|].
    apply List.find_some in F as [F _]. pose proof (N f F x). destruct (cs_de f x); cbn; try congruence. }
  specialize (L []). destruct (c_struct_loop fs m []) as [s|e|]; cbn; try congruence. clear.
  induction fs as [|f fs IH]; cbn; [discriminate|].
  destruct (mget (cs_name f) s); [|destruct (cs_optional f)]; cbn; try discriminate; (destruct (c_collect fs s); cbn; congruence).
Qed.
Lemma value_of_content_no_panic c : value_of_content c <> Panic.
Proof.
  induction c as [c S|l IH|m IH] using content_ind'.
  - destruct c; cbn in S; try tauto; discriminate.
  - cbn [value_of_content]. assert (E : c_seq value_of_content l <> Panic).
    { induction l as [|c l IHl]; [discriminate|]. rewrite c_seq_cons. pose proof (IH c (or_introl eq_refl)).
      destruct (value_of_content c); cbn; try congruence. specialize (IHl (fun y Hy => IH y (or_intror Hy))). destruct (c_seq value_of_content l); cbn; congruence. }
    destruct (c_seq value_of_content l); cbn; congruence.
  - cbn [value_of_content]. set (dek := fun k : content => match k with CtStr s => @Done str model_error s | _ => invalid end).
    assert (E : c_map dek value_of_content minsert m <> Panic).
    { change (@c_map str value dek value_of_content minsert m) with (c_map_loop dek value_of_content minsert m []). generalize (@nil (str * value)).
      induction m as [|[k c] m IHm]; intros acc; cbn [c_map_loop]; [discriminate|]. unfold dek at 1. cbn [obind].
      pose proof (IH k c (or_introl eq_refl)). destruct (value_of_content c); cbn [obind]; try congruence.
      apply IHm. intros k' c' Hc. apply (IH k'). right; exact Hc. }
    destruct (c_map dek value_of_content minsert m); cbn; congruence.
Qed.
Lemma content_no_panic o t : no_enum t -> forall c, de_content o t c <> Panic.
Proof.
  induction t as [ |t| | | | | | |t IH|t IH|ts IH|tk tv IHk IHv|fs IH|t IH|n ts IH| | | ] using ty_ind'; intros Ne c.
  - destruct c; discriminate.
  - destruct t, c; cbn [de_content c_int]; try discriminate;
      match goal with |- (if ?b then _ else _) <> _ => destruct b; discriminate end.
  - destruct c; discriminate.
  - destruct c; discriminate.
  - destruct c as [| | | | |[|x [|]]| |]; discriminate.
  - destruct c; discriminate.
  - inversion Ne.
  - destruct c as [| | | | | | |[|]]; try discriminate. cbn. destruct o; discriminate.
  - assert (N : de_content o t c <> Panic) by (apply IH; inversion Ne; auto). cbn [de_content].
    destruct c; try discriminate; destruct (de_content o t _); cbn; congruence.
  - assert (N : forall c, de_content o t c <> Panic) by (apply IH; inversion Ne; auto). cbn [de_content]. destruct c; try discriminate.
    pose proof (c_seq_no_panic _ l N) as G. destruct (c_seq (de_content o t) l); cbn; congruence.
  - assert (N : forall t, In t ts -> forall c, de_content o t c <> Panic) by (intros t Ht; apply IH; auto; inversion Ne; auto). cbn [de_content].
    destruct c; try discriminate. assert (G : c_tuple (map (fun t => de_content o t) ts) l <> Panic).
    { apply c_tuple_no_panic. intros f Hf. apply in_map_iff in Hf as (t & <- & Ht). auto. }
    destruct (c_tuple _ l); cbn; congruence.
  - assert (N : no_enum tk /\ no_enum tv) by (inversion Ne; auto). destruct N. cbn [de_content]. destruct c; try discriminate.
    assert (G : c_map (de_content o tk) (de_content o tv) dinsert m <> Panic) by (apply c_map_no_panic; auto).
    destruct (c_map _ _ _ m); cbn; congruence.
  - assert (N : forall n t, In (n, t) fs -> forall c, de_content o t c <> Panic) by (intros n t Ht; eapply IH; eauto; inversion Ne; eauto). cbn [de_content].
    destruct c; try discriminate.
    + assert (G : c_tuple (map (fun p : str * ty => de_content o (snd p)) fs) l <> Panic).
      { apply c_tuple_no_panic. intros f Hf. apply in_map_iff in Hf as ([n t] & <- & Ht). cbn. eauto. }
      destruct (c_tuple _ l); cbn; congruence.
    + fold (c_slots o fs). assert (G : c_struct (c_slots o fs) m <> Panic).
      { apply c_struct_no_panic. intros f Hf. apply in_map_iff in Hf as ([n t] & <- & Ht). cbn. eauto. }
      destruct (c_struct _ m); cbn; congruence.
  - assert (N : de_content o t c <> Panic) by (apply IH; inversion Ne; auto). cbn [de_content]. destruct (de_content o t c); cbn; congruence.
  - assert (N : forall t, In t ts -> forall c, de_content o t c <> Panic) by (intros t Ht; apply IH; auto; inversion Ne; auto). cbn [de_content].
    destruct c; try discriminate. assert (G : c_tuple (map (fun t => de_content o t) ts) l <> Panic).
    { apply c_tuple_no_panic. intros f Hf. apply in_map_iff in Hf as (t & <- & Ht). auto. }
    destruct (c_tuple _ l); cbn; congruence.
  - destruct c as [| | | | | |[|]|[|]]; try discriminate; cbn; destruct o; discriminate.
  - inversion Ne.
  - cbn [de_content]. pose proof (value_of_content_no_panic c). destruct (value_of_content c); cbn; congruence.
Qed.

(** ** Untagged enums *)
Lemma strict_usable o t c d : usable t -> uniq (val c) -> (de_content o t c = Done d <-> strict o true t (val c) d).
Proof. intros [P N] U. now apply strict_iff. Qed.

Lemma variant_iff n sh c d : shape_usable sh -> uniq (val c) -> (try_variant n sh c = Done d <-> variant_reads n sh (val c) d).
Proof.
  intros S U. destruct sh as [|t|ts|fs]; cbn [shape_usable] in S; cbn [try_variant].
  - destruct c; split; try discriminate; try (intros H; inversion H; fail).
    + intros [= <-]. constructor.
    + intros H. inversion H. reflexivity.
  - etransitivity; [apply obind_iff|]. split.
    + intros (x & E & ->). constructor. now apply strict_usable.
    + intros H. inversion H as [|? ? ? x Hx| |]; subst. exists x. split; auto. now apply strict_usable.
  - split.
    + intros H. destruct (de_content false (TTuple ts) c) as [x|e|] eqn:E; try discriminate. destruct x; try discriminate. injection H as <-.
      constructor. now apply strict_usable.
    + intros H. inversion H as [| |? ? ? ds Hx|]; subst. apply strict_usable in Hx; auto. rewrite Hx. reflexivity.
  - split.
    + intros H. destruct c as [| | | | | | |m]; try discriminate. destruct (de_content false (TStruct fs) (CtMap m)) as [x|e|] eqn:E; try discriminate. destruct x; try discriminate. injection H as <-.
      constructor; [eexists; reflexivity|]. now apply strict_usable.
    + intros H. inversion H as [| | |? ? ? ds (m0 & M) Hx]; subst. destruct c as [| | | | | | |m]; try discriminate M. apply strict_usable in Hx; auto. rewrite Hx. reflexivity.
Qed.
Lemma variant_no_panic n sh c : shape_usable sh -> try_variant n sh c <> Panic.
Proof.
  intros S. destruct sh as [|t|ts|fs]; cbn [shape_usable] in S; cbn [try_variant].
  - destruct c; discriminate.
  - pose proof (content_no_panic false t (proj2 S) c). destruct (de_content false t c); cbn; congruence.
  - pose proof (content_no_panic false _ (proj2 S) c) as N. destruct (de_content false (TTuple ts) c) as [[]| |]; (discriminate || congruence).
  - destruct c as [| | | | | | |m]; try discriminate. pose proof (content_no_panic false _ (proj2 S) (CtMap m)) as N. destruct (de_content false (TStruct fs) (CtMap m)) as [[]| |]; (discriminate || congruence).
Qed.
Lemma first_variant_done name vs c d : (forall n sh, In (n, sh) vs -> shape_usable sh) -> uniq (val c) ->
  (first_variant name vs c = Done d <-> exists before n sh after, vs = before ++ (n, sh) :: after /\ variant_reads n sh (val c) d
     /\ forall n' sh' d', In (n', sh') before -> ~ variant_reads n' sh' (val c) d').
Proof.
  intros S U. induction vs as [|[n sh] vs IH]; cbn [first_variant].
  - split; [discriminate | intros (b & ? & ? & ? & E & _); now destruct b].
  - assert (Sn : shape_usable sh) by (eapply S; left; reflexivity). specialize (IH (fun n' sh' H => S n' sh' (or_intror H))).
    destruct (try_variant n sh c) as [x|e|] eqn:E.
    + split.
      * intros [= <-]. exists [], n, sh, vs. split; [reflexivity|]. split; [now apply variant_iff | intros ? ? ? []].
      * intros (b & n' & sh' & a & Ev & R & Nb). destruct b as [|q b]; cbn in Ev.
        -- injection Ev as <- <- <-. apply variant_iff in R; auto. congruence.
        -- injection Ev as <- ->. exfalso. apply (Nb n sh x (or_introl eq_refl)). now apply variant_iff.
    + etransitivity; [exact IH|]. split.
      * intros (b & n' & sh' & a & -> & R & Nb). exists ((n, sh) :: b), n', sh', a. split; [reflexivity|]. split; auto.
        intros n2 sh2 d' [[= <- <-]|H]; eauto. intros R'. apply variant_iff in R'; auto. congruence.
      * intros (b & n' & sh' & a & Ev & R & Nb). destruct b as [|q b]; cbn in Ev.
        -- injection Ev as <- <- <-. apply variant_iff in R; auto. congruence.
        -- injection Ev as <- ->. exists b, n', sh', a. split; [reflexivity|]. split; auto. intros; apply Nb; right; auto.
    + destruct (variant_no_panic n sh c Sn E).
Qed.
Lemma first_variant_fail name vs c e : (forall n sh, In (n, sh) vs -> shape_usable sh) -> uniq (val c) ->
  (first_variant name vs c = Fail e <-> (forall n sh d, In (n, sh) vs -> ~ variant_reads n sh (val c) d)
     /\ e = EDeserialization (lit "data did not match any variant of untagged enum " ++ name)).
Proof.
  intros S U. induction vs as [|[n sh] vs IH]; cbn [first_variant].
  - split; [intros [= <-]; split; [intros ? ? ? [] | reflexivity] | intros [_ ->]; reflexivity].
  - assert (Sn : shape_usable sh) by (eapply S; left; reflexivity). specialize (IH (fun n' sh' H => S n' sh' (or_intror H))).
    destruct (try_variant n sh c) as [x|e'|] eqn:E.
    + split; [discriminate|]. intros [N _]. exfalso. apply (N n sh x (or_introl eq_refl)). now apply variant_iff.
    + etransitivity; [exact IH|]. split; intros [N ->]; (split; [|reflexivity]).
      * intros n2 sh2 d' [[= <- <-]|H]; eauto. intros R'. apply variant_iff in R'; auto. congruence.
      * intros n2 sh2 d' H. apply N. right; auto.
    + destruct (variant_no_panic n sh c Sn E).
Qed.

(** ** Tagged enums *)
Lemma tagged_variant_iff n sh c d : tshape_usable sh -> uniq (val c) -> (exists m, c = CtMap m) \/ (exists l, c = CtSeq l) ->
  (tagged_variant n sh c = Done d <-> content_reads n sh (val c) d).
Proof.
  intros S U K. destruct sh as [|t|fs]; cbn [tshape_usable] in S; cbn [tagged_variant].
  - destruct K as [(m & ->)|([|x l] & ->)]; split; try discriminate.
    + intros [= <-]. constructor. left. eexists; reflexivity.
    + intros H. inversion H. reflexivity.
    + intros [= <-]. constructor. right. reflexivity.
    + intros H. inversion H. reflexivity.
    + intros H. inversion H as [? ? [(m & M)|M]| |]; discriminate.
  - etransitivity; [apply obind_iff|]. split.
    + intros (x & E & ->). constructor. now apply strict_usable.
    + intros H. inversion H as [|? ? ? x Hx|]; subst. exists x. split; auto. now apply strict_usable.
  - split.
    + intros H. destruct (de_content true (TStruct fs) c) as [x|e|] eqn:E; try discriminate. destruct x; try discriminate. injection H as <-.
      constructor. now apply strict_usable.
    + intros H. inversion H as [| |? ? ? ds Hx]; subst. apply strict_usable in Hx; auto. rewrite Hx. reflexivity.
Qed.
Lemma find_named {A} (vs : list (str * A)) n p : NoDup (map fst vs) ->
  (find (fun p => str_eqb n (fst p)) vs = Some p <-> fst p = n /\ In p vs).
Proof.
  induction vs as [|[n' a] vs IH]; cbn; intros ND; [split; [discriminate | tauto]|]. inversion ND as [|? ? N1 N2]; subst.
  destruct (str_eqb_spec n n') as [->|N].
  - split; [intros [= <-]; auto|]. intros [E [->|H]]; auto. exfalso. apply N1. rewrite <- E. now apply in_map.
  - rewrite IH by auto. split; [tauto|]. intros [E [<-|H]]; [cbn in E; congruence | auto].
Qed.
Lemma read_tag_done vs x p : NoDup (map fst vs) -> (read_tag vs x = Done p <-> into_string x = Ok (fst p) /\ In p vs).
Proof.
  intros ND. unfold read_tag. etransitivity; [apply obind_done|]. split.
  - intros (n & E & H). apply of_result_ok in E. destruct (find _ vs) as [q|] eqn:F; [|discriminate]. injection H as <-.
    apply find_named in F as [F1 F2]; auto. subst n. auto.
  - intros [E H]. exists (fst p). rewrite E. split; [reflexivity|].
    assert (F : find (fun q => str_eqb (fst p) (fst q)) vs = Some p) by (apply find_named; auto). now rewrite F.
Qed.
Lemma tag_loop_found tag vs m p : ~ In tag (map fst m) -> forall rest r,
  tag_loop tag vs m (Some p) rest = Done r <-> exists cs, m = vals cs /\ r = (p, rest ++ cs).
Proof.
  induction m as [|[k x] m IH]; intros N rest r; cbn [tag_loop].
  - split; [intros [= <-]; exists []; rewrite app_nil_r; auto | intros ([|] & E & ->); [now rewrite app_nil_r | discriminate]].
  - destruct (str_eqb_spec k tag) as [->|Nk]; [destruct N; left; reflexivity|].
    etransitivity; [apply obind_done|]. split.
    + intros (c & B & H). apply buffer_val in B. subst x. apply IH in H as (cs & -> & ->); [|intros Hn; apply N; right; auto].
      exists ((k, c) :: cs). rewrite <- app_assoc. auto.
    + intros ([|[k' c] cs] & E & ->); [discriminate|]. cbn in E. injection E as -> -> ->. exists c. split; [apply buffer_of_val|].
      apply IH; [intros Hn; apply N; right; auto|]. exists cs. rewrite <- app_assoc. auto.
Qed.
Lemma tag_loop_done tag vs m : NoDup (map fst m) -> NoDup (map fst vs) -> forall rest r,
  tag_loop tag vs m None rest = Done r <-> exists c1 x c2 p, m = vals c1 ++ (tag, x) :: vals c2 /\ read_tag vs x = Done p /\ r = (p, rest ++ c1 ++ c2).
Proof.
  intros NM NV. induction m as [|[k x] m IH]; intros rest r; cbn [tag_loop].
  - split; [discriminate | intros ([|[? ?] ?] & ? & ? & ? & E & _); discriminate].
  - cbn in NM. inversion NM as [|? ? N1 N2]; subst. specialize (IH N2). destruct (str_eqb_spec k tag) as [->|Nk].
    + etransitivity; [apply obind_done|]. split.
      * intros (p & E & H). apply tag_loop_found in H as (cs & -> & ->); auto. exists [], x, cs, p. auto.
      * intros ([|[k' c] c1] & y & c2 & p & E & R & ->).
        -- cbn in E. injection E as <- ->. exists p. split; auto. apply tag_loop_found; auto. exists c2. auto.
        -- exfalso. cbn in E. injection E as _ _ E. apply N1. rewrite E, map_app. apply in_or_app. right. left. reflexivity.
    + etransitivity; [apply obind_done|]. split.
      * intros (c & B & H). apply buffer_val in B. subst x. apply IH in H as (c1 & y & c2 & p & -> & R & ->).
        exists ((k, c) :: c1), y, c2, p. split; [reflexivity|]. split; auto. rewrite <- app_assoc. reflexivity.
      * intros ([|[k' c] c1] & y & c2 & p & E & R & ->).
        -- cbn in E. injection E as -> _ _. congruence.
        -- cbn in E. injection E as -> -> ->. exists c. split; [apply buffer_of_val|]. apply IH. exists c1, y, c2, p. split; auto. split; auto. rewrite <- app_assoc. reflexivity.
Qed.
Lemma vals_app a b : vals (a ++ b) = vals a ++ vals b.
Proof. apply map_app. Qed.
Lemma vals_ex m : ~ has_wide (VMap m) -> exists cs, m = vals cs.
Proof. intros N. apply narrow_val in N as ([] & E); try discriminate. injection E as ->. eexists; reflexivity. Qed.
Lemma vals_narrow cs : ~ has_wide (VMap (vals cs)).
Proof. exact (val_narrow (CtMap cs)). Qed.
Lemma arr_ex l : ~ has_wide (VArr l) -> exists cs, l = map val cs.
Proof. intros N. apply narrow_val in N as ([] & E); try discriminate. injection E as ->. eexists; reflexivity. Qed.

Lemma tagged_iff tag vs v d : NoDup (map fst vs) -> (forall n sh, In (n, sh) vs -> tshape_usable sh) -> uniq v ->
  (de_tagged tag vs v = Done d <-> tagged_reads tag vs v d).
Proof.
  intros NV S U. split.
  - intros H. destruct v as [| | | | | | | |l|m]; try discriminate H; cbn [de_tagged] in H.
    + destruct l as [|x l]; [discriminate|]. apply obind_done in H as ([n sh] & R & H). apply obind_done in H as (cs & B & H). cbn [fst snd] in H.
      apply read_tag_done in R as [R Hs]; auto. cbn in R. apply buffer_list_val in B; [|intros; now apply buffer_val]. subst l.
      assert (Uc : uniq (val (CtSeq cs))) by (apply uniq_arr; intros; apply (proj1 (uniq_arr _) U); right; auto).
      eapply TgArr; eauto; [exact (val_narrow (CtSeq cs))|]. apply tagged_variant_iff in H; eauto.
    + pose proof (proj1 (uniq_map m) U) as [NM Um]. apply obind_done in H as ([[n sh] rest] & L & H). cbn [fst snd] in H.
      apply tag_loop_done in L as (c1 & x & c2 & p & -> & R & E); auto. cbn [app] in E. injection E as <- ->.
      apply read_tag_done in R as [R Hs]; auto. cbn in R. rewrite map_app in NM. cbn [map fst] in NM.
      assert (Nt : ~ In tag (map fst (vals c1 ++ vals c2))) by (rewrite map_app; apply NoDup_remove_2 in NM; exact NM).
      assert (Uc : uniq (val (CtMap (c1 ++ c2)))).
      { cbn [val]. fold (vals (c1 ++ c2)). rewrite vals_app. apply uniq_map. split; [rewrite map_app; now apply NoDup_remove_1 in NM|].
        intros k y Hy. apply (Um k). apply in_app_iff in Hy. apply in_app_iff. cbn. tauto. }
      eapply TgMap; eauto; rewrite <- vals_app; [apply vals_narrow|]. apply (tagged_variant_iff n sh (CtMap (c1 ++ c2))); eauto.
  - intros H. inversion H as [m1 x m2 n sh ? Nt R Hs W C|x l n sh ? R Hs W C]; subst.
    + pose proof (proj1 (uniq_map _) U) as [NM Um]. apply vals_ex in W as (cs & E). symmetry in E. unfold vals in E. apply map_eq_app in E as (c1 & c2 & -> & E1 & E2).
      fold (vals c1) in E1. fold (vals c2) in E2. subst m1 m2. cbn [de_tagged].
      assert (L : tag_loop tag vs (vals c1 ++ (tag, x) :: vals c2) None [] = Done ((n, sh), c1 ++ c2)).
      { apply tag_loop_done; auto. exists c1, x, c2, (n, sh). split; auto. split; auto. apply read_tag_done; auto. }
      rewrite L. cbn [obind fst snd]. apply tagged_variant_iff; eauto.
      * cbn [val]. fold (vals (c1 ++ c2)). rewrite vals_app. rewrite map_app in NM. cbn [map fst] in NM. apply uniq_map. split; [rewrite map_app; now apply NoDup_remove_1 in NM|].
        intros k y Hy. apply (Um k). apply in_app_iff in Hy. apply in_app_iff. cbn. tauto.
      * cbn [val]. fold (vals (c1 ++ c2)). rewrite vals_app. exact C.
    + apply arr_ex in W as (cs & ->). cbn [de_tagged].
      assert (T : read_tag vs x = Done (n, sh)) by (apply read_tag_done; auto). rewrite T. cbn [obind].
      rewrite buffer_list_of by (intros; apply buffer_of_val). cbn [obind fst snd]. apply tagged_variant_iff; eauto.
      apply uniq_arr. intros y Hy. apply (proj1 (uniq_arr _) U). right; auto.
Qed.
Lemma tagged_no_panic tag vs v : (forall n sh, In (n, sh) vs -> tshape_usable sh) -> de_tagged tag vs v <> Panic.
Proof.
  intros S. assert (T : forall x, read_tag vs x <> Panic).
  { intros x. unfold read_tag. destruct (into_string x); cbn; [|discriminate]. destruct (find _ vs); discriminate. }
  assert (T' : forall x p, read_tag vs x = Done p -> In p vs).
  { intros x p. unfold read_tag. intros H. apply obind_done in H as (n & _ & H). destruct (find _ vs) as [q|] eqn:F; [|discriminate].
    injection H as <-. now apply List.find_some in F as [F _]. }
  assert (V : forall n sh c, In (n, sh) vs -> tagged_variant n sh c <> Panic).
  { intros n sh c H. specialize (S n sh H). destruct sh as [|t|fs]; cbn [tshape_usable] in S; cbn [tagged_variant].
    - destruct c as [| | | | | |[|]|]; discriminate.
    - pose proof (content_no_panic true t (proj2 S) c). destruct (de_content true t c); cbn; congruence.
    - pose proof (content_no_panic true _ (proj2 S) c) as N. destruct (de_content true (TStruct fs) c) as [[]| |]; (discriminate || congruence). }
  destruct v as [| | | | | | | |[|x l]|m]; try discriminate; cbn [de_tagged].
  - specialize (T x). destruct (read_tag vs x) as [[n sh]|e|] eqn:R; cbn [obind]; try congruence. apply T' in R.
    destruct (buffer_list buffer l) as [cs|e|] eqn:B; cbn [obind fst snd]; [auto | discriminate|].
    exfalso. assert (P : buffer (VArr l) = Panic) by (cbn [buffer]; now rewrite B). exact (buffer_no_panic _ P).
  - assert (L : forall f rest, (forall p, f = Some p -> In p vs) -> tag_loop tag vs m f rest <> Panic /\ forall r, tag_loop tag vs m f rest = Done r -> In (fst r) vs).
    { induction m as [|[k x] m IH]; intros f rest Hf; cbn [tag_loop].
      - destruct f as [p|]; split; try discriminate. intros r [= <-]. cbn. auto.
      - destruct (str_eqb k tag).
        + destruct f as [p|]; [split; discriminate|]. specialize (T x). destruct (read_tag vs x) as [p|e|] eqn:R; cbn [obind]; [|split; discriminate | congruence].
          apply IH. intros q [= <-]. eauto.
        + pose proof (buffer_no_panic x). destruct (buffer x) as [c|e|]; cbn [obind]; [apply IH; auto | split; discriminate | congruence]. }
    destruct (L None []) as [L1 L2]; [discriminate|]. destruct (tag_loop tag vs m None []) as [[[n sh] rest]|e|]; cbn [obind fst snd]; try congruence.
    apply V. exact (L2 _ eq_refl).
Qed.

(** ** Flattened structs *)
Definition in_str (k : str) (l : list str) := in_dec (list_eq_dec Z.eq_dec) k l.
Lemma flat_loop_done own m : NoDup (map fst m) -> forall acc oth s o',
  flat_loop (slots_of own) m acc oth = Done (s, o') <->
  struct_loop (slots_of own) m acc = Done s /\ exists cs, o' = oth ++ cs /\ outside (map fst own) m = vals cs.
Proof.
  assert (FF : forall k, (exists f, find_field k (slots_of own) = Some f) <-> In k (map fst own)).
  { intros k. induction own as [|[n t] own IH]; cbn; [split; [intros (f & H); discriminate | tauto]|].
    destruct (str_eqb_spec k n) as [->|N]; [split; eauto|]. rewrite IH. split; [auto | intros [E|H]; [congruence | auto]]. }
  induction m as [|[k x] m IH]; intros ND acc oth s o'.
  - cbn. split; [intros [= <- <-]; split; auto; exists []; rewrite app_nil_r; auto | intros ([= <-] & [|? ?] & -> & E); [now rewrite app_nil_r | discriminate]].
  - cbn in ND. inversion ND as [|? ? N1 N2]; subst. rewrite struct_loop_step. cbn [flat_loop outside filter fst].
    destruct (find_field k (slots_of own)) as [f|] eqn:Ef.
    + assert (Hk : In k (map fst own)) by (apply FF; eauto). destruct (in_dec (list_eq_dec Z.eq_dec) k (map fst own)) as [_|N]; [|contradiction]. fold (outside (map fst own) m).
      destruct (mget k acc); [split; [discriminate | intros [H _]; discriminate]|].
      destruct (fs_de f x); cbn [obind]; [apply IH; auto | split; [discriminate | intros [H _]; discriminate]..].
    + destruct (in_dec (list_eq_dec Z.eq_dec) k (map fst own)) as [Hk|N]; [apply FF in Hk as (f & Hf); congruence|]. fold (outside (map fst own) m).
      etransitivity; [apply obind_done|]. split.
      * intros (c & B & H). apply buffer_val in B. subst x. apply IH in H as (H & cs & -> & E); auto. split; auto.
        exists ((k, c) :: cs). rewrite <- app_assoc, E. auto.
      * intros (H & [|[k' c] cs] & -> & E); [discriminate|]. cbn in E. injection E as <- -> E. exists c. split; [apply buffer_of_val|].
        apply IH; auto. split; auto. exists cs. rewrite <- app_assoc. auto.
Qed.
Lemma names_it_iff fs k : names_it fs k = true <-> In k (map fst fs).
Proof.
  unfold names_it. rewrite existsb_exists. split.
  - intros (n & H & E). apply str_eqb_eq in E. now subst.
  - intros H. exists k. split; auto. apply str_eqb_refl.
Qed.
Lemma outside_in taken m k x : In (k, x) (outside taken m) <-> In (k, x) m /\ ~ In k taken.
Proof.
  unfold outside. rewrite filter_In. cbn. destruct (in_dec (list_eq_dec Z.eq_dec) k taken); split; intros [H1 H2]; split; auto; try discriminate; contradiction.
Qed.
Lemma outside_nodup taken m : NoDup (map fst m) -> NoDup (map fst (outside taken m)).
Proof.
  intros ND. induction m as [|[k x] m IH]; [constructor|]. cbn in ND. inversion ND as [|? ? N1 N2]; subst.
  cbn [outside filter fst]. fold (outside taken m). destruct (in_dec (list_eq_dec Z.eq_dec) k taken); auto. cbn. constructor; auto.
  intros H. apply N1. apply in_map_iff in H as ([k' y] & <- & H). apply outside_in in H as [H _]. now apply (in_map fst) in H.
Qed.
Lemma outside_more taken fs m cs : outside taken m = vals cs ->
  outside (taken ++ map fst fs) m = vals (filter (fun e => negb (names_it fs (fst e))) cs).
Proof.
  assert (O : outside (taken ++ map fst fs) m = filter (fun e => negb (names_it fs (fst e))) (outside taken m)).
  { induction m as [|[k x] m IH]; [reflexivity|]. cbn [outside filter fst]. fold (outside taken m). fold (outside (taken ++ map fst fs) m).
    destruct (in_dec (list_eq_dec Z.eq_dec) k taken) as [H|H].
    - destruct (in_dec (list_eq_dec Z.eq_dec) k (taken ++ map fst fs)) as [H'|H']; [auto | destruct H'; apply in_or_app; auto].
    - cbn [filter fst]. destruct (in_dec (list_eq_dec Z.eq_dec) k (taken ++ map fst fs)) as [H'|H'].
      + apply in_app_iff in H' as [H'|H']; [contradiction|]. apply names_it_iff in H'. rewrite H'. cbn. exact IH.
      + destruct (names_it fs k) eqn:E; [apply names_it_iff in E; destruct H'; apply in_or_app; auto|]. cbn. now rewrite IH. }
  intros E. rewrite O, E. clear. unfold vals. induction cs as [|[k c] cs IH]; [reflexivity|]. cbn [map filter fst].
  destruct (names_it fs k); cbn; [exact IH | now rewrite IH].
Qed.
Lemma flat_parts_iff m parts : uniq (VMap m) -> (forall n p, In (n, p) parts -> part_usable p) -> forall taken cs r,
  outside taken m = vals cs -> (flat_parts parts cs = Done r <-> parts_read m taken parts r).
Proof.
  intros U. pose proof (proj1 (uniq_map m) U) as [NM Um].
  induction parts as [|[n [fs|t1]] parts IH]; intros S taken cs r E; cbn [flat_parts].
  - split; [intros [= <-]; constructor | intros H; inversion H; reflexivity].
  - assert (Sp : usable (TStruct fs)) by (exact (S n (FpStruct fs) (or_introl eq_refl))).
    assert (K : NoDup (map fst fs) /\ forall n t, In (n, t) fs -> proper t) by (destruct Sp as [P _]; inversion P as [? X| | | | | | |]; subst; [destruct X | auto]).
    assert (Ne : forall n t, In (n, t) fs -> no_enum t) by (destruct Sp as [_ N]; inversion N; auto). destruct K as [ND Pf].
    assert (Nc : NoDup (map fst cs)) by (rewrite <- vals_keys, <- E; now apply outside_nodup).
    assert (Nf : NoDup (map fst (filter (fun e => names_it fs (fst e)) cs))).
    { clear - Nc. induction cs as [|[k c] cs IHc]; [constructor|]. cbn in Nc. inversion Nc as [|? ? N1 N2]; subst. cbn [filter fst].
      destruct (names_it fs k); auto. cbn. constructor; auto. intros H. apply N1. apply in_map_iff in H as ([k' y] & <- & H). apply filter_In in H as [H _]. now apply (in_map fst) in H. }
    fold (c_slots true fs).
    assert (Hin : forall k c, In (k, c) cs <-> ~ In k taken /\ In (k, val c) m).
    { intros k c. transitivity (In (k, val c) (vals cs)).
      - rewrite in_vals. split; [eauto|]. intros (c' & Ec & H). assert (c = c') as ->; [|exact H].
        assert (X : buffer (val c) = Done c) by apply buffer_of_val. rewrite Ec, buffer_of_val in X. congruence.
      - rewrite <- E, outside_in. tauto. }
    assert (C : forall l, c_struct (c_slots true fs) (filter (fun e => names_it fs (fst e)) cs) = Done l <->
      Forall2 (fun f d => fst d = fst f /\
        ((~ In (fst f) taken /\ exists x, holds (VMap m) (fst f) x /\ strict true true (snd f) x (snd d))
         \/ ((In (fst f) taken \/ lacks (VMap m) (fst f)) /\ (exists t, snd f = TOption t) /\ snd d = DNone))) fs l).
    { intros l. etransitivity; [apply c_struct_done; auto|]. apply Forall2_iff_in. intros [k t] [k' x] Hf. unfold c_field. cbn [fst snd].
      assert (Kn : names_it fs k = true) by (apply names_it_iff; apply (in_map fst) in Hf; exact Hf).
      assert (G : (exists c, In (k, c) (filter (fun e => names_it fs (fst e)) cs) /\ de_content true t c = Done x) <->
        (~ In k taken /\ exists y, holds (VMap m) k y /\ strict true true t y x)).
      { split.
        - intros (c & Hc & D). apply filter_In in Hc as [Hc _]. apply Hin in Hc as [Nk Hc]. split; auto. exists (val c). split; [now apply holds_map|].
          apply strict_iff in D; eauto.
        - intros (Nk & y & Hy & D). apply holds_map in Hy. assert (Ho : In (k, y) (outside taken m)) by (apply outside_in; auto).
          rewrite E in Ho. apply in_vals in Ho as (c & -> & Hc). exists c. split; [apply filter_In; auto|]. apply strict_iff; eauto. }
      assert (L : (forall c, ~ In (k, c) (filter (fun e => names_it fs (fst e)) cs)) <-> (In k taken \/ lacks (VMap m) k)).
      { split.
        - intros H. destruct (in_dec (list_eq_dec Z.eq_dec) k taken) as [Hk|Hk]; [auto|]. right. intros y Hy. apply holds_map in Hy.
          assert (Ho : In (k, y) (outside taken m)) by (apply outside_in; auto). rewrite E in Ho. apply in_vals in Ho as (c & -> & Hc).
          apply (H c). apply filter_In; auto.
        - intros H c Hc. apply filter_In in Hc as [Hc _]. apply Hin in Hc as [Nk Hc]. destruct H as [H|H]; [auto|]. apply (H (val c)). now apply holds_map. }
      rewrite G, L. reflexivity. }
    pose proof (fun r => IH (fun n' p H => S n' p (or_intror H)) _ _ r (outside_more taken fs m cs E)) as IH'. split.
    + intros H. apply obind_done in H as (l & Hl & H). apply obind_done in H as (r' & H & [= <-]). constructor; [now apply C | now apply IH'].
    + intros H. inversion H as [|? ? ? ? l r' F R|]; subst. apply C in F. rewrite F. cbn [obind]. apply IH' in R. rewrite R. reflexivity.
  - assert (Sp : usable t1) by (exact (S n (FpMap t1) (or_introl eq_refl))).
    assert (Nc : NoDup (map fst cs)) by (rewrite <- vals_keys, <- E; now apply outside_nodup).
    assert (Uc : forall k c, In (k, c) cs -> uniq (val c)).
    { intros k c H. apply (Um k). assert (Ho : In (k, val c) (outside taken m)) by (rewrite E; apply in_vals; eauto). now apply outside_in in Ho. }
    assert (C : forall l, c_map (de_content false TString) (de_content false t1) dinsert cs = Done l <->
      Forall2 (fun e d => fst d = DStr (fst e) /\ strict false true t1 (snd e) (snd d)) (outside taken m) l).
    { intros l. rewrite E. change (@c_map data data (de_content false TString) (de_content false t1) dinsert cs) with (c_map_loop (de_content false TString) (de_content false t1) dinsert cs []).
      assert (G : forall ps, Forall2 (fun e p => de_content false TString (CtStr (fst e)) = Done (fst p) /\ de_content false t1 (snd e) = Done (snd p)) cs ps <->
        Forall2 (fun e d => fst d = DStr (fst e) /\ strict false true t1 (snd e) (snd d)) (vals cs) ps).
      { intros ps. symmetry. etransitivity; [apply Forall2_map_l|]. apply Forall2_iff_in. intros [k x] [a b] Hk. cbn [fst snd de_content].
        pose proof (strict_usable false t1 x b Sp (Uc k x Hk)) as I2. rewrite I2. split; intros [H1 H2]; split; auto; congruence. }
      etransitivity; [apply c_map_fold|]. split.
      - intros (ps & F & ->). erewrite (text_keys_distinct false TString cs ps []); eauto; [cbn [app]; now apply G | constructor |].
        eapply Forall2_impl_in; [|exact F]. intros ? ? _ [? _]; assumption.
      - intros F. apply G in F. exists l. split; auto. symmetry. erewrite (text_keys_distinct false TString cs l []); eauto; [constructor|].
        eapply Forall2_impl_in; [|exact F]. intros ? ? _ [? _]; assumption. }
    pose proof (fun r => IH (fun n' p H => S n' p (or_intror H)) _ _ r E) as IH'. split.
    + intros H. apply obind_done in H as (l & Hl & H). apply obind_done in H as (r' & H & [= <-]). constructor; [now apply C | now apply IH'].
    + intros H. inversion H as [| |? ? ? ? l r' F R]; subst. apply C in F. rewrite F. cbn [obind]. apply IH' in R. rewrite R. reflexivity.
Qed.
Lemma flat_iff own parts v d : NoDup (map fst own) -> (forall n p, In (n, p) parts -> part_usable p) -> uniq v ->
  (de_flat own parts v = Done d <-> flat_reads own parts v d).
Proof.
  intros NO S U. split.
  - intros H. destruct v as [| | | | | | | | |m]; try discriminate H. cbn [de_flat] in H. fold (slots_of own) in H.
    pose proof (proj1 (uniq_map m) U) as [NM Um]. apply obind_done in H as ([s o'] & L & H). cbn [fst snd] in H.
    apply obind_done in H as (l & Hl & H). apply obind_iff in H as (r & Hr & ->).
    apply flat_loop_done in L as (L & cs & -> & E); auto. cbn [app] in Hr.
    assert (D : de (TStruct own) (VMap m) = Done (DStruct l)).
    { cbn [de]. fold (slots_of own). unfold de_struct. change (de_struct_loop (slots_of own) m) with (struct_loop (slots_of own) m []). rewrite L. cbn [obind]. rewrite Hl. reflexivity. }
    apply de_struct_done in D as (l' & [= <-] & F); auto. constructor.
    + eapply Forall2_impl_in; [|exact F]. intros f x _ [E1 [(y & Hy & Hd)|(N & O)]]; (split; [exact E1|]).
      * left. exists y. split; auto. now apply holds_map.
      * right. split; auto. intros y Hy. apply holds_map in Hy. exact (N y Hy).
    + intros k x Hx Nk. assert (Ho : In (k, x) (outside (map fst own) m)) by (apply outside_in; auto). rewrite E in Ho.
      apply in_vals in Ho as (c & -> & _). apply val_narrow.
    + eapply flat_parts_iff; eauto.
  - intros H. inversion H as [m l r F W R]; subst. pose proof (proj1 (uniq_map m) U) as [NM Um].
    assert (D : de (TStruct own) (VMap m) = Done (DStruct l)).
    { apply de_struct_done; auto. exists l. split; auto. eapply Forall2_impl_in; [|exact F]. intros f x _ [E1 [(y & Hy & Hd)|(N & O)]]; (split; [exact E1|]).
      * left. exists y. split; auto. now apply holds_map in Hy.
      * right. split; auto. intros y Hy. apply (N y). now apply holds_map. }
    assert (O : exists cs, outside (map fst own) m = vals cs).
    { apply vals_ex. intros X. inversion X as [| | |? k x Hx Hw]; subst. apply outside_in in Hx as [Hx Nk]. exact (W k x Hx Nk Hw). }
    destruct O as (cs & E). apply (flat_parts_iff m parts U S _ cs r E) in R.
    cbn [de] in D. fold (slots_of own) in D. unfold de_struct in D. change (de_struct_loop (slots_of own) m) with (struct_loop (slots_of own) m []) in D.
    apply obind_done in D as (s & Hs & D). apply obind_iff in D as (l' & Hl & [= <-]).
    assert (L : flat_loop (slots_of own) m [] [] = Done (s, cs)) by (apply flat_loop_done; auto; split; auto; exists cs; auto).
    cbn [de_flat]. fold (slots_of own). rewrite L. cbn [obind fst snd]. rewrite Hl. cbn [obind]. rewrite R. reflexivity.
Qed.
