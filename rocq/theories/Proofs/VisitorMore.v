(** Proofs for C70: which error is reported. *)
From Coq Require Import ZArith Bool String Lia.
From Coq Require Import List.
Import ListNotations.
From Verif.Model Require Import Text Num Flt Value Convert Serde Visitor.
From Verif.Spec Require Import Spec Numerals EnvSpec SerdeSpec FloatSpec ShapeSpec VisitorSpec.
From Verif.Proofs Require Import Basics Conversions Utf8 Containers SerProofs Shape VisitorProofs.
Local Open Scope Z_scope.

Lemma in_existsb_dot s : existsb (fun c => c =? 46) s = true <-> In 46 s.
Proof. rewrite existsb_exists. split; [intros (x & H & E); apply Z.eqb_eq in E; now subst | intros H; exists 46; auto]. Qed.
Lemma with_point_says f : float_says f (with_point f).
Proof.
  assert (S : into_string (VFloat f) = Ok (print_f64 f)) by reflexivity.
  destruct f as [s|s| |s m e]; cbn [with_point]; try (apply FsOther; [exact S | intros []]).
  all: destruct (existsb _ _) eqn:E; [apply FsPoint; [exact S | now apply in_existsb_dot] | apply FsWhole; [exact S | | exact I]; intros H; apply in_existsb_dot in H; congruence].
Qed.
Lemma float_says_fun f s : float_says f s -> s = with_point f.
Proof.
  intros H. assert (P : into_string (VFloat f) = Ok (print_f64 f)) by reflexivity. assert (I : is_number f -> with_point f = if existsb (fun c => c =? 46) (print_f64 f) then print_f64 f else print_f64 f ++ lit ".0").
  { destruct f; cbn [is_number]; try tauto; reflexivity. }
  assert (N : ~ is_number f -> with_point f = print_f64 f) by (destruct f; cbn [is_number]; try tauto; reflexivity).
  assert (D : is_number f \/ ~ is_number f) by (destruct f; cbn; auto).
  destruct H as [f s E Hs|f s E Hs F|f s E F]; assert (s = print_f64 f) as -> by congruence.
  - destruct D as [D|D]; [|now rewrite N]. rewrite (I D). apply in_existsb_dot in Hs. now rewrite Hs.
  - rewrite (I F). destruct (existsb _ _) eqn:X; auto. apply in_existsb_dot in X. contradiction.
  - now rewrite N.
Qed.
Lemma called_iff e what : called e what <-> what = unexpected_text e /\ (forall s, e <> EvStr s) /\ (forall c, e <> EvChar c) /\ (forall m, e <> EvFail m).
Proof.
  split.
  - intros H. split; [|repeat split; intros; inversion H; discriminate].
    inversion H; subst; try reflexivity.
    + assert (s = print_int z) as -> by (now apply canonical_print). destruct t; try reflexivity; match goal with W : ~ wide _ |- _ => destruct W; exact I end.
    + assert (s = print_int z) as -> by (now apply canonical_print). reflexivity.
    + assert (s = print_int z) as -> by (now apply canonical_print). reflexivity.
    + cbn in H0. injection H0 as <-. cbn [unexpected_text]. apply float_says_fun in H1. now subst.
    + cbn [unexpected_text]. apply float_says_fun in H0. now subst.
  - intros (-> & A & B & C). destruct e; try constructor; try (now destruct (A s)); try (now destruct (B c)); try (now destruct (C msg)).
    + destruct b; constructor.
    + cbn [unexpected_text]. assert (K : canonical (print_int z) z) by apply print_int_canonical. destruct t; constructor; auto; intros [].
    + cbn [unexpected_text]. eapply CaF32; [reflexivity | apply with_point_says].
    + cbn [unexpected_text]. apply with_point_says.
Qed.
Lemma visit_key_err_iff k msg : visit_key k = Err msg <-> key_obstacle k msg.
Proof.
  split.
  - destruct k; cbn [visit_key]; try discriminate.
    5: { destruct (utf8_decode l) eqn:D; [discriminate|]. intros [= <-]. apply KoBytes. intros s U. apply utf8_decode_spec in U. congruence. }
    12: { intros [= <-]. constructor. }
    all: unfold invalid_type; intros H; match type of H with @Err _ _ ?x = _ => assert (msg = x) as -> by congruence end;
      match goal with |- key_obstacle ?e _ => apply (KoOther e (unexpected_text e)) end; [intros; discriminate|]; apply called_iff; repeat split; intros; discriminate.
  - intros H. inversion H; subst; [reflexivity| |].
    + cbn. destruct (utf8_decode l) eqn:D; [|reflexivity]. apply utf8_decode_spec in D. destruct (H0 _ D).
    + apply called_iff in H1 as (-> & A & B & C). destruct k; try reflexivity; [destruct (B c eq_refl) | destruct (A s eq_refl) | destruct (H0 l eq_refl) | destruct (C msg eq_refl)].
Qed.
Lemma elems_loop_app l1 e l2 vs acc : Forall2 (fun x v => visit x = Ok v) l1 vs ->
  elems_loop visit acc (l1 ++ e :: l2) = rbind (visit e) (fun v => elems_loop visit (acc ++ vs ++ [v]) l2).
Proof.
  intros F. revert acc. induction F as [|x v l1 vs E F IH]; intros acc; cbn [app elems_loop]; [reflexivity|].
  rewrite E. cbn [rbind]. rewrite IH. destruct (visit e); [cbn [rbind]; now rewrite <- app_assoc | reflexivity].
Qed.
Lemma elems_err l acc msg : elems_loop visit acc l = Err msg -> exists l1 e l2, l = l1 ++ e :: l2 /\ (forall x, In x l1 -> exists v, visit x = Ok v) /\ visit e = Err msg.
Proof.
  revert acc. induction l as [|x l IH]; intros acc; cbn [elems_loop]; [discriminate|]. destruct (visit x) as [v|m] eqn:E; cbn [rbind].
  - intros H. apply IH in H as (l1 & e & l2 & -> & F & H). exists (x :: l1), e, l2. repeat split; auto. intros y [<-|Hy]; eauto.
  - intros [= ->]. exists [], x, l. repeat split; auto. intros y [].
Qed.
Lemma eentries_err m acc msg : eentries_loop visit acc m = Err msg -> exists m1 k e m2 h, m = m1 ++ (k, e) :: m2 /\ Forall2 (entry_ok visit) m1 h /\
  (visit_key k = Err msg \/ exists s, visit_key k = Ok s /\ visit e = Err msg).
Proof.
  revert acc. induction m as [|[k x] m IH]; intros acc; cbn [eentries_loop]; [discriminate|]. destruct (visit_key k) as [s|z] eqn:K; cbn [rbind].
  - destruct (visit x) as [v|z] eqn:E; cbn [rbind].
    + intros H. apply IH in H as (m1 & k' & e & m2 & h & -> & F & H). exists ((k, x) :: m1), k', e, m2, ((s, v) :: h). repeat split; auto. constructor; auto. split; auto. now apply visit_key_iff.
    + intros [= ->]. exists [], k, x, m, []. repeat split; [constructor|]. right. eauto.
  - intros [= ->]. exists [], k, x, m, []. repeat split; [constructor|]. left. auto.
Qed.
Lemma eentries_app m1 h k e m2 acc : Forall2 (entry_ok visit) m1 h -> exists acc',
  eentries_loop visit acc (m1 ++ (k, e) :: m2) = rbind (visit_key k) (fun s => rbind (visit e) (fun v => eentries_loop visit (minsert s v acc') m2)).
Proof.
  intros F. revert acc. induction F as [|[k' x] [s v] m1 h [K E] F IH]; intros acc; [exists acc; reflexivity|]. cbn [fst snd] in *.
  destruct (IH (minsert s v acc)) as (acc' & H). exists acc'. cbn [app eentries_loop]. apply visit_key_iff in K. rewrite K. cbn [rbind]. rewrite E. cbn [rbind]. exact H.
Qed.
Lemma readable_map m : ~ unreadable (EvMap m) -> exists h, Forall2 (entry_ok visit) m h.
Proof. intros N. destruct (visit_total (EvMap m)) as [(v & H)|H]; [|contradiction]. apply visit_map_iff in H as (h & _ & F & _). eauto. Qed.
Lemma entries_readable m h : Forall2 (entry_ok visit) m h -> ~ unreadable (EvMap m).
Proof.
  intros F U. destruct (set_calls_bindings h) as (r & E & _). assert (V : visit (EvMap m) = Ok (VMap r)) by (apply visit_map_iff; exists h, r; auto).
  exact (visit_unreadable _ U _ V).
Qed.

Lemma obstacle_iff e : forall msg, visit e = Err msg <-> obstacle e msg.
Proof.
  intros msg. split.
  - revert msg. induction e as [e F|e IH|e IH|l IH|m IH] using event_ind'; intros msg H.
    + destruct e; cbn in F; try tauto; cbn [visit] in H; try discriminate H.
      * destruct t; discriminate H.
      * unfold invalid_type in H. injection H as <-. apply (ObHere (EvBytes l) (lit "byte array")); [left; eauto | constructor].
      * unfold invalid_type in H. injection H as <-. apply (ObHere EvEnum (lit "enum")); [tauto | constructor].
      * injection H as <-. constructor.
    + cbn [visit] in H. constructor. auto.
    + cbn [visit] in H. unfold invalid_type in H. injection H as <-. apply (ObHere (EvNewtype e) (lit "newtype struct")); [right; left; eauto | constructor].
    + cbn [visit] in H. change (visit_elems visit l) with (elems_loop visit [] l) in H. destruct (elems_loop visit [] l) as [r|z] eqn:E; [discriminate H|]. injection H as ->.
      apply elems_err in E as (l1 & e & l2 & -> & G & E). apply ObSeq; [intros x Hx U; destruct (G x Hx) as (v & V); exact (visit_unreadable _ U _ V)|].
      apply IH; auto. apply in_or_app. right; left; reflexivity.
    + cbn [visit] in H. change (visit_entries visit m) with (eentries_loop visit [] m) in H. destruct (eentries_loop visit [] m) as [r|z] eqn:E; [discriminate H|]. injection H as ->.
      apply eentries_err in E as (m1 & k & e & m2 & h & -> & G & D). apply entries_readable in G. destruct D as [D|(s & K & D)].
      * apply ObKey; auto. now apply visit_key_err_iff.
      * apply (ObVal m1 k s e m2); auto; [now apply visit_key_iff|]. apply (IH k e); auto. apply in_or_app. right; left; reflexivity.
  - induction 1 as [msg|e what D C|e msg O IH|l1 e l2 msg R O IH|m1 k e m2 msg R O|m1 k s e m2 msg R K O IH].
    + reflexivity.
    + apply called_iff in C as (-> & _). destruct D as [(l & ->)|[(e' & ->)| ->]]; reflexivity.
    + exact IH.
    + cbn [visit]. change (visit_elems visit (l1 ++ e :: l2)) with (elems_loop visit [] (l1 ++ e :: l2)).
      assert (F : exists vs, Forall2 (fun x v => visit x = Ok v) l1 vs).
      { clear - R. induction l1 as [|x l1 IH]; [exists []; constructor|]. destruct IH as (vs & F); [intros; apply R; right; auto|].
        destruct (visit_total x) as [(v & V)|U]; [exists (v :: vs); constructor; auto | destruct (R x (or_introl eq_refl) U)]. }
      destruct F as (vs & F). rewrite (elems_loop_app l1 e l2 vs [] F), IH. reflexivity.
    + cbn [visit]. change (visit_entries visit (m1 ++ (k, e) :: m2)) with (eentries_loop visit [] (m1 ++ (k, e) :: m2)).
      destruct (readable_map m1 R) as (h & F). destruct (eentries_app m1 h k e m2 [] F) as (acc & ->). apply visit_key_err_iff in O. now rewrite O.
    + cbn [visit]. change (visit_entries visit (m1 ++ (k, e) :: m2)) with (eentries_loop visit [] (m1 ++ (k, e) :: m2)).
      destruct (readable_map m1 R) as (h & F). destruct (eentries_app m1 h k e m2 [] F) as (acc & ->). apply visit_key_iff in K. rewrite K. cbn [rbind]. now rewrite IH.
Qed.
