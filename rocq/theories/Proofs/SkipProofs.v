(** Writing types with serde attributes (C133). *)
From Coq Require Import ZArith Bool String Lia.
From Coq Require Import List.
Import ListNotations.
From Verif.Model Require Import Text Num Flt Value Convert Serde Attributes SkipSer.
From Verif.Spec Require Import Spec Numerals SerdeSpec AttrSpec SkipSpec.
From Verif.Proofs Require Import Basics SerProofs DeProofs ReadAs RoundTrip Attrs BufferedTrips BufferedTripsMore StartProofs.
Local Open Scope Z_scope.

Section WtyInd.
  Variable P : wty -> Prop.
  Hypothesis HP : forall t, P (WPlain t).
  Hypothesis HO : forall a, P a -> P (WOption a).
  Hypothesis HS : forall a, P a -> P (WSeq a).
  Hypothesis HM : forall a, P a -> P (WMap a).
  Hypothesis HN : forall a, P a -> P (WNewtype a).
  Hypothesis HT : forall deny fs, (forall f, In f fs -> P (f_type (w_in f))) -> P (WStruct deny fs).
  Fixpoint wty_ind' (a : wty) : P a :=
    match a with
    | WPlain t => HP t
    | WOption a => HO a (wty_ind' a)
    | WSeq a => HS a (wty_ind' a)
    | WMap a => HM a (wty_ind' a)
    | WNewtype a => HN a (wty_ind' a)
    | WStruct deny fs => HT deny fs
        ((fix go (fs : list (wfield wty)) : forall f, In f fs -> P (f_type (w_in f)) :=
            match fs with
            | [] => fun f H => match H with end
            | g :: t => fun f H => match H with
                | or_introl E => eq_rect g (fun f => P (f_type (w_in f))) (wty_ind' (f_type (w_in g))) f E
                | or_intror H => go t f H
                end
            end) fs)
    end.
End WtyInd.

(** ** Everything written has distinct keys *)
Lemma puts_fresh es : forall acc, NoDup (map fst (acc ++ es)) -> puts acc es = acc ++ es.
Proof.
  induction es as [|[k x] es IH]; intros acc N; [now rewrite app_nil_r|]. change (puts acc ((k, x) :: es)) with (puts (minsert k x acc) es).
  rewrite minsert_keys_new; [rewrite IH, <- app_assoc; [reflexivity | now rewrite <- app_assoc]|]. rewrite map_app in N. apply NoDup_remove_2 in N. intros H. apply N. apply in_or_app. now left.
Qed.
Lemma puts_uniq es : forall acc, uniq (VMap acc) -> (forall k x, In (k, x) es -> uniq x) -> uniq (VMap (puts acc es)).
Proof.
  induction es as [|[k x] es IH]; intros acc U H; [exact U|]. change (puts acc ((k, x) :: es)) with (puts (minsert k x acc) es). apply IH; [|intros; apply (H k0); now right].
  inversion U as [? S| |? N W]; subst; [destruct S|]. apply UMap; [now apply minsert_nodup|]. intros k' y J.
  assert (K : (k' = k /\ y = x) \/ In (k', y) acc).
  { now apply minsert_In_inv. }
  destruct K as [[-> ->]|K]; [apply (H k); now left | eauto].
Qed.
Lemma uniq_empty : uniq (VMap []).
Proof. apply UMap; [constructor | intros ? ? []]. Qed.
Lemma seq_uniq {A} (s : A -> mres value) l v : (forall d, In d l -> forall v, s d = Done v -> uniq v) -> ser_seq s new_array l = Done v -> uniq v.
Proof.
  intros H E. change new_array with (VArr []) in E. apply ser_seq_inv in E as (vs & F & ->). apply UArr. intros y Hy. cbn [app] in Hy.
  destruct (Forall2_in_r _ _ _ _ F Hy) as (x & Hx & E). eauto.
Qed.
Lemma fields_uniq {A} (s : A -> mres value) fs v : (forall k d, In (k, d) fs -> forall v, s d = Done v -> uniq v) -> ser_fields s new_map fs = Done v -> uniq v.
Proof.
  intros H E. change new_map with (VMap []) in E. apply ser_fields_iff in E as (es & F & ->). apply puts_uniq; [exact uniq_empty|]. intros k y Hy.
  destruct (Forall2_in_r _ _ _ _ F Hy) as ([k' x] & Hx & _ & E). cbn [fst snd] in *. eauto.
Qed.
Lemma entries_uniq {A} (k s : A -> mres value) l v : (forall d, In d l -> forall v, s d = Done v -> uniq v) -> ser_map_entries k s l = Done v -> uniq v.
Proof.
  intros H E. apply ser_map_entries_iff in E as (es & F & ->). apply puts_uniq; [exact uniq_empty|]. intros k' y Hy.
  destruct (Forall2_in_r _ _ _ _ F Hy) as (x & Hx & _ & E). cbn [fst snd] in *. eauto.
Qed.
Lemma variant_uniq k x v : obind x (variant_map k) = Done v -> (forall y, x = Done y -> uniq y) -> uniq v.
Proof. intros E H. apply obind_done in E as (y & Hy & E). injection E as <-. apply UMap; [repeat constructor; intros [] | intros k' z [[= <- <-]|[]]; auto]. Qed.
Lemma int_uniq t z v : ser_int t z = Done v -> uniq v.
Proof. destruct t; cbn; intros [= <-]; constructor; exact I. Qed.
Lemma value_written_uniq u : forall v, ser_value u = Done v -> uniq v.
Proof.
  induction u as [u S|l IH|m IH] using value_ind'; intros v E.
  - destruct u; try destruct S; cbn in E; try discriminate; injection E as <-; constructor; exact I.
  - cbn [ser_value] in E. eapply seq_uniq; [|exact E]. eauto.
  - cbn [ser_value] in E. eapply entries_uniq; [|exact E]. intros [k x] Hx v' E'. cbn [snd] in *. eauto.
Qed.
Lemma ser_uniq d : forall v, ser d = Done v -> uniq v.
Proof.
  induction d as [d S|u|d IH|l IH|l IH|m IH|fs IH|d IH|l IH|k d IH|k l IH|k fs IH] using data_ind'; intros v E; cbn [ser] in E.
  - destruct d; try destruct S; cbn in E; try discriminate; try (injection E as <-; constructor; exact I).
    + eapply int_uniq; eauto.
    + assert (G : forall l acc v, ser_bytes_loop (VArr acc) l = Done v -> uniq (VArr acc) -> uniq v).
      { clear. induction l as [|b l IH]; intros acc v E N; cbn in E; [injection E as <-; exact N|]. apply (IH _ _ E). inversion N as [? S|? H|]; subst; [destruct S|].
        apply UArr. intros x Hx. apply in_app_or in Hx as [Hx|[<-|[]]]; [auto | constructor; exact I]. }
      apply (G _ _ _ E). apply UArr. intros x [].
  - now apply (value_written_uniq u).
  - eauto.
  - eapply seq_uniq; eauto.
  - eapply seq_uniq; eauto.
  - eapply entries_uniq; [|exact E]. intros [k x] Hx v' E'. cbn [snd] in *. apply (proj2 (IH _ _ Hx)); auto.
  - eapply fields_uniq; eauto.
  - eauto.
  - eapply seq_uniq; eauto.
  - eapply variant_uniq; eauto.
  - eapply variant_uniq; eauto. intros y Hy. eapply seq_uniq; eauto.
  - eapply variant_uniq; eauto. intros y Hy. eapply fields_uniq; eauto.
Qed.

(** ** What is written *)
Fixpoint outs (fs : list (wfield wty)) (l : list (str * data)) : list (wfield wty * data) :=
  match fs, l with
  | f :: fs', (_, x) :: l' => if w_skip f x then outs fs' l' else (f, x) :: outs fs' l'
  | _, _ => []
  end.
Lemma ser_w_struct deny fs l : ser_w (WStruct deny fs) (DStruct l) = ser_fields (fun x => x) new_map (map (fun e => (w_out (fst e), ser_w (f_type (w_in (fst e))) (snd e))) (outs fs l)).
Proof.
  cbn [ser_w]. f_equal. revert l. induction fs as [|f fs IH]; intros [|[n x] l]; try reflexivity. cbn [outs]. destruct (w_skip f x); [apply IH|]. cbn [map]. now rewrite <- IH.
Qed.
Lemma kept_outs fs l ks : List.length fs = List.length l -> (kept fs l ks <-> ks = outs fs l).
Proof.
  revert l ks. induction fs as [|f fs IH]; intros [|[n d] l] ks L; try discriminate L.
  - split; [intros H; now inversion H | intros ->; constructor].
  - injection L as L. cbn [outs]. split.
    + intros H. inversion H as [|? ? ? ? ? ? S K|? ? ? ? ? ks' S K]; subst; rewrite S; apply IH in K; auto; congruence.
    + intros ->. destruct (w_skip f d) eqn:S; [apply KpLeaveOut | apply KpKeep]; auto; now apply IH.
Qed.
Lemma outs_in fs l f d : In (f, d) (outs fs l) <-> exists n, In (f, (n, d)) (combine fs l) /\ w_skip f d = false.
Proof.
  revert l. induction fs as [|g fs IH]; intros [|[n x] l]; try (cbn; split; [intros [] | intros (? & [] & _)]). cbn [outs combine]. destruct (w_skip g x) eqn:S.
  - rewrite IH. split; intros (m & J & E); exists m; (split; [|exact E]); [now right|]. destruct J as [[= -> <- ->]|J]; [congruence | exact J].
  - cbn [In]. rewrite IH. split.
    + intros [[= -> ->]|(m & J & E)]; [exists n; split; [now left | exact S] | exists m; split; [now right | exact E]].
    + intros (m & [[= -> <- ->]|J] & E); [now left | right; eauto].
Qed.
Lemma outs_nodup fs l : NoDup (map (fun f => w_out f) fs) -> NoDup (map (fun e => w_out (fst e)) (outs fs l)).
Proof.
  revert l. induction fs as [|f fs IH]; intros [|[n x] l] N; try constructor. cbn [map] in N. inversion N as [|? ? N1 N2]; subst. cbn [outs]. destruct (w_skip f x); [auto|]. cbn [map]. constructor; [|auto].
  intros H. apply N1. apply in_map_iff in H as ([g d] & E & J). cbn [fst] in E. rewrite <- E. apply outs_in in J as (m & J & _). apply in_combine_l in J. apply (in_map (fun f => w_out f)) in J. exact J.
Qed.
Lemma Forall2_map_l {A B C} (g : A -> B) (R : B -> C -> Prop) l r : Forall2 R (map g l) r <-> Forall2 (fun a c => R (g a) c) l r.
Proof.
  split.
  - revert r. induction l as [|a l IH]; intros r H; inversion H; subst; constructor; auto.
  - intros H. induction H; constructor; auto.
Qed.
Lemma Forall2_iff_fst {A B} (R S : A -> B -> Prop) l r : (forall a b, In a l -> (R a b <-> S a b)) -> (Forall2 R l r <-> Forall2 S l r).
Proof. intros H. split; apply Forall2_impl_in; intros a b J; apply H; exact J. Qed.

Lemma map_keys {A} (P : A -> value -> Prop) (ks : list str) (ds : list A) m : List.length ks = List.length ds ->
  Forall2 (fun e x => fst e = DStr (fst x) /\ P (snd e) (snd x)) (combine (map DStr ks) ds) m -> map fst m = ks.
Proof.
  revert ds m. induction ks as [|k ks IH]; intros [|d ds] m L F; try discriminate L; inversion F as [|? [k' x] ? m' [E _] F']; subst; [reflexivity|]. cbn in E. injection E as <-. cbn. f_equal. eapply IH; eauto.
Qed.
Theorem writes_ok w : wproper w -> forall d v, datum w d -> (ser_w w d = Done v <-> writes w d v).
Proof.
  induction w as [t|w IH|w IH|w IH|w IH|deny fs IH] using wty_ind'; intros P d v D; inversion P; subst.
  - cbn. split; [now constructor | intros H; now inversion H].
  - inversion D as [|? |? d' D'| | | |]; subst; cbn [ser_w].
    + split; [intros [= <-]; constructor | intros H; inversion H; reflexivity].
    + rewrite IH by auto. split; [now constructor | intros H; now inversion H].
  - inversion D as [| | | |? l Fl| |]; subst. cbn [ser_w]. change new_array with (VArr []). rewrite Forall_forall in Fl. split.
    + intros E. apply ser_seq_inv in E as (vs & F & ->). cbn [app]. constructor. revert F. apply Forall2_impl_in. intros x y J. now apply IH; auto.
    + intros H. inversion H as [| | | |? ? r F| |]; subst. apply (ser_seq_done (ser_w w) l [] r). revert F. apply Forall2_impl_in. intros x y J. now apply IH; auto.
  - inversion D as [| | | | |? ks ds N L Fd|]; subst. cbn [ser_w]. rewrite Forall_forall in Fd.
    assert (Fm : forall es, Forall2 (fun e x => (exists kv, ser (fst e) = Done kv /\ into_string kv = Ok (fst x)) /\ ser_w w (snd e) = Done (snd x)) (combine (map DStr ks) ds) es
                   <-> Forall2 (fun e x => fst e = DStr (fst x) /\ writes w (snd e) (snd x)) (combine (map DStr ks) ds) es).
    { intros es. apply Forall2_iff_fst. intros [a b] x J. cbn [fst snd]. pose proof (in_combine_l _ _ _ _ J) as J1. apply in_combine_r in J. apply in_map_iff in J1 as (k & <- & _). rewrite IH by auto.
      split; intros [X Y]; (split; [|exact Y]); [destruct X as (kv & E1 & E2); injection E1 as <-; injection E2 as ->; reflexivity | injection X as ->; eexists; split; reflexivity]. }
    split.
    + intros E. apply ser_map_entries_iff in E as (es & F & ->). apply Fm in F. rewrite puts_fresh; [now constructor|]. cbn [app]. rewrite (map_keys _ _ _ _ L F). exact N.
    + intros H. inversion H as [| | | | |? ? m F|]; subst. apply ser_map_entries_iff. exists m. split; [now apply Fm|]. rewrite puts_fresh; [reflexivity|]. cbn [app]. now rewrite (map_keys _ _ _ _ L F).
  - inversion D as [| | |? d' D'| | |]; subst. cbn [ser_w]. rewrite IH by auto. split; [now constructor | intros H; now inversion H].
  - inversion D as [| | | | | |? ? l Fl]; subst. rewrite ser_w_struct. change new_map with (VMap []).
    assert (L : List.length fs = List.length l) by (clear - Fl; induction Fl; cbn; congruence).
    assert (Da : forall f x, In (f, x) (outs fs l) -> In f fs /\ datum (f_type (w_in f)) x).
    { intros f x J. apply outs_in in J as (n & J & _). clear - J Fl. induction Fl as [|g e fs l [E Dg] _ IH]; [destruct J|]. destruct J as [[= -> ->]|J]; [split; [now left | exact Dg]|]. destruct (IH J). split; [now right | auto]. }
    assert (Fm : forall m, Forall2 (fun e x => fst x = fst e /\ snd e = Done (snd x)) (map (fun e => (w_out (fst e), ser_w (f_type (w_in (fst e))) (snd e))) (outs fs l)) m
        <-> Forall2 (fun e x => fst x = w_out (fst e) /\ writes (f_type (w_in (fst e))) (snd e) (snd x)) (outs fs l) m).
    { intros m. rewrite Forall2_map_l. apply Forall2_iff_fst. intros [f x] y J. cbn [fst snd]. destruct (Da f x J). rewrite IH; auto. reflexivity. }
    assert (Ke : forall m, Forall2 (fun e x => fst x = w_out (fst e) /\ writes (f_type (w_in (fst e))) (snd e) (snd x)) (outs fs l) m -> map fst m = map (fun e => w_out (fst e)) (outs fs l)).
    { intros m. generalize (outs fs l). clear. intros o F. induction F as [|e x o m [E _] _ IHF]; [reflexivity|]. cbn. now rewrite E, IHF. }
    rewrite ser_fields_iff. split.
    + intros (m & F & ->). apply Fm in F. rewrite puts_fresh by (cbn [app]; rewrite (Ke m F); now apply outs_nodup). cbn [app]. apply (WrStruct deny fs l (outs fs l) m); [now apply kept_outs | exact F].
    + intros H. inversion H as [| | | | | |? ? ? ks m K F]; subst. apply (kept_outs fs l ks L) in K. subst ks. exists m. split; [now apply Fm|]. rewrite puts_fresh by (cbn [app]; rewrite (Ke m F); now apply outs_nodup). reflexivity.
Qed.

(** ** Reading back *)
Definition rf (f : wfield wty) : afield aty := Field (f_name (w_in f)) (f_aliases (w_in f)) (f_presence (w_in f)) (read_side (f_type (w_in f))).
Lemma read_side_struct deny fs : read_side (WStruct deny fs) = AStruct deny (map rf fs).
Proof. reflexivity. Qed.
Lemma rf_known f k : known (rf f) k <-> reads_key f k.
Proof. reflexivity. Qed.
Lemma read_side_proper w : wproper w -> aproper (read_side w).
Proof.
  induction w as [t|w IH|w IH|w IH|w IH|deny fs IH] using wty_ind'; intros P; inversion P as [| | | | |? ? N1 N2 X1 X2 X3]; subst; try (constructor; auto; fail).
  rewrite read_side_struct. apply ApStruct.
  - rewrite map_map. exact N2.
  - intros f g k Hf Hg Kf Kg. apply in_map_iff in Hf as (f' & <- & Hf). apply in_map_iff in Hg as (g' & <- & Hg). f_equal. exact (X1 f' g' k Hf Hg Kf Kg).
  - intros f Hf. apply in_map_iff in Hf as (f' & <- & Hf). cbn [f_type rf]. auto.
Qed.
Lemma writes_struct_keys deny fs l m : List.length fs = List.length l -> writes (WStruct deny fs) (DStruct l) (VMap m) ->
  Forall2 (fun e x => fst x = w_out (fst e) /\ writes (f_type (w_in (fst e))) (snd e) (snd x)) (outs fs l) m.
Proof. intros L H. inversion H as [| | | | | |? ? ? ks ? K F]; subst. apply (kept_outs fs l ks L) in K. now subst ks. Qed.
Lemma writes_uniq w : wproper w -> forall d v, datum w d -> writes w d v -> uniq v.
Proof.
  induction w as [t|w IH|w IH|w IH|w IH|deny fs IH] using wty_ind'; intros P d v D H; inversion P as [| | | | |? ? N1 N2 X1 X2 X3]; subst.
  - inversion H; subst. now apply (ser_uniq d).
  - inversion H; subst; [constructor; exact I|]. inversion D; subst. eauto.
  - inversion H as [| | | |? l r F| |]; subst. inversion D as [| | | |? ? Fl| |]; subst. rewrite Forall_forall in Fl. apply UArr. intros x Hx. destruct (Forall2_in_r _ _ _ _ F Hx) as (y & Hy & E). eauto.
  - inversion H as [| | | | |? l m F|]; subst. inversion D as [| | | | |? ks ds N L Fd|]; subst. rewrite Forall_forall in Fd. apply UMap; [now rewrite (map_keys _ _ _ _ L F)|].
    intros k x Hx. destruct (Forall2_in_r _ _ _ _ F Hx) as ([a y] & Hy & _ & E). apply in_combine_r in Hy. eauto.
  - inversion H; subst. inversion D; subst. eauto.
  - inversion H as [| | | | | |? ? l ks m K F]; subst. inversion D as [| | | | | |? ? ? Fl]; subst.
    assert (L : List.length fs = List.length l) by (clear - Fl; induction Fl; cbn; congruence).
    apply (kept_outs fs l ks L) in K. subst ks.
    assert (Ke : map fst m = map (fun e => w_out (fst e)) (outs fs l)).
    { clear - F. revert F. generalize (outs fs l). intros o F. induction F as [|e x o m [E _] _ IHF]; [reflexivity|]. cbn. now rewrite E, IHF. }
    apply UMap; [rewrite Ke; now apply outs_nodup|]. intros k x Hx. destruct (Forall2_in_r _ _ _ _ F Hx) as ([f y] & Hy & _ & E). cbn [fst snd] in E.
    apply outs_in in Hy as (n & Hy & _).
    assert (Dy : datum (f_type (w_in f)) y).
    { clear - Hy Fl. induction Fl as [|g e fs l [E Dg] _ IHf]; [destruct Hy|]. destruct Hy as [[= -> ->]|Hy]; [exact Dg | auto]. }
    apply in_combine_l in Hy. eauto.
Qed.
Lemma combine_fun {A B} (fs : list A) (l : list B) f a b : NoDup fs -> In (f, a) (combine fs l) -> In (f, b) (combine fs l) -> a = b.
Proof.
  revert l. induction fs as [|g fs IH]; intros [|e l] N; cbn; try tauto. inversion N as [|? ? N1 N2]; subst.
  intros [Ea|Ha] [Eb|Hb]; [congruence|injection Ea as -> _|injection Eb as -> _|eauto]; exfalso; apply N1.
  - now apply in_combine_l in Hb.
  - now apply in_combine_l in Ha.
Qed.
Lemma Forall2_combine {A B} (R : A -> B -> Prop) l r : Forall2 R l r <-> List.length l = List.length r /\ forall a b, In (a, b) (combine l r) -> R a b.
Proof.
  split.
  - intros F. split; [induction F; cbn; congruence|]. induction F as [|a b l r H F IH]; cbn; [tauto|]. intros x y [[= <- <-]|J]; auto.
  - intros [L H]. revert r L H. induction l as [|a l IH]; intros [|b r] L H; try discriminate L; constructor.
    + apply H. now left.
    + apply IH; [now injection L | intros; apply H; now right].
Qed.
Lemma writes_fun w d v v' : wproper w -> datum w d -> writes w d v -> writes w d v' -> v = v'.
Proof. intros P D H H'. apply writes_ok in H, H'; auto. congruence. Qed.
Lemma Forall2_iff_in2 {A B} (R S : A -> B -> Prop) l r : (forall a b, In (a, b) (combine l r) -> (R a b <-> S a b)) -> (Forall2 R l r <-> Forall2 S l r).
Proof. intros H. rewrite !Forall2_combine. split; intros [L F]; (split; [exact L|]); intros a b J; apply (H a b J); auto. Qed.

Theorem back_ok w : wproper w -> forall d v, datum w d -> writes w d v -> (areads (read_side w) v d <-> comes_back w d).
Proof.
  induction w as [t|w IH|w IH|w IH|w IH|deny fs IH] using wty_ind'; intros P d v D H; inversion P as [| | | | |? ? N1 N2 X1 X2 X3]; subst.
  - inversion H as [? ? ? E| | | | | |]; subst. cbn [read_side]. split.
    + intros A. inversion A; subst. constructor. intros v' E'. congruence.
    + intros A. inversion A; subst. constructor. auto.
  - inversion H as [|? |? d' ? H'| | | |]; subst; cbn [read_side].
    + split; intros _; constructor.
    + inversion D as [| |? ? D'| | | |]; subst. split.
      * intros A. inversion A as [| |? ? ? Nn A'| | | |]; subst. constructor; [now apply (IH ltac:(assumption) _ v)|]. intros W. apply Nn. now apply (writes_fun w d').
      * intros A. inversion A as [| |? ? A' Nn| | | |]; subst. apply ArSome; [intros ->; auto | now apply IH].
  - inversion H as [| | | |? l r F| |]; subst. inversion D as [| | | |? ? Fl| |]; subst. rewrite Forall_forall in Fl. cbn [read_side]. split.
    + intros A. inversion A as [| | | |? ? ? FA| |]; subst. constructor. rewrite Forall_forall. intros x Hx.
      match goal with X : wproper w |- _ => rename X into Pw end. clear - F FA Hx IH Fl Pw. revert r F FA. induction l as [|y l IHl]; intros r F FA; [destruct Hx|]. inversion F; inversion FA; subst. match goal with X : _ :: _ = _ :: _ |- _ => injection X as -> -> end.
      destruct Hx as [->|Hx]; [eapply IH; eauto; apply Fl; now left | eapply IHl; eauto; intros; apply Fl; now right].
    + intros A. inversion A as [| | | |? ? FA| |]; subst. rewrite Forall_forall in FA. constructor. 
      match goal with X : wproper w |- _ => rename X into Pw end. clear - F FA IH Fl Pw. induction F as [|y x l r E F IHl]; constructor; [apply IH; auto; [apply Fl | apply FA]; now left | apply IHl; intros; [apply Fl | apply FA]; now right].
  - inversion H as [| | | | |? l m F|]; subst. inversion D as [| | | | |? ks ds N L Fd|]; subst. cbn [read_side].
    assert (Fe : forall e, In e (combine (map DStr ks) ds) -> datum w (snd e)) by (intros [a b] J; apply in_combine_r in J; rewrite Forall_forall in Fd; auto).
    match goal with X : wproper w |- _ => rename X into Pw end. clear - IH Pw F Fe. revert F Fe. generalize (combine (map DStr ks) ds). intros l F Fe. split.
    + intros A. inversion A as [| | | | |? ? ? FA|]; subst. constructor. rewrite Forall_forall. intros x Hx. revert m F FA A. induction l as [|y l IHl]; intros m F FA A; [destruct Hx|].
      inversion F as [|? e ? m' [E1 E2] F']; inversion FA as [|? ? ? ? [E3 E4] FA']; subst. match goal with X : _ :: _ = _ :: _ |- _ => injection X as -> -> end.
      destruct Hx as [->|Hx]; [eapply IH; eauto; apply Fe; now left | eapply IHl; eauto; [intros; apply Fe; now right | now constructor]].
    + intros A. inversion A as [| | | | |? ? FA|]; subst. rewrite Forall_forall in FA. constructor.
      clear - F FA IH Fe Pw. induction F as [|y x l r [E1 E2] F IHl]; constructor; [split; [exact E1|]; apply IH; auto; [apply Fe | apply FA]; now left | apply IHl; intros; [apply Fe | apply FA]; now right].
  - inversion H as [| | |? d' ? H'| | |]; subst. inversion D as [| | |? ? D'| | |]; subst. cbn [read_side]. split; intros A; inversion A; subst; constructor; eapply IH; eauto.
  - inversion D as [| | | | | |? ? l Fl]; subst. assert (exists m, v = VMap m) as (m & ->) by (inversion H; eauto).
    assert (L : List.length fs = List.length l) by (clear - Fl; induction Fl; cbn; congruence).
    pose proof (writes_struct_keys deny fs l m L H) as F. rewrite read_side_struct.
    assert (Nf : NoDup fs) by (apply (NoDup_map_inv (fun f => w_out f)); exact N1).
    assert (In1 : forall k x, In (k, x) m -> exists f n d, In (f, (n, d)) (combine fs l) /\ w_skip f d = false /\ k = w_out f /\ writes (f_type (w_in f)) d x).
    { intros k x J. destruct (Forall2_in_r _ _ _ _ F J) as ([f d] & J' & E & W). cbn [fst snd] in *. apply outs_in in J' as (n & J' & S). exists f, n, d. auto. }
    assert (In2 : forall f n d, In (f, (n, d)) (combine fs l) -> w_skip f d = false -> exists x, In (w_out f, x) m /\ writes (f_type (w_in f)) d x).
    { intros f n d J S. assert (J' : In (f, d) (outs fs l)) by (apply outs_in; eauto). destruct (Forall2_in_l _ _ _ _ F J') as ([k x] & J2 & E & W). cbn [fst snd] in *. subst k. eauto. }
    assert (Dd : forall f n d, In (f, (n, d)) (combine fs l) -> n = f_name (w_in f) /\ datum (f_type (w_in f)) d).
    { intros f n d J. apply Forall2_combine in Fl as [_ Fl]. exact (Fl _ _ J). }
    assert (Un : forall f n d, In (f, (n, d)) (combine fs l) -> (w_skip f d = true \/ ~ reads_key f (w_out f)) <-> unmentioned (VMap m) (rf f)).
    { intros f n d J. split.
      - intros Q k K x (m' & [= <-] & J'). apply In1 in J' as (g & n' & d' & Jg & S & -> & W). assert (f = g) as <- by (apply (X2 f g); eauto using in_combine_l).
        pose proof (combine_fun _ _ _ _ _ Nf J Jg) as [= <- <-]. destruct Q as [Q|Q]; [congruence | exact (Q K)].
      - intros U. destruct (w_skip f d) eqn:S; [now left|]. right. intros K. destruct (In2 _ _ _ J S) as (x & Jx & _). apply (U _ K x). exists m. auto. }
    assert (Fi : Forall2 (fun (f : afield aty) d => fst d = f_name f /\
      ((exists k x, known f k /\ holds (VMap m) k x /\ areads (f_type f) x (snd d))
       \/ (f_presence f = Skipped (snd d))
       \/ (unmentioned (VMap m) f /\ f_presence f = Defaulted (snd d))
       \/ (unmentioned (VMap m) f /\ f_presence f = Required /\ optional (f_type f) /\ snd d = DNone))) (map rf fs) l <->
      Forall2 (fun f e => (w_skip f (snd e) = false /\ reads_key f (w_out f) /\ comes_back (f_type (w_in f)) (snd e))
                        \/ ((w_skip f (snd e) = true \/ ~ reads_key f (w_out f)) /\ value_if_absent f (snd e))) fs l).
    { rewrite Forall2_map_l. apply Forall2_iff_in2. intros f [n d] J. cbn [fst snd]. destruct (Dd f n d J) as [Ed Dy]. pose proof (in_combine_l _ _ _ _ J) as Jf. rewrite (Un f n d J). split.
      - intros (_ & [(k & x & K & (m' & [= <-] & J') & A)|[Q|[[U Q]|(U & Q1 & Q2 & Q3)]]]).
        + left. apply In1 in J' as (g & n' & d' & Jg & S & -> & W). assert (f = g) as <- by (apply (X2 f g); eauto using in_combine_l).
          pose proof (combine_fun _ _ _ _ _ Nf J Jg) as [= <- <-]. split; [exact S|]. split; [exact K|]. cbn [rf f_type] in A. eapply IH; eauto.
        + right. split; [intros k [_ K]; now destruct (K d) | now left].
        + right. split; [exact U | right; now left].
        + right. split; [exact U | right; right; auto].
      - intros Q. split; [exact Ed|]. destruct Q as [(S & K & C)|(U & [Q|[Q|(Q1 & Q2 & Q3)]])].
        + left. destruct (In2 _ _ _ J S) as (x & Jx & W). exists (w_out f), x. split; [exact K|]. split; [exists m; auto|]. apply IH; auto.
        + right. now left.
        + right. right. left. auto.
        + right. right. right. auto. }
    assert (Tw : forall f k k', In f (map rf fs) -> known f k -> known f k' -> In k (map fst m) -> In k' (map fst m) -> k = k').
    { intros f k k' Jf K K' M M'. apply in_map_iff in Jf as (f' & <- & Jf). apply in_map_iff in M as ([? x] & <- & M). apply in_map_iff in M' as ([? x'] & <- & M'). cbn [fst] in *.
      apply In1 in M as (g & ? & ? & Jg & _ & -> & _). apply In1 in M' as (g' & ? & ? & Jg' & _ & -> & _). rewrite <- (X2 f' g), <- (X2 f' g'); eauto using in_combine_l. }
    assert (De : (forall expected k, deny = Some expected -> In k (map fst m) -> exists f, In f (map rf fs) /\ known f k) <->
                 (deny = None \/ Forall2 (fun f e => w_skip f (snd e) = true \/ reads_key f (w_out f)) fs l)).
    { split.
      - intros Q. destruct deny as [ex|]; [|now left]. right. apply Forall2_combine. split; [exact L|]. intros f [n d] J. cbn [snd]. destruct (w_skip f d) eqn:S; [now left|]. right.
        destruct (In2 _ _ _ J S) as (x & Jx & _). destruct (Q ex (w_out f) eq_refl) as (g & Jg & K); [now apply (in_map fst) in Jx|]. apply in_map_iff in Jg as (g' & <- & Jg).
        assert (g' = f) as -> by (apply (X2 g' f); eauto using in_combine_l). exact K.
      - intros [->|Q] ex k E M; [discriminate E|]. apply in_map_iff in M as ([? x] & <- & M). cbn [fst]. apply In1 in M as (g & n & d & Jg & S & -> & _). apply Forall2_combine in Q as [_ Q]. specialize (Q _ _ Jg). cbn [snd] in Q.
        exists (rf g). split; [apply in_map; now apply in_combine_l in Jg | destruct Q as [Q|Q]; [congruence | exact Q]]. }
    split.
    + intros A. inversion A as [| | | | | |? ? ? ? A1 A2 A3]; subst. apply CbStruct; [now apply Fi | now apply De].
    + intros A. inversion A as [| | | | | |? ? ? A1 A2]; subst. apply ArStruct; [now apply De | exact Tw | now apply Fi].
Qed.
