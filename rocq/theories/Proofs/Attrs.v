(** Types with serde attributes read and refuse exactly as specified (C96). *)
From Coq Require Import ZArith Bool String Lia.
From Coq Require Import List.
Import ListNotations.
From Verif.Model Require Import Text Num Flt Value Convert Serde Attributes.
From Verif.Spec Require Import Spec Numerals SerdeSpec AttrSpec.
From Verif.Proofs Require Import Basics SerProofs DeProofs ReadAs.
Local Open Scope Z_scope.

Section AtyInd.
  Variable P : aty -> Prop.
  Hypothesis HP : forall t, P (APlain t).
  Hypothesis HO : forall a, P a -> P (AOption a).
  Hypothesis HS : forall a, P a -> P (ASeq a).
  Hypothesis HM : forall a, P a -> P (AMap a).
  Hypothesis HN : forall a, P a -> P (ANewtype a).
  Hypothesis HT : forall deny fs, (forall f, In f fs -> P (f_type f)) -> P (AStruct deny fs).
  Fixpoint aty_ind' (a : aty) : P a :=
    match a with
    | APlain t => HP t
    | AOption a => HO a (aty_ind' a)
    | ASeq a => HS a (aty_ind' a)
    | AMap a => HM a (aty_ind' a)
    | ANewtype a => HN a (aty_ind' a)
    | AStruct deny fs => HT deny fs
        ((fix go (fs : list (afield aty)) : forall f, In f fs -> P (f_type f) :=
            match fs with
            | [] => fun f H => match H with end
            | g :: t => fun f H => match H with
                | or_introl E => eq_rect g (fun f => P (f_type f)) (aty_ind' (f_type g)) f E
                | or_intror H => go t f H
                end
            end) fs)
    end.
End AtyInd.

Lemma answers_known {A} k (f : afield A) : answers k f = true <-> known f k.
Proof.
  unfold answers, known, skipped. rewrite andb_true_iff, negb_true_iff. cbn [existsb]. rewrite orb_true_iff, str_eqb_eq, existsb_exists.
  assert (E : (exists x, In x (f_aliases f) /\ str_eqb k x = true) <-> In k (f_aliases f)).
  { split; [intros (x & H & ->%str_eqb_eq); auto | intros H; exists k; now rewrite str_eqb_refl]. }
  rewrite E. destruct (f_presence f) as [|d|d]; split.
  - intros [_ H]. split; [exact H | discriminate].
  - intros [H _]. auto.
  - intros [_ H]. split; [exact H | discriminate].
  - intros [H _]. auto.
  - intros [[=] _].
  - intros [_ H]. exfalso. eapply H. reflexivity.
Qed.

(** A struct's fields, their readers [rd] and the derived slots. *)
Section Struct.
  Variables (deny : option (list str)) (fs : list (afield aty)) (rd : aty -> value -> mres data).
  Hypothesis ND : NoDup (map f_name fs).
  Hypothesis Un : forall f g k, In f fs -> In g fs -> known f k -> known g k -> f = g.

  Definition mk (f : afield aty) : slot := Field (f_name f) (f_aliases f) (f_presence f) (a_is_option (f_type f), rd (f_type f)).
  Definition slots := map mk fs.

  Lemma find_slot k : find (answers k) slots = option_map mk (find (answers k) fs).
  Proof. unfold slots. clear. induction fs as [|f l IH]; [reflexivity|]. cbn [map find]. change (answers k (mk f)) with (answers k f). destruct (answers k f); auto. Qed.
  Lemma find_some k f : In f fs -> known f k -> find (answers k) fs = Some f.
  Proof.
    intros H K. destruct (find (answers k) fs) as [g|] eqn:E.
    - apply find_some in E as [Hg Kg%answers_known]. f_equal. eauto.
    - apply (find_none _ _ E) in H. apply answers_known in K. congruence.
  Qed.
  Lemma find_none' k : find (answers k) fs = None <-> forall f, In f fs -> ~ known f k.
  Proof.
    split.
    - intros E f H K. rewrite (find_some k f H K) in E. discriminate.
    - intros H. destruct (find (answers k) fs) as [g|] eqn:E; auto. apply List.find_some in E as [Hg Kg%answers_known]. destruct (H g Hg Kg).
  Qed.
  Lemma name_inj f g : In f fs -> In g fs -> f_name f = f_name g -> f = g.
  Proof.
    clear Un. revert ND. induction fs as [|a l IH]; cbn; [tauto|]. intros N. inversion N as [|? ? N1 N2]; subst.
    intros [->|Hf] [->|Hg] E; auto; exfalso; apply N1; [rewrite E | rewrite <- E]; now apply in_map.
  Qed.

  Definition readable (m : vmap) : Prop :=
    (forall k x f, In (k, x) m -> In f fs -> known f k -> exists d, rd (f_type f) x = Done d) /\
    (forall expected k, deny = Some expected -> In k (map fst m) -> exists f, In f fs /\ known f k) /\
    (forall f k k', In f fs -> known f k -> known f k' -> In k (map fst m) -> In k' (map fst m) -> k = k').
  Definition inv (m : vmap) (filled : list (str * data)) : Prop := forall f, In f fs ->
    match mget (f_name f) filled with
    | Some d => exists k x, In (k, x) m /\ known f k /\ rd (f_type f) x = Done d
    | None => forall k, known f k -> ~ In k (map fst m)
    end.
  Lemma inv_nil : inv [] [].
  Proof. intros f _. cbn. auto. Qed.

  Lemma readable_app m1 m2 : readable (m1 ++ m2) -> readable m1.
  Proof.
    intros (R1 & R2 & R3). split; [|split].
    - intros k x f H. apply (R1 k x f). apply in_or_app; auto.
    - intros ex k E H. apply (R2 ex k E). rewrite map_app. apply in_or_app; auto.
    - intros f k k' Hf K K' H H'. apply (R3 f); auto; rewrite map_app; apply in_or_app; auto.
  Qed.

  (** One readable entry. *)
  Lemma loop_step m0 k x rest filled : ~ In k (map fst m0) -> inv m0 filled -> readable (m0 ++ [(k, x)]) ->
    exists filled', inv (m0 ++ [(k, x)]) filled' /\ attr_loop deny slots ((k, x) :: rest) filled = attr_loop deny slots rest filled'.
  Proof.
    intros Fr I (R1 & R2 & R3). cbn [attr_loop]. rewrite find_slot.
    assert (Hin : In (k, x) (m0 ++ [(k, x)])) by (apply in_or_app; cbn; auto).
    assert (Hk : In k (map fst (m0 ++ [(k, x)]))) by (apply (in_map fst) in Hin; exact Hin).
    destruct (find (answers k) fs) as [f|] eqn:E; cbn [option_map].
    - pose proof E as E'. apply List.find_some in E' as [Hf K%answers_known]. destruct (R1 k x f Hin Hf K) as (d & D).
      cbn [mk f_name f_type snd]. pose proof (I f Hf) as If. destruct (mget (f_name f) filled) as [d0|] eqn:G.
      + exfalso. destruct If as (k' & x' & H' & K' & _). apply Fr.
        assert (k = k') as ->; [|apply (in_map fst) in H'; exact H'].
        apply (R3 f); auto. rewrite map_app. apply in_or_app. left. apply (in_map fst) in H'; exact H'.
      + rewrite D. cbn [obind]. eexists. split; [|reflexivity]. intros g Hg. rewrite mget_minsert.
        destruct (str_eqb_spec (f_name g) (f_name f)) as [En|En].
        * rewrite (name_inj g f Hg Hf En). eauto 10.
        * specialize (I g Hg). destruct (mget (f_name g) filled) as [dg|].
          -- destruct I as (k' & x' & H' & K' & Dg). exists k', x'. split; [apply in_or_app; auto | auto].
          -- intros k' K' H'. rewrite map_app, in_app_iff in H'. destruct H' as [H'|[<-|[]]]; [apply (I k' K' H')|].
             apply En. f_equal. apply (Un g f k); auto.
    - assert (Nk : forall f, In f fs -> ~ known f k) by now apply find_none'.
      assert (Dn : deny = None).
      { destruct deny as [ex|]; auto. destruct (R2 ex k eq_refl Hk) as (f & Hf & K). destruct (Nk f Hf K). }
      rewrite Dn. rewrite ignored_any_done. cbn [obind]. exists filled. split; [|reflexivity].
      intros g Hg. specialize (I g Hg). destruct (mget (f_name g) filled) as [dg|].
      + destruct I as (k' & x' & H' & K' & Dg). exists k', x'. split; [apply in_or_app; auto | auto].
      + intros k' K' H'. rewrite map_app, in_app_iff in H'. destruct H' as [H'|[<-|[]]]; [apply (I k' K' H') | apply (Nk g Hg K')].
  Qed.
  Lemma loop_forward m1 : forall m0 filled rest, NoDup (map fst (m0 ++ m1)) -> inv m0 filled -> readable (m0 ++ m1) ->
    exists filled', inv (m0 ++ m1) filled' /\ attr_loop deny slots (m1 ++ rest) filled = attr_loop deny slots rest filled'.
  Proof.
    induction m1 as [|[k x] m1 IH]; intros m0 filled rest Nd I R.
    - exists filled. rewrite app_nil_r. auto.
    - assert (E : m0 ++ (k, x) :: m1 = (m0 ++ [(k, x)]) ++ m1) by (rewrite <- app_assoc; reflexivity). rewrite E in Nd, R |- *.
      destruct (loop_step m0 k x (m1 ++ rest) filled) as (f1 & I1 & E1); auto.
      + rewrite <- app_assoc, map_app in Nd. cbn in Nd. intros H. apply NoDup_remove_2 in Nd. apply Nd. apply in_or_app; auto.
      + now apply readable_app in R.
      + destruct (IH _ f1 rest Nd I1 R) as (f2 & I2 & E2). exists f2. split; auto. cbn [app]. congruence.
  Qed.

  (** Where the entries first go wrong. *)
  Inductive bad (m1 : vmap) (k : str) (x : value) : mres (list (str * data)) -> Prop :=
  | BadValue f e : In f fs -> known f k -> (forall k', known f k' -> ~ In k' (map fst m1)) -> rd (f_type f) x = Fail e -> bad m1 k x (Fail e)
  | BadPanic f : In f fs -> known f k -> (forall k', known f k' -> ~ In k' (map fst m1)) -> rd (f_type f) x = Panic -> bad m1 k x Panic
  | BadTwice f k' : In f fs -> known f k -> known f k' -> In k' (map fst m1) ->
      bad m1 k x (Fail (EDeserialization (lit "duplicate field `" ++ f_name f ++ lit "`")))
  | BadUnknown expected : deny = Some expected -> (forall f, In f fs -> ~ known f k) -> bad m1 k x (unknown_field k expected).
  Lemma loop_bad m1 k x m2 r : NoDup (map fst (m1 ++ (k, x) :: m2)) -> readable m1 -> bad m1 k x r ->
    attr_loop deny slots (m1 ++ (k, x) :: m2) [] = r.
  Proof.
    intros Nd R B. assert (Nd1 : NoDup (map fst m1)).
    { rewrite map_app in Nd. clear - Nd. induction (map fst m1) as [|a l IH]; [constructor|]. cbn in Nd. inversion Nd as [|? ? N1 N2]; subst.
      constructor; [intros H; apply N1; apply in_or_app; auto | auto]. }
    destruct (loop_forward m1 [] [] ((k, x) :: m2) Nd1 inv_nil R) as (filled & I & ->).
    cbn [attr_loop app]. rewrite find_slot.
    destruct B as [f e Hf K Fr D|f Hf K Fr D|f k' Hf K K' H'|ex Dn N].
    - rewrite (find_some k f Hf K). cbn [option_map mk f_name f_type snd]. specialize (I f Hf).
      destruct (mget (f_name f) filled); [destruct I as (k' & x' & H' & K' & _); destruct (Fr k' K'); apply (in_map fst) in H'; exact H'|].
      rewrite D. reflexivity.
    - rewrite (find_some k f Hf K). cbn [option_map mk f_name f_type snd]. specialize (I f Hf).
      destruct (mget (f_name f) filled); [destruct I as (k' & x' & H' & K' & _); destruct (Fr k' K'); apply (in_map fst) in H'; exact H'|].
      rewrite D. reflexivity.
    - rewrite (find_some k f Hf K). cbn [option_map mk f_name f_type snd]. specialize (I f Hf).
      destruct (mget (f_name f) filled); [reflexivity|]. destruct (I k' K' H').
    - apply find_none' in N. rewrite N, Dn. reflexivity.
  Qed.
  Lemma first_bad m : NoDup (map fst m) -> readable m \/ exists m1 k x m2 r, m = m1 ++ (k, x) :: m2 /\ readable m1 /\ bad m1 k x r.
  Proof.
    induction m as [|[k x] m IH] using rev_ind; intros Nd.
    - left. split; [|split]; intros; cbn in *; tauto.
    - assert (Nd1 : NoDup (map fst m) /\ ~ In k (map fst m)).
      { rewrite map_app in Nd. cbn in Nd. apply NoDup_remove in Nd. rewrite app_nil_r in Nd. auto. }
      destruct Nd1 as [Nd1 Fr]. destruct (IH Nd1) as [R|(m1 & k1 & x1 & m2 & r & -> & R & B)];
        [|right; exists m1, k1, x1, (m2 ++ [(k, x)]), r; split; [now rewrite <- app_assoc | auto]].
      assert (Mk : forall r, bad m k x r -> exists m1 k0 x0 m2 r, m ++ [(k, x)] = m1 ++ (k0, x0) :: m2 /\ readable m1 /\ bad m1 k0 x0 r) by eauto 10.
      destruct (find (answers k) fs) as [f|] eqn:E.
      + apply List.find_some in E as [Hf K%answers_known].
        destruct (existsb (fun e => answers (fst e) f) m) eqn:Ex.
        * right. apply existsb_exists in Ex as ([k' x'] & H' & K'%answers_known). apply (Mk _ (BadTwice m k x f k' Hf K K' (in_map fst _ _ H'))).
        * assert (Fk : forall k', known f k' -> ~ In k' (map fst m)).
          { intros k' K' H'. apply in_map_iff in H' as ([k2 x2] & <- & H'). cbn in K'. apply answers_known in K'.
            assert (X : existsb (fun e => answers (fst e) f) m = true) by (apply existsb_exists; eauto). congruence. }
          destruct (rd (f_type f) x) as [d|e|] eqn:D; [|right; apply (Mk _ (BadValue m k x f e Hf K Fk D)) | right; apply (Mk _ (BadPanic m k x f Hf K Fk D))].
          left. destruct R as (R1 & R2 & R3). split; [|split].
          -- intros k' x' g H Hg Kg. apply in_app_iff in H as [H|[[= <- <-]|[]]]; [eauto|]. rewrite (Un g f k); eauto.
          -- intros ex k' Dn H. rewrite map_app, in_app_iff in H. destruct H as [H|[<-|[]]]; eauto.
          -- intros g k1 k2 Hg K1 K2 H1 H2. rewrite map_app, in_app_iff in H1, H2. cbn in H1, H2.
             destruct H1 as [H1|[<-|[]]], H2 as [H2|[<-|[]]]; auto; [eauto| |];
               (assert (g = f) as -> by (apply (Un g f k); auto)); exfalso; [apply (Fk k1 K1 H1) | apply (Fk k2 K2 H2)].
      + rewrite find_none' in E. destruct deny as [ex|] eqn:Dn.
        * right. apply (Mk (unknown_field k ex)). now apply BadUnknown.
        * left. destruct R as (R1 & R2 & R3). split; [|split].
          -- intros k' x' g H Hg Kg. apply in_app_iff in H as [H|[[= <- <-]|[]]]; [eauto|]. destruct (E g Hg Kg).
          -- intros ex k' Dn'. congruence.
          -- intros g k1 k2 Hg K1 K2 H1 H2. rewrite map_app, in_app_iff in H1, H2. cbn in H1, H2.
             destruct H1 as [H1|[<-|[]]], H2 as [H2|[<-|[]]]; auto; [eauto| |]; exfalso; eapply E; eauto.
  Qed.

  (** Absent fields. *)
  Definition fills (m : vmap) (f : afield aty) (d : data) : Prop :=
    (exists k x, known f k /\ In (k, x) m /\ rd (f_type f) x = Done d)
    \/ f_presence f = Skipped d
    \/ ((forall k, known f k -> ~ In k (map fst m)) /\ f_presence f = Defaulted d)
    \/ ((forall k, known f k -> ~ In k (map fst m)) /\ f_presence f = Required /\ a_is_option (f_type f) = true /\ d = DNone).
  Lemma skipped_unknown (f : afield aty) d k : f_presence f = Skipped d -> ~ known f k.
  Proof. intros E [_ N]. exact (N d E). Qed.
  Lemma fills_iff m filled f d : NoDup (map fst m) -> readable m -> inv m filled -> In f fs ->
    (match mget (f_name f) filled with Some d => Done d | None => absent (mk f) end = Done d <-> fills m f d).
  Proof.
    intros Nd (_ & _ & R3) I Hf. specialize (I f Hf). destruct (mget (f_name f) filled) as [d0|] eqn:G.
    - destruct I as (k & x & H & K & D). split.
      + intros [= <-]. left. eauto.
      + intros [(k' & x' & K' & H' & D')|[S|[[N _]|[N _]]]].
        * assert (k = k') as <- by (apply (R3 f); auto; [apply (in_map fst) in H | apply (in_map fst) in H']; assumption).
          assert (x = x') as <-; [|congruence]. apply (mget_iff k x m Nd) in H. apply (mget_iff k x' m Nd) in H'. congruence.
        * destruct (skipped_unknown f d k S K).
        * destruct (N k K). apply (in_map fst) in H; exact H.
        * destruct (N k K). apply (in_map fst) in H; exact H.
    - unfold absent, mk. cbn [f_presence f_type f_name fst]. split.
      + destruct (f_presence f) as [|d1|d1] eqn:P.
        * destruct (a_is_option (f_type f)) eqn:O; [|discriminate]. intros [= <-]. right; right; right. auto.
        * intros [= <-]. right; right; left. auto.
        * intros [= <-]. right; left. auto.
      + intros [(k & x & K & H & _)|[S|[[_ S]|(_ & S & O & ->)]]].
        * destruct (I k K). apply (in_map fst) in H; exact H.
        * now rewrite S.
        * now rewrite S.
        * rewrite S, O. reflexivity.
  Qed.
  Lemma collect_iff m filled : NoDup (map fst m) -> readable m -> inv m filled -> forall l ds, (forall f, In f l -> In f fs) ->
    (attr_collect (map mk l) filled = Done ds <-> Forall2 (fun f d => fst d = f_name f /\ fills m f (snd d)) l ds).
  Proof.
    intros Nd R I l. induction l as [|f l IH]; intros ds Hl; cbn [map attr_collect].
    - split; [intros [= <-]; constructor | intros F; inversion F; reflexivity].
    - etransitivity; [apply obind_done|]. split.
      + intros (d & H1 & H2). apply obind_done in H2 as (ds' & H2 & [= <-]). constructor.
        * split; [reflexivity|]. apply (fills_iff m filled f); auto. apply Hl; cbn; auto.
        * apply IH; auto. intros; apply Hl; cbn; auto.
      + intros F. inversion F as [|? [n d] ? ds' [E H] F']; subst. cbn [fst snd] in E, H. subst n. exists d. split.
        * apply (fills_iff m filled f); auto. apply Hl; cbn; auto.
        * apply IH in F'; [|intros; apply Hl; cbn; auto]. cbn [mk f_name]. rewrite F'. reflexivity.
  Qed.
  Lemma absent_fail f e : absent (mk f) = Fail e <->
    f_presence f = Required /\ a_is_option (f_type f) = false /\ e = EDeserialization (lit "missing field `" ++ f_name f ++ lit "`").
  Proof.
    unfold absent, mk, de_fail. cbn [f_presence f_type f_name fst].
    destruct (f_presence f); [destruct (a_is_option (f_type f))| |]; split; intros H; try discriminate H; try (destruct H as (? & ? & ?); discriminate).
    - split; [reflexivity|]. split; [reflexivity|]. congruence.
    - destruct H as (_ & _ & ->). reflexivity.
  Qed.
  Lemma absent_no_panic f : absent (mk f) <> Panic.
  Proof. unfold absent, mk. cbn. destruct (f_presence f); try discriminate. destruct (a_is_option (f_type f)); discriminate. Qed.
  Lemma collect_fail m filled : inv m filled -> forall l e, (forall f, In f l -> In f fs) ->
    (attr_collect (map mk l) filled = Fail e <-> exists f1 f f2, l = f1 ++ f :: f2 /\
       (forall g, In g f1 -> (exists k, known g k /\ In k (map fst m)) \/ f_presence g <> Required \/ a_is_option (f_type g) = true) /\
       (forall k, known f k -> ~ In k (map fst m)) /\ f_presence f = Required /\ a_is_option (f_type f) = false /\
       e = EDeserialization (lit "missing field `" ++ f_name f ++ lit "`")).
  Proof.
    intros I l. induction l as [|f l IH]; intros e Hl; cbn [map attr_collect].
    - split; [discriminate | intros (f1 & f & f2 & E & _); destruct f1; discriminate].
    - pose proof (I f (Hl f (or_introl eq_refl))) as If. specialize (IH e (fun g H => Hl g (or_intror H))).
      etransitivity; [apply obind_fail|]. cbn [mk f_name]. split.
      + intros [H|(d & H1 & H2)].
        * destruct (mget (f_name f) filled) as [d0|]; [discriminate|]. apply absent_fail in H as (P & O & ->).
          exists [], f, l. split; [reflexivity|]. split; [intros g []|]. auto.
        * apply obind_fail in H2 as [H2|(ds & _ & [=])]. apply IH in H2 as (f1 & g & f2 & -> & A & B).
          exists (f :: f1), g, f2. split; [reflexivity|]. split; [|exact B]. intros h [<-|H]; [|auto].
          destruct (mget (f_name f) filled) as [d0|].
          -- left. destruct If as (k & x & H & K & _). exists k. split; auto. apply (in_map fst) in H; exact H.
          -- right. destruct (f_presence f) eqn:P; [|left; discriminate..]. right.
             destruct (a_is_option (f_type f)) eqn:O; auto. exfalso.
             assert (X : absent (mk f) = Fail (EDeserialization (lit "missing field `" ++ f_name f ++ lit "`"))) by (apply absent_fail; auto). congruence.
      + intros (f1 & g & f2 & E & A & B). destruct f1 as [|h f1].
        * injection E as <- <-. destruct B as (N & P & O & ->). left. destruct (mget (f_name f) filled) as [d0|].
          -- destruct If as (k & x & H & K & _). destruct (N k K). apply (in_map fst) in H; exact H.
          -- now apply absent_fail.
        * injection E as <- ->. right.
          assert (D : exists d, match mget (f_name f) filled with Some d => Done d | None => absent (mk f) end = Done d).
          { destruct (mget (f_name f) filled) as [d0|]; [eauto|]. destruct (absent (mk f)) as [d|e'|] eqn:Ab; [eauto| |destruct (absent_no_panic f Ab)].
            apply absent_fail in Ab as (P & O & _). destruct (A f (or_introl eq_refl)) as [(k & K & H)|[H|H]]; [destruct (If k K H) | congruence | congruence]. }
          destruct D as (d & D). exists d. split; [exact D|]. apply obind_fail. left. apply IH. exists f1, g, f2. split; [reflexivity|]. split; auto.
          intros; apply A; cbn; auto.
  Qed.
End Struct.

Lemma is_option_iff a : a_is_option a = true <-> optional a.
Proof.
  destruct a as [t|a|a|a|a|d fs]; cbn; split; try discriminate; try reflexivity.
  - intros H. destruct t; try discriminate. right. eauto.
  - intros [(b & [=])|(t' & [= ->])]. reflexivity.
  - intros _. left; eauto.
  - intros [(b & [=])|(t' & [=])].
  - intros [(b & [=])|(t' & [=])].
  - intros [(b & [=])|(t' & [=])].
  - intros [(b & [=])|(t' & [=])].
Qed.
Lemma not_option_iff a : a_is_option a = false <-> ~ optional a.
Proof. rewrite <- is_option_iff. destruct (a_is_option a); split; congruence || tauto. Qed.

Lemma tick_list_join ns s : tick_list ns s -> s = join_with (lit ", ") (map quoted ns).
Proof.
  induction 1 as [n|n ns s T IH]; [reflexivity|]. subst s. destruct ns as [|n' ns]; [inversion T|]. reflexivity.
Qed.
Lemma tick_list_ex ns : ns <> [] -> exists s, tick_list ns s.
Proof.
  induction ns as [|n ns IH]; [congruence|]. intros _. destruct ns as [|n' ns]; [eexists; constructor|].
  destruct IH as (s & H); [discriminate|]. eexists; constructor; exact H.
Qed.
Lemma unknown_text {A} k ex s : expected_names ex s ->
  @unknown_field A k ex = Fail (EDeserialization (lit "unknown field " ++ tick k ++ lit ", " ++ s)).
Proof.
  assert (Tk : forall t, lit "unknown field `" ++ k ++ lit "`, " ++ t = lit "unknown field " ++ tick k ++ lit ", " ++ t).
  { intros t. unfold tick. rewrite <- !app_assoc. reflexivity. }
  intros [|a|a b|ns s' L T]; unfold unknown_field, de_fail; do 2 f_equal.
  - apply (Tk (lit "there are no fields")).
  - apply (Tk (lit "expected " ++ tick a)).
  - apply (Tk (lit "expected " ++ tick a ++ lit " or " ++ tick b)).
  - rewrite (tick_list_join ns s' T). destruct ns as [|a [|b [|c ns]]]; cbn in L; try lia.
    apply (Tk (lit "expected one of " ++ join_with (lit ", ") (map quoted (a :: b :: c :: ns)))).
Qed.
Lemma unknown_variant_text n ns s : expected_variants ns s ->
  lit "unknown variant `" ++ n ++ match ns with [] => lit "`, there are no variants" | _ => lit "`, expected " ++ one_of ns end
  = lit "unknown variant " ++ tick n ++ lit ", " ++ s.
Proof.
  assert (Tk : forall t, lit "unknown variant `" ++ n ++ lit "`, " ++ t = lit "unknown variant " ++ tick n ++ lit ", " ++ t).
  { intros t. unfold tick. rewrite <- !app_assoc. reflexivity. }
  intros [[-> ->]|[N H]]; [apply (Tk (lit "there are no variants"))|]. destruct H as [|a|a b|ns s' L T]; [congruence| | |].
  - apply (Tk (lit "expected " ++ tick a)).
  - apply (Tk (lit "expected " ++ tick a ++ lit " or " ++ tick b)).
  - rewrite (tick_list_join ns s' T). destruct ns as [|a [|b [|c ns]]]; cbn in L; try lia.
    apply (Tk (lit "expected one of " ++ join_with (lit ", ") (map quoted (a :: b :: c :: ns)))).
Qed.
Lemma expected_ex ex : exists s, expected_names ex s.
Proof.
  destruct ex as [|a [|b [|c ns]]]; try (eexists; constructor; fail).
  destruct (tick_list_ex (a :: b :: c :: ns)) as (s & T); [discriminate|]. eexists. apply EnMore; [cbn; lia | exact T].
Qed.

(** Maps keyed by text. *)
Lemma dinsert_new k d acc : ~ In (DStr k) (map fst acc) -> (forall p, In p acc -> exists n, fst p = DStr n) -> dinsert (DStr k) d acc = acc ++ [(DStr k, d)].
Proof.
  induction acc as [|[k' d'] acc IH]; intros N S; [reflexivity|]. cbn [dinsert].
  destruct (S (k', d') (or_introl eq_refl)) as (n & E). cbn in E; subst k'. cbn [key_eqb].
  destruct (str_eqb_spec k n) as [->|Nn]; [exfalso; apply N; cbn; auto|]. cbn. f_equal. apply IH; [intros H; apply N; cbn; auto|]. intros; apply S; cbn; auto.
Qed.
Lemma text_map_done f m : forall acc r, NoDup (map fst m) -> (forall p, In p acc -> exists n, fst p = DStr n /\ ~ In n (map fst m)) ->
  (de_map_loop (de TString) f dinsert m acc = Done r <->
   exists r', r = acc ++ r' /\ Forall2 (fun e d => fst d = DStr (fst e) /\ f (snd e) = Done (snd d)) m r').
Proof.
  induction m as [|[k x] m IH]; intros acc r Nd A.
  - cbn. split; [intros [= <-]; exists []; rewrite app_nil_r; auto | intros (r' & -> & F); inversion F; now rewrite app_nil_r].
  - cbn [de_map_loop]. change (de TString (VStr k)) with (@Done data model_error (DStr k)). cbn [obind].
    cbn in Nd. inversion Nd as [|? ? N1 N2]; subst.
    assert (Ins : forall d, dinsert (DStr k) d acc = acc ++ [(DStr k, d)]).
    { intros d. apply dinsert_new; [|intros p H; destruct (A p H) as (n & E & _); eauto].
      intros H. apply in_map_iff in H as (p & E & H). destruct (A p H) as (n & E' & N). rewrite E in E'. injection E' as <-. apply N. cbn; auto. }
    assert (A' : forall d p, In p (acc ++ [(DStr k, d)]) -> exists n, fst p = DStr n /\ ~ In n (map fst m)).
    { intros d p H. apply in_app_iff in H as [H|[<-|[]]]; [destruct (A p H) as (n & E & N); exists n; split; auto; intros H'; apply N; cbn; auto|]. exists k; auto. }
    etransitivity; [apply obind_done|]. split.
    + intros (d & D & H). rewrite Ins in H. apply (IH _ _ N2 (A' d)) in H as (r' & -> & F). exists ((DStr k, d) :: r').
      rewrite <- app_assoc. split; [reflexivity|]. constructor; auto.
    + intros (r' & -> & F). inversion F as [|? [k' d] ? r'' [E D] F']; subst. cbn in E, D; subst k'. exists d. split; auto.
      rewrite Ins. apply (IH _ _ N2 (A' d)). exists r''. rewrite <- app_assoc. auto.
Qed.
Lemma text_map_fail f m e : forall acc,
  (de_map_loop (de TString) f dinsert m acc = Fail e <->
   exists m1 k x m2, m = m1 ++ (k, x) :: m2 /\ (forall k' y, In (k', y) m1 -> exists d, f y = Done d) /\ f x = Fail e).
Proof.
  induction m as [|[k x] m IH]; intros acc.
  - cbn. split; [discriminate | intros (m1 & k & x & m2 & E & _); destruct m1; discriminate].
  - cbn [de_map_loop]. change (de TString (VStr k)) with (@Done data model_error (DStr k)). cbn [obind].
    etransitivity; [apply obind_fail|]. split.
    + intros [H|(d & D & H)]; [exists [], k, x, m; split; [reflexivity|]; split; [intros ? ? [] | auto]|].
      apply IH in H as (m1 & k' & x' & m2 & -> & A & B). exists ((k, x) :: m1), k', x', m2. split; [reflexivity|]. split; [|auto].
      intros k2 y [[= <- <-]|H]; eauto.
    + intros (m1 & k' & x' & m2 & E & A & B). destruct m1 as [|p m1]; injection E; intros; subst; [left; exact B|].
      right. destruct (A k x (or_introl eq_refl)) as (d & D). exists d. split; auto. apply IH. exists m1, k', x', m2. split; [reflexivity|]. split; [|auto].
      intros; eapply A; right; eauto.
Qed.

Lemma classic_map v : mapv v \/ ~ mapv v.
Proof. destruct v; try (right; intros (? & ?); discriminate). left; eexists; reflexivity. Qed.
Lemma classic_array v : arrayv v \/ ~ arrayv v.
Proof. destruct v; try (right; intros (? & ?); discriminate). left; eexists; reflexivity. Qed.
Lemma Forall2_in_l {A B} (R : A -> B -> Prop) l r a : Forall2 R l r -> In a l -> exists b, In b r /\ R a b.
Proof. induction 1 as [|x y l r Rxy F IH]; cbn; [tauto|]. intros [->|H]; [eauto|]. destruct (IH H) as (b & ? & ?). eauto. Qed.
Lemma Forall2_impl_in {A B} (R S : A -> B -> Prop) l r : (forall a b, In a l -> R a b -> S a b) -> Forall2 R l r -> Forall2 S l r.
Proof. intros H F. induction F as [|x y l r Rxy F IH]; constructor; [apply H; cbn; auto | apply IH; intros; apply H; cbn; auto]. Qed.

Lemma same_fail {A B} (e e' : model_error) : @Fail A model_error e = Fail e' -> @Fail B model_error e = Fail e'.
Proof. congruence. Qed.

Definition aok (a : aty) : Prop := forall v, uniq v ->
  (forall d, de_attr a v = Done d <-> areads a v d) /\ (forall e, de_attr a v = Fail e <-> arefuses a v e).

Lemma fine_readable deny fs m : (forall f, In f fs -> aok (f_type f)) -> (forall k x, In (k, x) m -> uniq x) ->
  (readable deny fs de_attr m <-> fine deny fs m).
Proof.
  intros O U. split; intros (R1 & R2 & R3); (split; [|split]); auto; intros k x f H Hf K; destruct (R1 k x f H Hf K) as (d & D); exists d; apply (O f Hf); eauto.
Qed.

Lemma kind_text {A} v to e : @de_kind_fail A v to = Fail e <-> e = EDeserialization (lit "Can't deserialize " ++ v_display v ++ lit " to " ++ to).
Proof. unfold de_kind_fail, de_fail. generalize (lit "Can't deserialize " ++ v_display v ++ lit " to " ++ to). intros m. split; congruence. Qed.

Lemma struct_ok deny fs : NoDup (map f_name fs) -> (forall f g k, In f fs -> In g fs -> known f k -> known g k -> f = g) ->
  (forall f, In f fs -> aok (f_type f)) -> aok (AStruct deny fs).
Proof.
  intros Nf Un O v U. destruct (classic_map v) as [(m & ->)|Nm].
  2:{ assert (E : de_attr (AStruct deny fs) v = de_kind_fail v (lit "Map")) by (destruct v; try reflexivity; exfalso; apply Nm; eexists; reflexivity).
      rewrite E. split.
      - intros d. split; [discriminate|]. intros H. inversion H; subst. exfalso; apply Nm; eexists; reflexivity.
      - intros e. etransitivity; [apply kind_text|]. split.
        + intros ->. apply (AfMapKind (AStruct deny fs) v Nm). right; eauto.
        + intros H. inversion H; subst; try (exfalso; apply Nm; eexists; reflexivity). reflexivity. }
  apply uniq_map in U as [Nd U].
  assert (Ux : forall k x, In (k, x) m -> uniq x) by (intros; eapply U; eauto).
  change (de_attr (AStruct deny fs) (VMap m)) with
    (obind (attr_loop deny (slots fs de_attr) m []) (fun filled => obind (attr_collect (slots fs de_attr) filled) (fun ds => Done (DStruct ds)))).
  assert (Rd : forall l, (Forall2 (fun f d => fst d = f_name f /\ fills de_attr m f (snd d)) fs l) <->
     Forall2 (fun f d => fst d = f_name f /\
      ((exists k x, known f k /\ holds (VMap m) k x /\ areads (f_type f) x (snd d))
       \/ (f_presence f = Skipped (snd d))
       \/ (unmentioned (VMap m) f /\ f_presence f = Defaulted (snd d))
       \/ (unmentioned (VMap m) f /\ f_presence f = Required /\ optional (f_type f) /\ snd d = DNone))) fs l).
  { intros l.
    assert (Um : forall f, (forall k, known f k -> ~ In k (map fst m)) <-> unmentioned (VMap m) f).
    { intros f. split.
      - intros N k K x (m' & [= <-] & H). apply (N k K). apply (in_map fst) in H; exact H.
      - intros N k K H. apply in_map_iff in H as ([k' x] & <- & H). apply (N k' K x). exists m; auto. }
    assert (Fi : forall f d, In f fs -> fills de_attr m f d <-> 
      ((exists k x, known f k /\ holds (VMap m) k x /\ areads (f_type f) x d)
       \/ (f_presence f = Skipped d)
       \/ (unmentioned (VMap m) f /\ f_presence f = Defaulted d)
       \/ (unmentioned (VMap m) f /\ f_presence f = Required /\ optional (f_type f) /\ d = DNone))).
    { intros f d Hf. unfold fills. rewrite Um, is_option_iff.
      assert (X : (exists k x, known f k /\ In (k, x) m /\ de_attr (f_type f) x = Done d) <->
                  (exists k x, known f k /\ holds (VMap m) k x /\ areads (f_type f) x d)).
      { split; intros (k & x & K & H & D); exists k, x; (split; [exact K|]).
        - split; [exists m; auto|]. apply (O f Hf x); eauto.
        - destruct H as (m' & [= <-] & H). split; auto. apply (O f Hf x); eauto. }
      rewrite X. reflexivity. }
    clear - Fi. revert Fi. revert l. induction fs as [|f l' IH]; intros l Fi; (split; intros F; inversion F as [|? d ? ds [E H] F']; subst; constructor);
      try (split; [exact E|]; apply Fi; [left; reflexivity | exact H]); (apply IH; [|exact F']; intros; apply Fi; right; auto). }
  destruct (first_bad deny fs de_attr Un m Nd) as [R|(m1 & k & x & m2 & r & -> & R & B)].
  - destruct (loop_forward deny fs de_attr Nf Un m [] [] [] Nd (inv_nil fs de_attr) R) as (filled & I & E). rewrite app_nil_r in E. rewrite E.
    cbn [attr_loop obind app] in *. clear E.
    assert (Fn : fine deny fs m) by (apply fine_readable; auto). split.
    + intros d. etransitivity; [apply obind_done|]. split.
      * intros (ds & H & [= <-]). apply (collect_iff deny fs de_attr m filled Nd R I fs ds (fun _ H => H)) in H. apply Rd in H.
        destruct Fn as (_ & F2 & F3). apply ArStruct; auto.
      * intros H. inversion H as [| | | | | |? ? ? l H1 H2 F]; subst. exists l. split; [|reflexivity].
        apply (collect_iff deny fs de_attr m filled Nd R I fs l (fun _ H => H)). now apply Rd.
    + intros e. etransitivity; [apply obind_fail|]. split.
      * intros [H|(ds & _ & [=])]. apply (collect_fail fs de_attr m filled I fs e (fun _ H => H)) in H as (f1 & f & f2 & -> & A & N & P & Op & ->).
        change (lit "missing field `" ++ f_name f ++ lit "`") with (lit "missing field " ++ tick (f_name f)). apply AfMissing; auto.
        -- intros g Hg. destruct (A g Hg) as [X|[X|X]]; auto. right; right. now apply is_option_iff.
        -- intros k K y (m' & [= <-] & H). apply (N k K). apply (in_map fst) in H; exact H.
        -- now apply not_option_iff.
      * intros H. left. inversion H as [| | | | | |? ? Nm|? ? m1 k x m2 f ? F Hf K Fr Rf|? ? m1 k x m2 f k' F Hf K K' H'|ex ? m1 k x m2 s F Nk Es|? f1 f f2 ? F A N P Op]; subst.
        -- exfalso. apply Nm. eexists; reflexivity.
        -- exfalso. destruct R as (R1 & _). destruct (R1 k x f) as (d & D); auto; [apply in_or_app; cbn; auto|].
           apply (O f Hf x) in Rf; [congruence|]. apply (Ux k). apply in_or_app; cbn; auto.
        -- exfalso. destruct R as (_ & _ & R3). assert (k = k') as <-.
           { apply (R3 f); auto; rewrite map_app; apply in_or_app; cbn; auto. }
           rewrite map_app in Nd. cbn in Nd. apply NoDup_remove_2 in Nd. apply Nd. apply in_or_app; auto.
        -- exfalso. destruct R as (_ & R2 & _). destruct (R2 ex k eq_refl) as (f & Hf & K); [rewrite map_app; apply in_or_app; cbn; auto|]. apply (Nk f Hf K).
        -- apply (collect_fail (f1 ++ f :: f2) de_attr m filled I (f1 ++ f :: f2) _ (fun _ H => H)). exists f1, f, f2. split; [reflexivity|]. split; [|split; [|split; [exact P|split; [|reflexivity]]]].
           ++ intros g Hg. destruct (A g Hg) as [X|[X|X]]; auto. right; right. now apply is_option_iff.
           ++ intros k K Hk. apply in_map_iff in Hk as ([k' y] & <- & Hk). apply (N k' K y). exists m; auto.
           ++ now apply not_option_iff.
  - rewrite (loop_bad deny fs de_attr Nf Un m1 k x m2 r Nd R B). cbn [obind].
    assert (U1 : forall k x, In (k, x) m1 -> uniq x) by (intros; eapply Ux; apply in_or_app; eauto).
    assert (Uk : uniq x) by (eapply Ux; apply in_or_app; cbn; eauto).
    assert (Fn : fine deny fs m1) by (apply fine_readable; auto).
    assert (Nr : forall l, ~ areads (AStruct deny fs) (VMap (m1 ++ (k, x) :: m2)) (DStruct l)).
    { intros l H. inversion H as [| | | | | |? ? ? ? H1 H2 F]; subst.
      assert (Hk : In k (map fst (m1 ++ (k, x) :: m2))) by (rewrite map_app; apply in_or_app; cbn; auto).
      assert (Gv : forall f, In f fs -> known f k -> exists d, de_attr (f_type f) x = Done d).
      { intros f Hf K. destruct (Forall2_in_l _ _ _ f F Hf) as ([n d] & _ & _ & [(k' & x' & K' & (m' & [= <-] & H') & D)|[S|[[N _]|[N _]]]]).
        - assert (k = k') as <- by (apply (H2 f); auto; apply (in_map fst) in H'; exact H').
          assert (x = x') as <-.
          { apply (mget_iff k x' _ Nd) in H'. assert (Hx : In (k, x) (m1 ++ (k, x) :: m2)) by (apply in_or_app; cbn; auto). apply (mget_iff k x _ Nd) in Hx. congruence. }
          exists d. apply (O f Hf); auto.
        - destruct (skipped_unknown f _ k S K).
        - exfalso. apply (N k K x). eexists; split; [reflexivity | apply in_or_app; cbn; auto].
        - exfalso. apply (N k K x). eexists; split; [reflexivity | apply in_or_app; cbn; auto]. }
      destruct B as [f e Hf K Fr D|f Hf K Fr D|f k' Hf K K' H'|ex Dn N].
      - destruct (Gv f Hf K). congruence.
      - destruct (Gv f Hf K). congruence.
      - assert (k = k') as <- by (apply (H2 f); auto; rewrite map_app; apply in_or_app; auto).
        rewrite map_app in Nd. cbn in Nd. apply NoDup_remove_2 in Nd. apply Nd. apply in_or_app; auto.
      - destruct (H1 ex k Dn Hk) as (f & Hf & K). apply (N f Hf K). }
    assert (Only : forall e, arefuses (AStruct deny fs) (VMap (m1 ++ (k, x) :: m2)) e -> r = Fail e).
    { intros e H. inversion H as [| | | | | |? ? Nm|? ? m1' k' x' m2' f ? F Hf K Fr Rf|? ? m1' k' x' m2' f k2 F Hf K K' H'|ex ? m1' k' x' m2' s F Nk Es|? f1 f f2 ? F A N P Op]; subst.
      - exfalso. apply Nm. eexists; reflexivity.
      - rewrite <- (loop_bad deny fs de_attr Nf Un m1 k x m2 r Nd R B). match goal with X : _ ++ _ :: _ = _ |- _ => rewrite <- X in *; clear X end.
        apply loop_bad; auto.
        + apply fine_readable; auto. intros; eapply Ux; apply in_or_app; eauto.
        + eapply BadValue; eauto. apply (O f Hf); auto. eapply Ux; apply in_or_app; cbn; eauto.
      - rewrite <- (loop_bad deny fs de_attr Nf Un m1 k x m2 r Nd R B). match goal with X : _ ++ _ :: _ = _ |- _ => rewrite <- X in *; clear X end.
        apply loop_bad; auto.
        + apply fine_readable; auto. intros; eapply Ux; apply in_or_app; eauto.
        + change (lit "duplicate field " ++ tick (f_name f)) with (lit "duplicate field `" ++ f_name f ++ lit "`"). eapply BadTwice; eauto.
      - rewrite <- (loop_bad (Some ex) fs de_attr Nf Un m1 k x m2 r Nd R B). match goal with X : _ ++ _ :: _ = _ |- _ => rewrite <- X in *; clear X end.
        rewrite <- (unknown_text k' ex s Es). apply loop_bad; auto.
        + apply fine_readable; auto. intros; eapply Ux; apply in_or_app; eauto.
        + apply BadUnknown; auto.
      - exfalso. assert (R' : readable deny (f1 ++ f :: f2) de_attr (m1 ++ (k, x) :: m2)) by (apply fine_readable; auto).
        destruct R' as (R1 & R2 & R3).
        destruct B as [g e Hg K Fr D|g Hg K Fr D|g k' Hg K K' H'|ex Dn Ng].
        + destruct (R1 k x g) as (d & D'); auto; [apply in_or_app; cbn; auto | congruence].
        + destruct (R1 k x g) as (d & D'); auto; [apply in_or_app; cbn; auto | congruence].
        + assert (k = k') as <- by (apply (R3 g); auto; rewrite map_app; apply in_or_app; cbn; auto).
          rewrite map_app in Nd. cbn in Nd. apply NoDup_remove_2 in Nd. apply Nd. apply in_or_app; auto.
        + destruct (R2 ex k Dn) as (g & Hg & K); [rewrite map_app; apply in_or_app; cbn; auto|]. apply (Ng g Hg K). }
    assert (Nd' : forall d, areads (AStruct deny fs) (VMap (m1 ++ (k, x) :: m2)) d -> False).
    { intros d H. inversion H; subst. eapply Nr; exact H. }
    destruct B as [f e Hf K Fr D|f Hf K Fr D|f k' Hf K K' H'|ex Dn N].
    + split; [intros d; split; [discriminate | intros H; destruct (Nd' d H)]|]. intros e'. split; [|intros H; exact (same_fail _ e' (Only e' H))]. intros [= <-].
      eapply AfField; eauto. apply (O f Hf); auto.
    + split; [intros d; split; [discriminate | intros H; destruct (Nd' d H)]|]. intros e'. split; [discriminate | intros H; discriminate (Only e' H)].
    + split; [intros d; split; [discriminate | intros H; destruct (Nd' d H)]|]. intros e'. split; [|intros H; exact (same_fail _ e' (Only e' H))]. intros E.
      assert (e' = EDeserialization (lit "duplicate field `" ++ f_name f ++ lit "`")) as -> by (cbn [obind] in E; congruence).
      change (lit "duplicate field `" ++ f_name f ++ lit "`") with (lit "duplicate field " ++ tick (f_name f)). eapply AfTwice; eauto.
    + subst deny. destruct (expected_ex ex) as (s & Es). rewrite (unknown_text k ex s Es) in *. cbn [obind].
      split; [intros d; split; [discriminate | intros H; destruct (Nd' d H)]|]. intros e'. split; [|intros H; exact (same_fail _ e' (Only e' H))]. intros E.
      assert (e' = EDeserialization (lit "unknown field " ++ tick k ++ lit ", " ++ s)) as -> by (cbn [obind] in E; congruence). eapply AfUnknown; eauto.
Qed.

Theorem attr_ok a : aproper a -> aok a.
Proof.
  induction a as [t|a IH|a IH|a IH|a IH|deny fs IH] using aty_ind'; intros P; inversion P; subst.
  - intros v U. split; intros x; (split; [intros H; now constructor | intros H; inversion H; subst; auto]).
    exfalso. match goal with X : _ \/ _ |- _ => destruct X as [(b & [=])|(dn & fs & [=])] end.
  - intros v U. destruct (IH ltac:(assumption) v U) as [O1 O2]. split.
    + intros d. split.
      * intros D. destruct v; try (apply obind_done in D as (d' & D & [= <-]); apply ArSome; [discriminate | now apply O1]). injection D as <-. constructor.
      * intros H. inversion H as [| |? ? d' N H'| | | |]; subst; [reflexivity|]. apply O1 in H'. cbn [de_attr]. rewrite H'. destruct v; congruence || reflexivity.
    + intros e. split.
      * intros D. destruct v; try (apply obind_fail in D as [D|(? & _ & [=])]; apply AfSome; [discriminate | now apply O2]). discriminate.
      * intros H. inversion H as [|? ? ? N H'| | | | |? ? Nm X| | | |]; subst; [|destruct X as [(b & [=])|(dn & fs & [=])]].
        apply O2 in H'. cbn [de_attr]. rewrite H'. destruct v; congruence || reflexivity.
  - intros v U. destruct (classic_array v) as [(l & ->)|Na].
    + assert (O : forall x, In x l -> (forall d, de_attr a x = Done d <-> areads a x d) /\ (forall e, de_attr a x = Fail e <-> arefuses a x e)).
      { intros x H. apply (IH ltac:(assumption)). inversion U; subst; [match goal with X : scalarv _ |- _ => destruct X end | auto]. }
      cbn [de_attr]. split.
      * intros d. etransitivity; [apply obind_done|]. split.
        -- intros (ds & D & [= <-]). apply de_seq_done in D. constructor. eapply Forall2_impl_in; [|exact D]. intros x y H H'. now apply (O x H).
        -- intros H. inversion H as [| | | |? ? r F| |]; subst. exists r. split; [|reflexivity]. apply de_seq_done.
           eapply Forall2_impl_in; [|exact F]. intros x y Hx H'. now apply (O x Hx).
      * intros e. etransitivity; [apply obind_fail|]. split.
        -- intros [D|(? & _ & [=])]. apply de_seq_fails in D as (l1 & x & l2 & -> & A & D). apply AfSeq.
           ++ intros y H. destruct (A y H) as (d & Dd). exists d. apply (O y); auto. apply in_or_app; auto.
           ++ apply (O x); auto. apply in_or_app; cbn; auto.
        -- intros H. left. apply de_seq_fails. inversion H as [| | |? l1 x l2 ? A D| |? ? N|? ? N X| | | |]; subst.
           ++ exists l1, x, l2. split; [reflexivity|]. split; [|apply (O x); auto; apply in_or_app; cbn; auto].
              intros y Hy. destruct (A y Hy) as (d & Dd). exists d. apply (O y); auto. apply in_or_app; auto.
           ++ exfalso; apply N; eexists; reflexivity.
           ++ destruct X as [(b & [=])|(dn & fs & [=])].
    + assert (E : de_attr (ASeq a) v = de_kind_fail v (lit "Array")) by (destruct v; try reflexivity; exfalso; apply Na; eexists; reflexivity).
      rewrite E. split.
      * intros d. split; [discriminate|]. intros H. inversion H; subst. exfalso; apply Na; eexists; reflexivity.
      * intros e. etransitivity; [apply kind_text|]. split.
        -- intros ->. now apply AfArray.
        -- intros H. inversion H as [| | | | | |? ? N X| | | |]; subst; [exfalso; apply Na; eexists; reflexivity | reflexivity|].
           destruct X as [(b & [=])|(dn & fs & [=])].
  - intros v U. destruct (classic_map v) as [(m & ->)|Nm].
    + apply uniq_map in U as [Nd U].
      assert (O : forall k x, In (k, x) m -> (forall d, de_attr a x = Done d <-> areads a x d) /\ (forall e, de_attr a x = Fail e <-> arefuses a x e)).
      { intros k x H. apply (IH ltac:(assumption)). eapply U; eauto. }
      cbn [de_attr]. change (de_map (de TString) (de_attr a) dinsert m) with (de_map_loop (de TString) (de_attr a) dinsert m []). split.
      * intros d. etransitivity; [apply obind_done|]. split.
        -- intros (ds & D & [= <-]). apply text_map_done in D as (r & -> & F); [|auto | intros p []]. constructor.
           eapply Forall2_impl_in; [|exact F]. intros [k x] [k' y] H [E D]. split; [exact E|]. now apply (O k x H).
        -- intros H. inversion H as [| | | | |? ? r F|]; subst. exists r. split; [|reflexivity]. apply text_map_done; [auto | intros p []|].
           exists r. split; [reflexivity|]. eapply Forall2_impl_in; [|exact F]. intros [k x] [k' y] Hx [E D]. split; [exact E|]. now apply (O k x Hx).
      * intros e. etransitivity; [apply obind_fail|]. split.
        -- intros [D|(? & _ & [=])]. apply text_map_fail in D as (m1 & k & x & m2 & -> & A & D). apply AfMap.
           ++ intros k' y H. destruct (A k' y H) as (d & Dd). exists d. apply (O k' y); auto. apply in_or_app; auto.
           ++ apply (O k x); auto. apply in_or_app; cbn; auto.
        -- intros H. left. apply text_map_fail. inversion H as [| | | |? m1 k x m2 ? A D| |? ? N X| | | |]; subst.
           ++ exists m1, k, x, m2. split; [reflexivity|]. split; [|apply (O k x); auto; apply in_or_app; cbn; auto].
              intros k' y Hy. destruct (A k' y Hy) as (d & Dd). exists d. apply (O k' y); auto. apply in_or_app; auto.
           ++ exfalso; apply N; eexists; reflexivity.
    + assert (E : de_attr (AMap a) v = de_kind_fail v (lit "Map")) by (destruct v; try reflexivity; exfalso; apply Nm; eexists; reflexivity).
      rewrite E. split.
      * intros d. split; [discriminate|]. intros H. inversion H; subst. exfalso; apply Nm; eexists; reflexivity.
      * intros e. etransitivity; [apply kind_text|]. split.
        -- intros ->. apply (AfMapKind (AMap a) v Nm). left; eauto.
        -- intros H. inversion H; subst; [exfalso; apply Nm; eexists; reflexivity | reflexivity].
  - intros v U. destruct (IH ltac:(assumption) v U) as [O1 O2]. cbn [de_attr]. split.
    + intros d. etransitivity; [apply obind_done|]. split.
      * intros (d' & D & [= <-]). constructor. now apply O1.
      * intros H. inversion H; subst. eexists; split; [apply O1; eassumption | reflexivity].
    + intros e. etransitivity; [apply obind_fail|]. split.
      * intros [D|(? & _ & [=])]. apply AfNewtype. now apply O2.
      * intros H. left. inversion H as [| |? ? ? H'| | | |? ? N X| | | |]; subst; [now apply O2|]. destruct X as [(b & [=])|(dn & fs & [=])].
  - apply struct_ok; auto.
Qed.
