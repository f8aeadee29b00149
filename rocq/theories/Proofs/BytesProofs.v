(** Readers and writers racing on one file (C83, C84). *)
From Coq Require Import ZArith Bool Lia.
From Coq Require Import List.
Import ListNotations.
From Verif.Model Require Import Text Bytes.
Local Open Scope nat_scope.
From Verif.Spec Require Import BytesSpec.

(** Invariants of schedules. *)
Lemma schedule_inv (I : list byte -> list proc -> Prop) :
  (forall c before p after c1 p1, I c (before ++ p :: after) -> call c p c1 p1 -> I c1 (before ++ p1 :: after)) ->
  forall c ps c' ps', schedule c ps c' ps' -> I c ps -> I c' ps'.
Proof. intros H. induction 1; eauto. Qed.
Lemma schedule_trans c ps c1 ps1 c2 ps2 : schedule c ps c1 ps1 -> schedule c1 ps1 c2 ps2 -> schedule c ps c2 ps2.
Proof. induction 1; intros; auto. eapply SchedCall; eauto. Qed.

(** ** Splices *)
Lemma splice_length old new k m : k <= List.length old -> m <= List.length new ->
  List.length (splice old new k m) = Nat.max k m.
Proof.
  intros K M. unfold splice. rewrite app_length, firstn_length, skipn_length, firstn_length. lia.
Qed.
Lemma splice_max old new k m : m <= List.length new -> splice old new k m = splice old new k (Nat.max k m).
Proof.
  intros M. unfold splice. f_equal. destruct (Nat.le_ge_cases m k).
  - rewrite (Nat.max_l k m) by lia. rewrite !skipn_all2; auto; rewrite firstn_length; lia.
  - now rewrite Nat.max_r.
Qed.
Lemma firstn_step {A} (l : list A) a b : firstn a l ++ firstn b (skipn a l) = firstn (a + b) l.
Proof.
  revert l; induction a as [|a IH]; intros l; cbn; auto. destruct l as [|x l]; cbn; [now rewrite firstn_nil|]. now rewrite IH.
Qed.
Lemma splice_old old new k n : k <= List.length old ->
  splice old new k 0 ++ firstn n (skipn (List.length (splice old new k 0)) old)
  = splice old new (Nat.min (k + n) (List.length old)) 0.
Proof.
  intros K. rewrite splice_length by lia. rewrite Nat.max_0_r.
  unfold splice. cbn [firstn]. rewrite !skipn_nil, !app_nil_r, firstn_step.
  destruct (Nat.le_ge_cases (k + n) (List.length old)); [now rewrite Nat.min_l|].
  rewrite Nat.min_r by lia. rewrite !firstn_all2; auto.
Qed.
Lemma splice_new old new k m off n : k <= List.length old -> m <= off -> off <= List.length new -> Nat.max k m <= off ->
  splice old new k m ++ firstn n (skipn (List.length (splice old new k m)) (firstn off new))
  = splice old new k (Nat.min (Nat.max k m + n) off).
Proof.
  intros K M O X. rewrite splice_length by lia. rewrite splice_max by lia. set (M' := Nat.max k m) in *.
  unfold splice. rewrite <- app_assoc. f_equal.
  assert (Km : k <= M') by (unfold M'; lia).
  replace (firstn M' new) with (firstn M' (firstn off new)) by (rewrite firstn_firstn; f_equal; lia).
  transitivity (skipn k (firstn M' (firstn off new) ++ firstn n (skipn M' (firstn off new)))).
  - rewrite skipn_app. f_equal. rewrite !firstn_length.
    replace (k - Nat.min M' (Nat.min off (List.length new))) with 0 by lia. reflexivity.
  - rewrite firstn_step, firstn_firstn. reflexivity.
Qed.
Lemma skipn_nonempty {A} (l : list A) n a : firstn n (skipn a l) <> [] -> a < List.length l.
Proof.
  intros H. destruct (Nat.lt_ge_cases a (List.length l)); auto. rewrite skipn_all2, firstn_nil in H by auto. congruence.
Qed.

Lemma write_at_end text off n : off + n <= List.length text ->
  write_at (firstn off text) off (firstn n (skipn off text)) = firstn (off + n) text.
Proof.
  intros L. unfold write_at. rewrite firstn_firstn, Nat.min_id, firstn_length, Nat.min_l by lia.
  rewrite Nat.sub_diag. cbn [repeat app]. rewrite (skipn_all2 (firstn off text)); [|rewrite !firstn_length, skipn_length; lia].
  now rewrite app_nil_r, firstn_step.
Qed.

(** ** C83: one writer, any number of readers *)
Definition reader_inv (old new : list byte) (off : nat) (p : proc) : Prop :=
  match p with
  | ReadStart | Dead => True
  | Reading got => exists k m, k <= List.length old /\ m <= off /\ got = splice old new k m
  | HasRead got => exists k m, k <= List.length old /\ m <= off /\ got = splice old new k m
  | _ => False
  end.
Definition race_inv (old new c : list byte) (ps : list proc) : Prop :=
  exists w rs, ps = w :: rs /\
  ((c = old /\ (w = WriteStart new \/ w = Dead) /\ Forall (reader_inv old new 0) rs)
   \/ exists off, off <= List.length new /\ c = firstn off new /\ Forall (reader_inv old new off) rs
       /\ (w = Writing new off \/ w = Dead \/ (w = Written new /\ off = List.length new))).
Lemma reader_inv_mono old new a b p : a <= b -> reader_inv old new a p -> reader_inv old new b p.
Proof. intros L. destruct p; cbn; auto; intros (k & m & H1 & H2 & H3); exists k, m; repeat split; auto; lia. Qed.
Lemma reader_step old new off c p c1 p1 :
  (c = old /\ off = 0) \/ (c = firstn off new /\ off <= List.length new) ->
  reader_inv old new off p -> call c p c1 p1 -> c1 = c /\ reader_inv old new off p1.
Proof.
  intros H R C. inversion C; subst; cbn in R; try contradiction; (split; [reflexivity|]); cbn; auto.
  - exists 0, 0. repeat split; auto; try lia.
  - destruct R as (k & m & K & M & ->). destruct H as [(-> & ->)|(-> & O)].
    + assert (m = 0) by lia; subst m. exists (Nat.min (k + n) (List.length old)), 0.
      split; [lia|]. split; [lia|]. now apply splice_old.
    + exists k, (Nat.min (Nat.max k m + n) off). split; auto. split; [lia|]. apply splice_new; auto.
      match goal with X : firstn _ _ <> [] |- _ => apply skipn_nonempty in X end.
      rewrite splice_length, firstn_length in * by lia. lia.
Qed.
Lemma Forall_mid {A} (P : A -> Prop) l x r : Forall P (l ++ x :: r) <-> Forall P l /\ P x /\ Forall P r.
Proof. rewrite Forall_app. split; intros [H1 H2]; (split; [auto|]); [inversion H2; auto | constructor; tauto]. Qed.
Lemma race_step old new c before p after c1 p1 : race_inv old new c (before ++ p :: after) -> call c p c1 p1 ->
  race_inv old new c1 (before ++ p1 :: after).
Proof.
  intros (w & rs & E & H) C. destruct before as [|w' before]; cbn in E; injection E as -> <-.
  - exists p1, after. split; [reflexivity|]. destruct H as [(-> & W & F)|(off & O & -> & F & W)].
    + destruct W as [->| ->]; inversion C; subst.
      * right. exists 0. split; [lia|]. repeat split; auto.
      * left; auto.
      * left; auto.
    + destruct W as [->|[->|[-> ->]]]; inversion C; subst.
      * right. exists (off + n). split; [lia|]. rewrite write_at_end by auto. split; auto. split; auto.
        eapply Forall_impl; [|exact F]. intros x. apply reader_inv_mono; lia.
      * right. exists (List.length new). auto 12.
      * right. exists off. auto 12.
      * right. exists off. auto 12.
      * right. exists (List.length new). auto 12.
  - exists w, (before ++ p1 :: after). split; [reflexivity|]. destruct H as [(-> & W & F)|(off & O & -> & F & W)].
    + apply Forall_mid in F as (F1 & Fp & F2).
      destruct (reader_step old new 0 old p c1 p1) as [-> Q]; auto. left. split; auto. split; auto. now apply Forall_mid.
    + apply Forall_mid in F as (F1 & Fp & F2).
      destruct (reader_step old new off (firstn off new) p c1 p1) as [-> Q]; auto.
      right. exists off. split; auto. split; auto. split; auto. now apply Forall_mid.
Qed.
Lemma race_result old new rs c ps : (forall p, In p rs -> p = ReadStart) ->
  schedule old (WriteStart new :: rs) c ps ->
  (forall got, In (HasRead got) ps -> exists k m, k <= List.length old /\ m <= List.length new /\ got = splice old new k m)
  /\ (c = old \/ exists m, c = firstn m new) /\ (In (Written new) ps -> c = new).
Proof.
  intros R S. apply (schedule_inv (race_inv old new) (race_step old new)) in S.
  - destruct S as (w & rs' & -> & [(-> & W & F)|(off & O & -> & F & W)]).
    + rewrite Forall_forall in F. split; [|split; auto].
      * intros got [->|I]; [destruct W; discriminate|]. destruct (F _ I) as (k & m & K & M & E). exists k, m. repeat split; auto; lia.
      * intros [->|I]; [destruct W; discriminate|]. destruct (F _ I).
    + rewrite Forall_forall in F. split; [|split; eauto].
      * intros got [->|I]; [destruct W as [|[|[]]]; discriminate|]. destruct (F _ I) as (k & m & K & M & E). exists k, m. repeat split; auto; lia.
      * intros [->|I]; [|destruct (F _ I)]. destruct W as [W|[W|(_ & ->)]]; try discriminate. apply firstn_all.
  - exists (WriteStart new), rs. split; auto. left. split; auto. split; auto. apply Forall_forall. intros p I. now rewrite (R p I).
Qed.
(** Every splice can be read. *)
Lemma race_possible old new k m : k <= List.length old -> m <= List.length new ->
  exists c p, schedule old [WriteStart new; ReadStart] c [p; HasRead (splice old new k m)].
Proof.
  intros K M. exists (firstn m new), (Writing new m).
  (* open, read k bytes *)
  apply (schedule_trans _ _ old [WriteStart new; Reading (firstn k old)]).
  { eapply (SchedCall _ [WriteStart new] ReadStart []); [constructor|]. cbn [app].
    destruct k as [|k]; [constructor|].
    eapply (SchedCall _ [WriteStart new] (Reading []) []).
    - apply (CallRead old [] (S k)). cbn. destruct old; [cbn in K; lia | discriminate].
    - cbn [app List.length skipn]. constructor. }
  (* truncate, write m bytes *)
  apply (schedule_trans _ _ (firstn m new) [Writing new m; Reading (firstn k old)]).
  { eapply (SchedCall _ [] (WriteStart new) [Reading (firstn k old)]); [constructor|]. cbn [app].
    destruct m as [|m]; [constructor|].
    eapply (SchedCall _ [] (Writing new 0) [Reading (firstn k old)]).
    - apply (CallWrite [] new 0 (S m)); lia.
    - cbn [app Nat.add]. change (@nil byte) with (firstn 0 new) at 1. rewrite write_at_end by lia. constructor. }
  (* read the rest, end of file *)
  assert (L : List.length (firstn k old) = k) by (rewrite firstn_length; lia).
  assert (E : schedule (firstn m new) [Writing new m; Reading (firstn k old)] (firstn m new) [Writing new m; Reading (splice old new k m)]).
  { destruct (Nat.le_ge_cases m k) as [H|H].
    - unfold splice. rewrite (skipn_all2 (firstn m new)); [|rewrite firstn_length; lia]. rewrite app_nil_r. constructor.
    - destruct (Nat.eq_dec m k) as [->|N].
      + unfold splice. rewrite (skipn_all2 (firstn k new)); [|rewrite firstn_length; lia]. rewrite app_nil_r. constructor.
      + eapply (SchedCall _ [Writing new m] (Reading (firstn k old)) []).
        * apply (CallRead (firstn m new) (firstn k old) (m - k)). rewrite L. intros X.
          apply (f_equal (@List.length _)) in X. rewrite firstn_length, skipn_length, firstn_length in X. cbn in X. lia.
        * cbn [app]. rewrite L. rewrite (firstn_all2 (skipn k (firstn m new))); [|rewrite skipn_length, firstn_length; lia].
          constructor. }
  eapply schedule_trans; [exact E|].
  eapply (SchedCall _ [Writing new m] (Reading _) []); [|constructor].
  apply CallEof. rewrite splice_length by auto. rewrite firstn_length. lia.
Qed.

(** ** C84: several writers *)
Lemma write_at_length c off chunk : List.length (write_at c off chunk) = Nat.max (List.length c) (off + List.length chunk).
Proof.
  unfold write_at. rewrite !app_length, firstn_length, repeat_length, skipn_length. lia.
Qed.
Lemma write_at_nth c off chunk i : nth_error (write_at c off chunk) i =
  if Nat.ltb i off then (if Nat.ltb i (List.length c) then nth_error c i else Some 0%Z)
  else if Nat.ltb i (off + List.length chunk) then nth_error chunk (i - off) else nth_error c i.
Proof.
  unfold write_at.
  assert (F : forall A (l : list A) n j, j < n -> nth_error (firstn n l) j = nth_error l j).
  { intros A l n; revert l; induction n as [|n IH]; intros [|x l] [|j] H; cbn; auto; try lia; try (apply IH; lia). }
  assert (S : forall A (l : list A) n j, nth_error (skipn n l) j = nth_error l (n + j)).
  { intros A l n; revert l; induction n as [|n IH]; intros [|x l] j; cbn; auto. destruct j; auto. }
  assert (Rp : forall n j, j < n -> nth_error (repeat 0%Z n) j = Some 0%Z).
  { induction n as [|n IH]; intros [|j] H; cbn; auto; try lia. apply IH; lia. }
  destruct (Nat.ltb_spec i off) as [H|H].
  - destruct (Nat.ltb_spec i (List.length c)) as [H'|H'].
    + rewrite nth_error_app1 by (rewrite firstn_length; lia). now apply F.
    + rewrite nth_error_app2 by (rewrite firstn_length; lia). rewrite firstn_length.
      rewrite nth_error_app1 by (rewrite repeat_length; lia). apply Rp. lia.
  - rewrite nth_error_app2 by (rewrite firstn_length; lia). rewrite firstn_length.
    rewrite nth_error_app2 by (rewrite repeat_length; lia). rewrite repeat_length.
    destruct (Nat.ltb_spec i (off + List.length chunk)) as [H'|H'].
    + rewrite nth_error_app1 by lia. f_equal. lia.
    + rewrite nth_error_app2 by lia. rewrite S. f_equal. lia.
Qed.

Definition opened (p : proc) : Prop := (exists t off, p = Writing t off) \/ exists t, p = Written t.
Definition same_inv (text c : list byte) (ps : list proc) : Prop :=
  In Dead ps \/
  ((forall p, In p ps -> writes_text text p \/ reads p)
   /\ (List.length c <= List.length text \/ forall p, In p ps -> ~ opened p)
   /\ forall i, i < List.length text -> nth_error c i = nth_error text i
        \/ In (WriteStart text) ps \/ exists off, In (Writing text off) ps /\ off <= i).
Lemma in_mid {A} (l r : list A) x y : In y (l ++ x :: r) <-> y = x \/ In y (l ++ r).
Proof. rewrite !in_app_iff. cbn. intuition. Qed.
Lemma same_step text c before p after c1 p1 : same_inv text c (before ++ p :: after) -> call c p c1 p1 ->
  same_inv text c1 (before ++ p1 :: after).
Proof.
  intros [D|(W & L & P)] C.
  { left. apply in_mid in D as [<-|D]; apply in_mid; [|auto]. inversion C; auto. }
  assert (Wr : forall q, In q (before ++ after) -> writes_text text q \/ reads q) by (intros q I; apply W, in_mid; auto).
  assert (Wp : writes_text text p \/ reads p) by (apply W, in_mid; auto).
  inversion C; subst.
  - (* truncate *) right. assert (text0 = text).
    { destruct Wp as [[E|[[o E]|E]]|[E|[[g E]|[g E]]]]; congruence. }
    subst text0. split; [|split].
    + intros q I. apply in_mid in I as [->|I]; auto. left. right; left; eauto.
    + left. cbn; lia.
    + intros i Hi. right. right. exists 0. split; [apply in_mid; auto | lia].
  - (* write *) right. assert (text0 = text).
    { destruct Wp as [[E|[[o E]|E]]|[E|[[g E]|[g E]]]]; congruence. }
    subst text0.
    assert (Lc : List.length c <= List.length text).
    { destruct L as [L|L]; auto. exfalso. apply (L (Writing text off)); [apply in_mid; auto | left; eauto]. }
    assert (Ln : List.length (firstn n (skipn off text)) = n) by (rewrite firstn_length, skipn_length; lia).
    split; [|split].
    + intros q I. apply in_mid in I as [->|I]; auto. left. right; left; eauto.
    + left. rewrite write_at_length, Ln. lia.
    + intros i Hi. rewrite write_at_nth, Ln. destruct (Nat.ltb_spec i off) as [Ho|Ho].
      * destruct (P i Hi) as [E|[I|(o & I & Lo)]].
        -- destruct (Nat.ltb_spec i (List.length c)) as [Hc|Hc]; [auto|].
           apply nth_error_None in Hc. rewrite Hc in E. symmetry in E. apply nth_error_None in E. lia.
        -- right; left. apply in_mid in I as [I|I]; [discriminate|]. apply in_mid; auto.
        -- right; right. apply in_mid in I as [I|I]; [injection I as ->; lia|]. exists o. split; [apply in_mid|]; auto.
      * destruct (Nat.ltb_spec i (off + n)) as [Hn|Hn].
        -- left. clear - Hn Ho H0. rewrite <- (firstn_skipn off text) at 2.
           rewrite nth_error_app2 by (rewrite firstn_length; lia). rewrite firstn_length, Nat.min_l by lia.
           rewrite <- (firstn_skipn n (skipn off text)) at 2. rewrite nth_error_app1; auto. rewrite firstn_length, skipn_length. lia.
        -- destruct (P i Hi) as [E|[I|(o & I & Lo)]]; auto.
           ++ right; left. apply in_mid in I as [I|I]; [discriminate|]. apply in_mid; auto.
           ++ right; right. apply in_mid in I as [I|I].
              ** exists (off + n). split; [apply in_mid; auto | lia].
              ** exists o. split; [apply in_mid|]; auto.
  - (* close *) right. assert (text0 = text).
    { destruct Wp as [[E|[[o E]|E]]|[E|[[g E]|[g E]]]]; congruence. }
    subst text0. split; [|split].
    + intros q I. apply in_mid in I as [->|I]; auto. left. right; right; auto.
    + destruct L as [L|L]; auto. exfalso. apply (L (Writing text (List.length text))); [apply in_mid; auto | left; eauto].
    + intros i Hi. destruct (P i Hi) as [E|[I|(o & I & Lo)]]; auto.
      * right; left. apply in_mid in I as [I|I]; [discriminate|]. apply in_mid; auto.
      * right; right. apply in_mid in I as [I|I]; [injection I as ->; lia|]. exists o. split; [apply in_mid|]; auto.
  - (* open for reading *) right. split; [|split].
    + intros q I. apply in_mid in I as [->|I]; auto. right. right; left; eauto.
    + destruct L as [L|L]; auto. right. intros q I. apply in_mid in I as [->|I]; [|apply L, in_mid; auto].
      intros [(? & ? & E)|(? & E)]; discriminate.
    + intros i Hi. destruct (P i Hi) as [E|[I|(o & I & Lo)]]; auto.
      * right; left. apply in_mid in I as [I|I]; [discriminate|]. apply in_mid; auto.
      * right; right. apply in_mid in I as [I|I]; [discriminate|]. exists o. split; [apply in_mid|]; auto.
  - (* read *) right. split; [|split].
    + intros q I. apply in_mid in I as [->|I]; auto. right. right; left; eauto.
    + destruct L as [L|L]; auto. right. intros q I. apply in_mid in I as [->|I]; [|apply L, in_mid; auto].
      intros [(? & ? & E)|(? & E)]; discriminate.
    + intros i Hi. destruct (P i Hi) as [E|[I|(o & I & Lo)]]; auto.
      * right; left. apply in_mid in I as [I|I]; [discriminate|]. apply in_mid; auto.
      * right; right. apply in_mid in I as [I|I]; [discriminate|]. exists o. split; [apply in_mid|]; auto.
  - (* end of file *) right. split; [|split].
    + intros q I. apply in_mid in I as [->|I]; auto. right. right; right; eauto.
    + destruct L as [L|L]; auto. right. intros q I. apply in_mid in I as [->|I]; [|apply L, in_mid; auto].
      intros [(? & ? & E)|(? & E)]; discriminate.
    + intros i Hi. destruct (P i Hi) as [E|[I|(o & I & Lo)]]; auto.
      * right; left. apply in_mid in I as [I|I]; [discriminate|]. apply in_mid; auto.
      * right; right. apply in_mid in I as [I|I]; [discriminate|]. exists o. split; [apply in_mid|]; auto.
  - left. apply in_mid; auto.
Qed.
Lemma nth_error_ext {A} (l r : list A) : List.length l <= List.length r ->
  (forall i, i < List.length r -> nth_error l i = nth_error r i) -> l = r.
Proof.
  revert r; induction l as [|x l IH]; intros [|y r] L H; cbn in L; auto; try lia.
  - specialize (H 0 (Nat.lt_0_succ _)). discriminate.
  - f_equal; [specialize (H 0 (Nat.lt_0_succ _)); now injection H|].
    apply IH; [lia|]. intros i Hi. apply (H (S i)). cbn; lia.
Qed.
Lemma same_text_result text old ps c ps' : (forall p, In p ps -> p = WriteStart text \/ p = ReadStart) ->
  In (WriteStart text) ps ->
  schedule old ps c ps' -> (forall p, In p ps' -> finished p) -> c = text.
Proof.
  intros Hs Hw S Hf.
  assert (Inv : same_inv text c ps').
  { eapply (schedule_inv (same_inv text) (same_step text)); [exact S|]. right. split; [|split].
    - intros p I. destruct (Hs p I) as [->| ->]; [left; left | right; left]; auto.
    - right. intros p I [(? & ? & ->)|(? & ->)]; destruct (Hs _ I); discriminate.
    - intros i _. auto. }
  assert (Hw' : exists p, In p ps' /\ (writes_text text p \/ p = Dead)).
  { eapply (schedule_inv (fun _ ps => exists p, In p ps /\ (writes_text text p \/ p = Dead))); [|exact S|].
    - intros c0 before p after c1 p1 (q & I & Q) C. apply in_mid in I as [->|I]; [|exists q; split; [apply in_mid|]; auto].
      exists p1. split; [apply in_mid; auto|]. unfold writes_text in *.
      inversion C; subst; auto; destruct Q as [[Q|[[o Q]|Q]]|Q]; try discriminate; try (injection Q as <-); try (injection Q as <- <-); eauto 8.
    - exists (WriteStart text). split; auto. left; left; auto. }
  destruct Inv as [D|(W & L & P)].
  { destruct (Hf _ D) as [[? E]|[? E]]; discriminate. }
  destruct Hw' as (q & I & Q).
  assert (Eq : q = Written text).
  { destruct (Hf q I) as [[t ->]|[g ->]]; destruct Q as [[Q|[[o Q]|Q]]|Q]; congruence. }
  subst q. destruct L as [L|L]; [|exfalso; apply (L _ I); right; eauto].
  apply nth_error_ext; auto. intros i Hi. destruct (P i Hi) as [E|[J|(o & J & _)]]; auto;
    destruct (Hf _ J) as [[? E]|[? E]]; discriminate.
Qed.

(** Whole writes of equally long texts. *)
Definition whole_inv (texts : list (list byte)) (n : nat) (old c : list byte) (ps : list proc) : Prop :=
  (forall p, In p ps -> p = Dead \/ reads p \/ exists t, In t texts /\ (p = WriteStart t \/ p = Writing t 0 \/ p = Writing t n \/ p = Written t))
  /\ ((c = old /\ forall p, In p ps -> ~ opened p) \/ (c = [] /\ (In Dead ps \/ exists t, In (Writing t 0) ps)) \/ In c texts).
Lemma whole_step texts n old c before p after c1 p1 :
  (forall t, In t texts -> List.length t = n) ->
  whole_inv texts n old c (before ++ p :: after) -> call c p c1 p1 ->
  (forall text off off', p = Writing text off -> p1 = Writing text off' -> off' = List.length text) ->
  whole_inv texts n old c1 (before ++ p1 :: after).
Proof.
  intros Hn (W & H) C Wh.
  assert (Wr : forall q, In q (before ++ after) -> q = Dead \/ reads q \/ exists t, In t texts /\ (q = WriteStart t \/ q = Writing t 0 \/ q = Writing t n \/ q = Written t)) by (intros q I; apply W, in_mid; auto).
  assert (Wp := W p (proj2 (in_mid before after p p) (or_introl eq_refl))).
  assert (Keep : ~ opened p1 -> c1 = c -> (p = Dead \/ reads p \/ exists t, p = WriteStart t) ->
    (c1 = old /\ forall q, In q (before ++ p1 :: after) -> ~ opened q)
    \/ (c1 = [] /\ (In Dead (before ++ p1 :: after) \/ exists t, In (Writing t 0) (before ++ p1 :: after))) \/ In c1 texts).
  { intros No -> Rd. destruct H as [(E & N)|[(E & [D|(t & I)])|I]]; auto.
    - left. split; auto. intros q I. apply in_mid in I as [->|I]; auto. apply N, in_mid; auto.
    - right; left. split; auto. left. apply in_mid in D as [<-|D]; apply in_mid; auto. inversion C; auto.
    - right; left. split; auto. right. exists t. apply in_mid in I as [I|I]; [|apply in_mid; auto].
      destruct Rd as [->|[[->|[[g ->]|[g ->]]]|[t' ->]]]; discriminate. }
  inversion C; subst.
  - (* truncate *)
    destruct Wp as [Q|[[Q|[[g Q]|[g Q]]]|(t & It & [Q|[Q|[Q|Q]]])]]; try discriminate. injection Q as ->. split.
    + intros q I. apply in_mid in I as [->|I]; auto. right; right. exists t. auto.
    + right; left. split; auto. right. exists t. apply in_mid; auto.
  - (* write *)
    assert (E := Wh _ _ _ eq_refl eq_refl).
    destruct Wp as [Q|[[Q|[[g Q]|[g Q]]]|(t & It & [Q|[Q|[Q|Q]]])]]; try discriminate; injection Q as -> ->;
      [|rewrite (Hn t It) in E; lia].
    assert (n0 = List.length t) by lia. subst n0. cbn [skipn]. rewrite firstn_all.
    assert (Lc : List.length c <= n).
    { destruct H as [(-> & N)|[(-> & _)|I]]; [|cbn; lia|now rewrite (Hn c I)].
      exfalso. apply (N (Writing t 0)); [apply in_mid; auto | left; eauto]. }
    assert (Ew : write_at c 0 t = t).
    { unfold write_at. cbn [firstn app Nat.add Nat.sub repeat]. rewrite skipn_all2, app_nil_r; auto. now rewrite (Hn t It). }
    rewrite Ew. split; [|auto].
    intros q I. apply in_mid in I as [->|I]; auto. right; right. exists t. split; auto. right; right; left. now rewrite E, Hn.
  - (* close *)
    destruct Wp as [Q|[[Q|[[g Q]|[g Q]]]|(t & It & [Q|[Q|[Q|Q]]])]]; try discriminate; injection Q as -> Q; split.
    + intros q I. apply in_mid in I as [->|I]; auto. right; right. exists t. auto 6.
    + (* an empty text *)
      apply length_zero_iff_nil in Q as Z. destruct H as [(-> & N)|[(-> & _)|I]]; auto.
      * exfalso. apply (N (Writing t (List.length t))); [apply in_mid; auto | left; eauto].
      * right; right. now rewrite <- Z.
    + intros q I. apply in_mid in I as [->|I]; auto. right; right. exists t. auto 6.
    + destruct H as [(-> & N)|[(-> & [D|(t' & I)])|I]]; auto.
      * exfalso. apply (N (Writing t (List.length t))); [apply in_mid; auto | left; eauto].
      * right; left. split; auto. left. apply in_mid in D as [D|D]; [discriminate|]. apply in_mid; auto.
      * apply in_mid in I as [I|I]; [|right; left; split; auto; right; exists t'; apply in_mid; auto].
        injection I as -> I. right; right. symmetry in I. apply length_zero_iff_nil in I. now rewrite <- I.
  - split; [|apply Keep; auto].
    + intros q I. apply in_mid in I as [->|I]; auto. right; left. right; left; eauto.
    + intros [(? & ? & E)|(? & E)]; discriminate.
    + right; left; left; auto.
  - split; [|apply Keep; auto].
    + intros q I. apply in_mid in I as [->|I]; auto. right; left. right; left; eauto.
    + intros [(? & ? & E)|(? & E)]; discriminate.
    + right; left; right; left; eauto.
  - split; [|apply Keep; auto].
    + intros q I. apply in_mid in I as [->|I]; auto. right; left. right; right; eauto.
    + intros [(? & ? & E)|(? & E)]; discriminate.
    + right; left; right; left; eauto.
  - (* die *) split.
    + intros q I. apply in_mid in I as [->|I]; auto.
    + destruct H as [(E & N)|[(E & _)|I]]; auto.
      * left. split; auto. intros q I. apply in_mid in I as [->|I]; [|apply N, in_mid; auto].
        intros [(? & ? & X)|(? & X)]; discriminate.
      * right; left. split; auto. left. apply in_mid; auto.
Qed.
Lemma whole_result texts n old ps c ps' : (forall t, In t texts -> List.length t = n) ->
  (forall p, In p ps -> p = ReadStart \/ exists t, In t texts /\ p = WriteStart t) ->
  whole_schedule old ps c ps' ->
  (c = old \/ c = [] \/ In c texts) /\ ((forall p, In p ps' -> finished p) -> (exists t, In (Written t) ps') -> In c texts).
Proof.
  intros Hn Hs S.
  assert (Inv : whole_inv texts n old c ps').
  { assert (I0 : whole_inv texts n old old ps).
    { split; [|left; split; auto].
      - intros p I. destruct (Hs p I) as [->|(t & It & ->)]; [right; left; left; auto | right; right; exists t; auto].
      - intros p I [(? & ? & ->)|(? & ->)]; destruct (Hs _ I) as [?|(? & _ & ?)]; discriminate. }
    assert (G : forall c0 p0 c1 p1, whole_schedule c0 p0 c1 p1 -> whole_inv texts n old c0 p0 -> whole_inv texts n old c1 p1).
    { clear - Hn. induction 1; intros I0; auto. apply IHwhole_schedule. eapply whole_step; eauto. }
    eapply G; eauto. }
  destruct Inv as (W & H). split.
  - destruct H as [(-> & _)|[(-> & _)|I]]; auto.
  - intros F (t & I). destruct H as [(_ & N)|[(_ & [D|(t' & J)])|J]]; auto.
    + exfalso. apply (N _ I). right; eauto.
    + destruct (F _ D) as [[? E]|[? E]]; discriminate.
    + destruct (F _ J) as [[? E]|[? E]]; discriminate.
Qed.

(** A reader of a file nobody writes. *)
Definition whole_reader (c : list byte) (p : proc) : Prop :=
  match p with
  | ReadStart | Dead => True
  | Reading got => exists k, got = firstn k c
  | HasRead got => got = c
  | _ => False
  end.
Lemma whole_reader_step c p c1 p1 : whole_reader c p -> call c p c1 p1 -> c1 = c /\ whole_reader c p1.
Proof.
  intros R C. inversion C; subst; cbn in R; try contradiction; (split; [reflexivity|]); cbn; auto.
  - exists 0. reflexivity.
  - destruct R as (k & ->). rewrite firstn_length. destruct (Nat.le_ge_cases k (List.length c1)).
    + rewrite Nat.min_l by auto. exists (k + n). now rewrite firstn_step.
    + exfalso. match goal with X : firstn _ _ <> [] |- _ => apply skipn_nonempty in X; rewrite firstn_length in X end. lia.
  - destruct R as (k & ->). rewrite firstn_length in *. apply firstn_all2. lia.
Qed.
