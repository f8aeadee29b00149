(** C83, C84: processes that read and write one configuration file at the same
    time, one system call at a time. *)
From Coq Require Import ZArith Bool String Lia.
From Coq Require Import List.
Import ListNotations.
From Verif.Model Require Import Text Bytes.
From Verif.Spec Require Import BytesSpec.
From Verif.Proofs Require Import BytesProofs.
Local Open Scope nat_scope.

(** ** C83: reading while one process writes *)
(** Whatever the schedule: what a reader gets is a beginning of the old content
    continued, at the same offset, by the bytes of a beginning of the new one;
    the file holds the old content or a beginning of the new one, and exactly the
    new one once the writer has returned. *)
Theorem C83_a_reader_sees_old_bytes_then_new_bytes : forall old new readers c ps,
  (forall p, In p readers -> p = ReadStart) ->
  schedule old (WriteStart new :: readers) c ps ->
  (forall got, In (HasRead got) ps -> exists k m, k <= List.length old /\ m <= List.length new /\ got = splice old new k m)
  /\ (c = old \/ exists m, c = firstn m new)
  /\ (In (Written new) ps -> c = new).
Proof. intros old new readers c ps. apply race_result. Qed.
Print Assumptions C83_a_reader_sees_old_bytes_then_new_bytes.

(** Nothing smaller is guaranteed: each of these can happen. *)
Theorem C83_each_mixture_can_be_read : forall old new k m, k <= List.length old -> m <= List.length new ->
  exists c p, schedule old [WriteStart new; ReadStart] c [p; HasRead (splice old new k m)].
Proof. exact race_possible. Qed.
Print Assumptions C83_each_mixture_can_be_read.

(** A reader that starts after the writer has returned gets the new content, one
    that has returned before the writer starts the old one. *)
Theorem C83_reads_that_do_not_overlap_the_write : forall old new c got,
  (schedule new [Written new; ReadStart] c [Written new; HasRead got] -> got = new)
  /\ (schedule old [ReadStart] c [HasRead got] -> got = old).
Proof.
  intros old new c got. split; intros S.
  - refine (match schedule_inv (fun c ps => c = new /\ exists w r, ps = [w; r] /\ (w = Written new \/ w = Dead) /\ whole_reader new r) _ _ _ _ _ S _ with conj _ _ => _ end).
    + intros c0 before p after c1 p1 (-> & w & r & E & W & R) C. destruct before as [|b [|b' before]]; cbn in E.
      * injection E as -> ->. cbn. destruct W as [-> | ->]; inversion C; subst; split; auto; repeat eexists; auto.
      * injection E as -> -> ->. cbn. destruct (whole_reader_step _ _ _ _ R C) as (-> & R'). split; auto. repeat eexists; auto.
      * injection E as -> -> E. destruct before; discriminate.
    + split; auto. repeat eexists; auto.
    + destruct e0 as (w & r & E & _ & R). injection E as <- <-. exact R.
  - refine (match schedule_inv (fun c ps => c = old /\ exists r, ps = [r] /\ whole_reader old r) _ _ _ _ _ S _ with conj _ _ => _ end).
    + intros c0 before p after c1 p1 (-> & r & E & R) C. destruct before as [|b before]; cbn in E.
      * injection E as -> ->. cbn. destruct (whole_reader_step _ _ _ _ R C) as (-> & R'). split; auto. repeat eexists; auto.
      * injection E as -> E. destruct before; discriminate.
    + split; auto. repeat eexists; auto.
    + destruct e0 as (r & E & R). injection E as <-. exact R.
Qed.
Print Assumptions C83_reads_that_do_not_overlap_the_write.

(** So a reader need not see a configuration that anyone wrote. *)
Definition text1 := utf8_encode (lit "a = 1; b = 1").
Definition text2 := utf8_encode (lit "a = 2; b = 2").
Theorem C83_a_reader_sees_one_version_refuted :
  ~ (forall old new c p got, schedule old [WriteStart new; ReadStart] c [p; HasRead got] -> got = old \/ got = new).
Proof.
  intros H. destruct (race_possible text1 text2 6 12) as (c & p & S); [cbn; lia..|].
  apply H in S as [E|E]; vm_compute in E; discriminate.
Qed.
Print Assumptions C83_a_reader_sees_one_version_refuted.
Example C83_example : splice text1 text2 6 12 = utf8_encode (lit "a = 1; b = 2").
Proof. reflexivity. Qed.

(** ** C84: several processes write *)
(** Writers of one and the same text: when all have returned, the file holds it. *)
Theorem C84_writers_of_the_same_text_agree : forall text old ps c ps',
  (forall p, In p ps -> p = WriteStart text \/ p = ReadStart) -> In (WriteStart text) ps ->
  schedule old ps c ps' -> (forall p, In p ps' -> finished p) -> c = text.
Proof. exact same_text_result. Qed.
Print Assumptions C84_writers_of_the_same_text_agree.

(** Writers of equally long texts, each handed over in one system call: the file
    never holds anything but the old content, nothing, or one of the texts - and
    one of the texts when all have returned. *)
Theorem C84_whole_writes_of_one_length : forall texts n old ps c ps', (forall t, In t texts -> List.length t = n) ->
  (forall p, In p ps -> p = ReadStart \/ exists t, In t texts /\ p = WriteStart t) ->
  whole_schedule old ps c ps' ->
  (c = old \/ c = [] \/ In c texts)
  /\ ((forall p, In p ps' -> finished p) -> (exists t, In (Written t) ps') -> In c texts).
Proof. exact whole_result. Qed.
Print Assumptions C84_whole_writes_of_one_length.
Theorem C84_whole_schedules_are_schedules : forall c ps c' ps', whole_schedule c ps c' ps' -> schedule c ps c' ps'.
Proof. induction 1; [constructor|]. eapply SchedCall; eauto. Qed.
Print Assumptions C84_whole_schedules_are_schedules.

(** Texts of different lengths mix, although every process hands over its whole
    text at once and gets Ok: here nobody has written x = 1999. *)
Theorem C84_the_last_writer_wins_refuted : exists old,
  whole_schedule old [WriteStart (utf8_encode (lit "x = 9999")); WriteStart (utf8_encode (lit "x = 1"))]
                     (utf8_encode (lit "x = 1999"))
                     [Written (utf8_encode (lit "x = 9999")); Written (utf8_encode (lit "x = 1"))].
Proof.
  set (ta := utf8_encode (lit "x = 9999")). set (tb := utf8_encode (lit "x = 1")). exists [].
  eapply (WholeCall _ [] (WriteStart ta) [WriteStart tb]); [constructor | discriminate |].
  eapply (WholeCall _ [Writing ta 0] (WriteStart tb) []); [constructor | discriminate |].
  eapply (WholeCall _ [] (Writing ta 0) [Writing tb 0]).
  { apply (CallWrite [] ta 0 8); cbn; lia. } { intros t o o' E1 E2. injection E1 as <- <-. injection E2 as <-. reflexivity. }
  eapply (WholeCall _ [Writing ta 8] (Writing tb 0) []).
  { apply (CallWrite _ tb 0 5); cbn; lia. } { intros t o o' E1 E2. injection E1 as <- <-. injection E2 as <-. reflexivity. }
  eapply (WholeCall _ [] (Writing ta 8) [Writing tb 5]); [constructor; reflexivity | discriminate |].
  eapply (WholeCall _ [Written ta] (Writing tb 5) []); [constructor; reflexivity | discriminate |].
  constructor.
Qed.
Print Assumptions C84_the_last_writer_wins_refuted.

(** A process that has got Ok need not find its text, not even when all write the
    same: here the other one dies after truncating, and the file begins with a
    zero byte. *)
Theorem C84_ok_means_the_file_holds_the_text_refuted : exists old text,
  schedule old [WriteStart text; WriteStart text] (0%Z :: tl text) [Written text; Dead]
  /\ text = utf8_encode (lit "x = 1").
Proof.
  set (t := utf8_encode (lit "x = 1")). exists [], t. split; [|reflexivity].
  eapply (SchedCall _ [] (WriteStart t) [WriteStart t]); [constructor|].
  eapply (SchedCall _ [] (Writing t 0) [WriteStart t]); [apply (CallWrite [] t 0 1); cbn; lia|].
  eapply (SchedCall _ [Writing t 1] (WriteStart t) []); [constructor|].
  eapply (SchedCall _ [] (Writing t 1) [Writing t 0]); [apply (CallWrite [] t 1 4); cbn; lia|].
  eapply (SchedCall _ [] (Writing t 5) [Writing t 0]); [constructor; reflexivity|].
  eapply (SchedCall _ [Written t] (Writing t 0) []); [apply CallDie|].
  constructor.
Qed.
Print Assumptions C84_ok_means_the_file_holds_the_text_refuted.
