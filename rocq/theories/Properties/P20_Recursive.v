(** C91: recursive types. *)
From Coq Require Import ZArith Bool String Lia.
From Coq Require Import List.
Import ListNotations.
From Verif.Model Require Import Text Num Value Convert Serde.
From Verif.Spec Require Import Spec SerdeSpec RecSpec.
From Verif.Proofs Require Import Basics SerProofs DeProofs SerdeMore RoundTrip Recursive.
Local Open Scope nat_scope.

(** Reading a Value as a recursive type looks only as deep into the type as the
    Value is nested: all deeper unfoldings give the same result. *)
Theorem C91_reading_is_bounded_by_the_value : forall r, declared r -> guarded r ->
  forall v n m end_ end_', depth v < n -> depth v < m ->
  de (unfold_ty r n end_) v = de (unfold_ty r m end_') v.
Proof. exact unfold_enough. Qed.
Print Assumptions C91_reading_is_bounded_by_the_value.

(** It never panics if no enum occurs in the type. *)
Theorem C91_reading_never_panics : forall r, declared r -> guarded r ->
  (forall t, no_enum t -> no_enum (fill t r)) ->
  forall v n end_, depth v < n -> de (unfold_ty r n end_) v <> Panic.
Proof. exact unfold_no_panic. Qed.
Print Assumptions C91_reading_never_panics.

(** Data of a recursive type survive being saved and loaded, at any depth. *)
Theorem C91_recursive_data_survive : forall r, declared r -> guarded r ->
  (forall t, round_trips t -> never_none t -> round_trips (fill t r) /\ never_none (fill t r)) ->
  forall d, recursive_datum r d -> ~ data_wide d ->
  exists v, ser d = Done v /\ forall v', vequiv v v' -> uniq v' -> forall n end_, depth v' < n ->
    exists d', de (unfold_ty r n end_) v' = Done d' /\ data_equiv d d'.
Proof. exact unfold_survives. Qed.
Print Assumptions C91_recursive_data_survive.

(** The remaining types wrap themselves in newtypes and Options only, such as
    [struct Wrap(Option<Box<Wrap>>)]. *)
Theorem C91_every_type_is_guarded_or_bare : forall r, guarded r \/ bare r.
Proof. intros r. destruct (bare_or_guarded r); auto. Qed.
Print Assumptions C91_every_type_is_guarded_or_bare.

(** For them no unfolding is deep enough: reading anything but none does not end. *)
Theorem C91_bare_types_are_never_done_refuted : forall r, bare r -> forall v, v <> VNone -> uniq v ->
  forall n, de (unfold_ty r n TEnum) v = Panic /\ exists d, de (unfold_ty r n TValue) v = Done d.
Proof. intros r B v N U n. split; [now apply bare_never | now apply bare_end]. Qed.
Print Assumptions C91_bare_types_are_never_done_refuted.

(** examples/deserialize.rs: struct Person { name: String, age: i32, children: Vec<Person> } *)
Definition rx_person : rty := RStruct
  [(lit "name", RBase TString); (lit "age", RBase (TInt I32)); (lit "children", RSeq RSelf)].
Definition rx_leaf (n : str) (a : Z) : data := DStruct [(lit "name", DStr n); (lit "age", DInt I32 a); (lit "children", DSeq [])].
Definition rx_john : data := DStruct [(lit "name", DStr (lit "John")); (lit "age", DInt I32 30);
  (lit "children", DSeq [rx_leaf (lit "Alice") 5; rx_leaf (lit "Bob") 10])].
Example C91_example : declared rx_person /\ guarded rx_person
  /\ (forall t, no_enum t -> no_enum (fill t rx_person))
  /\ (forall t, round_trips t -> never_none t -> round_trips (fill t rx_person) /\ never_none (fill t rx_person))
  /\ recursive_datum rx_person rx_john
  /\ exists v, ser rx_john = Done v /\ depth v = 4 /\ de (unfold_ty rx_person 5 TEnum) v = Done rx_john.
Proof.
  split; [exact I|]. split; [constructor|]. split.
  { intros t N. cbn. constructor. intros n u [[= <- <-]|[[= <- <-]|[[= <- <-]|[]]]]; repeat constructor; auto. }
  split.
  { intros t R N. cbn. split; [|constructor]. constructor; [repeat constructor; cbn; intuition discriminate|].
    intros n u [[= <- <-]|[[= <- <-]|[[= <- <-]|[]]]]; repeat constructor; auto. }
  split.
  - exists 2. intros e. cbn.
    assert (L : forall t n a, (0 <= a <= 100)%Z -> has_type (fill t rx_person) (rx_leaf n a)).
    { intros t n a H. cbn. apply HtStruct; [reflexivity|]. cbn [map snd]. apply Forall2_cons; [constructor|].
      apply Forall2_cons; [constructor; split; cbn; [lia | tauto]|]. apply Forall2_cons; [|constructor]. apply HtSeq. intros d []. }
    apply HtStruct; [reflexivity|]. cbn [map snd]. apply Forall2_cons; [constructor|]. apply Forall2_cons.
    { constructor. split; cbn; [lia | tauto]. }
    apply Forall2_cons; [|constructor]. apply HtSeq. intros d [<-|[<-|[]]]; apply (L e); lia.
  - eexists. split; [reflexivity|]. split; reflexivity.
Qed.
