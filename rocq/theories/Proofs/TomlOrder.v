(** The order of sections and settings (C135). *)
From Coq Require Import ZArith Bool String Lia.
From Coq Require Import List.
Import ListNotations.
From Verif.Model Require Import Text Num Flt Value Serde Visitor Layers Toml TomlText.
From Verif.Spec Require Import Spec Numerals TomlSpec TomlTextSpec TomlGrammar TomlArrays TomlOrder.
From Verif.Proofs Require Import Basics TomlProofs TomlLex TomlNum TomlValues TomlDoc TomlProper TomlSim TomlJoin TomlFrame TomlHand TomlWords TomlKinds TomlTables TomlRead TomlReadValues TomlReadDoc TomlMeaning TomlArrays.
Local Open Scope Z_scope.

(** ** Tables that differ in the order of their keys only *)
Inductive orel {A} (R : A -> A -> Prop) : option A -> option A -> Prop :=
| OrNone : orel R None None
| OrSome x y : R x y -> orel R (Some x) (Some y).
Inductive neq : node -> node -> Prop :=
| NqVal t : neq (NVal t) (NVal t)
| NqTab i d m m' : (forall k, orel neq (mget k m) (mget k m')) -> neq (NTab i d m) (NTab i d m')
| NqArr l l' : Forall2 (fun m m' => forall k, orel neq (mget k m) (mget k m')) l l' -> neq (NArr l) (NArr l').
Definition meq (m m' : list (str * node)) : Prop := forall k, orel neq (mget k m) (mget k m').

Lemma neq_refl : forall n, neq n n.
Proof.
  fix IH 1. intros [t|i d m|l].
  - constructor.
  - constructor. induction m as [|[k n] m IHm]; intros q; cbn [mget]; [constructor|]. destruct (str_eqb q k); [constructor; apply IH | apply IHm].
  - constructor. induction l as [|m l IHl]; constructor; [|exact IHl].
    induction m as [|[k n] m IHm]; intros q; cbn [mget]; [constructor|]. destruct (str_eqb q k); [constructor; apply IH | apply IHm].
Qed.
Lemma orel_refl {A} (R : A -> A -> Prop) o : (forall x, R x x) -> orel R o o.
Proof. intros H. destruct o; constructor; auto. Qed.
Lemma meq_refl m : meq m m.
Proof. intros k. apply orel_refl, neq_refl. Qed.
Lemma meq_get m m' : (forall k, mget k m = mget k m') -> meq m m'.
Proof. intros H k. rewrite H. apply orel_refl, neq_refl. Qed.
Lemma orel_trans {A} (R : A -> A -> Prop) a b c : (forall x y z, a = Some x -> R x y -> R y z -> R x z) -> orel R a b -> orel R b c -> orel R a c.
Proof. intros T H1 H2. destruct H1; inversion H2; subst; constructor; eauto. Qed.
Lemma neq_trans : forall a b c, neq a b -> neq b c -> neq a c.
Proof.
  fix IH 1. intros a b c H1 H2. destruct a as [t|i d m|l].
  - inversion H1; subst. exact H2.
  - inversion H1 as [|? ? ? m1 E1|]; subst. inversion H2 as [|? ? ? m2 E2|]; subst. constructor.
    assert (G : forall q n, mget q m = Some n -> forall y z, neq n y -> neq y z -> neq n z).
    { clear - IH. induction m as [|[k n] m IHm]; intros q n0; cbn [mget]; [discriminate|]. destruct (str_eqb q k); [intros [= <-]; apply IH | apply IHm]. }
    intros q. eapply orel_trans; [|apply E1 | apply E2]. intros x y z E. exact (G q x E y z).
  - inversion H1 as [| |? l1 E1]; subst. inversion H2 as [| |? l2 E2]; subst. constructor. clear H1 H2. revert l1 l2 E1 E2.
    induction l as [|m l IHl]; intros l1 l2 E1 E2; inversion E1 as [|? y ? ly Hy Fy]; subst; inversion E2 as [|? z ? lz Hz Fz]; subst; constructor; [|eapply IHl; eassumption].
    assert (G : forall q n, mget q m = Some n -> forall y z, neq n y -> neq y z -> neq n z).
    { clear - IH. induction m as [|[k n] m IHm]; intros q n0; cbn [mget]; [discriminate|]. destruct (str_eqb q k); [intros [= <-]; apply IH | apply IHm]. }
    intros q. eapply orel_trans; [|apply Hy | apply Hz]. intros u v w E. exact (G q u E v w).
Qed.
Lemma meq_trans a b c : meq a b -> meq b c -> meq a c.
Proof. intros H1 H2 k. eapply orel_trans; [|apply H1 | apply H2]. intros x y z _. apply neq_trans. Qed.
Lemma omeq_trans a b c : orel meq a b -> orel meq b c -> orel meq a c.
Proof. apply orel_trans. intros x y z _. apply meq_trans. Qed.

(** ** Equal keys only matter *)
Definition obind {A B} (o : option A) (f : A -> option B) : option B := match o with Some x => f x | None => None end.
Fixpoint nset (k : str) (n : node) (m : list (str * node)) : list (str * node) :=
  match m with
  | [] => [(k, n)]
  | (k', x) :: t => if str_eqb k k' then (k', n) :: t else (k', x) :: nset k n t
  end.
Lemma alter_set k f m : alter k f m = option_map (fun n => nset k n m) (f (mget k m)).
Proof.
  induction m as [|[k' x] m IH]; cbn [alter mget nset]; [destruct (f None); reflexivity|]. destruct (str_eqb_spec k k') as [<-|N].
  - destruct (f (Some x)); reflexivity.
  - rewrite IH. destruct (f (mget k m)); reflexivity.
Qed.
Lemma get_set k n m q : mget q (nset k n m) = if str_eqb q k then Some n else mget q m.
Proof.
  induction m as [|[k' x] m IH]; cbn [nset mget]; [reflexivity|]. destruct (str_eqb_spec k k') as [<-|N]; cbn [mget].
  - destruct (str_eqb q k); reflexivity.
  - rewrite IH. destruct (str_eqb_spec q k') as [->|N2]; [|reflexivity]. destruct (str_eqb_spec k' k); [congruence | reflexivity].
Qed.
Lemma alter_meq k f g m m' : meq m m' -> (forall o o', orel neq o o' -> orel neq (f o) (g o')) -> orel meq (alter k f m) (alter k g m').
Proof.
  intros H F. rewrite !alter_set. destruct (F _ _ (H k)) as [|n n' N]; constructor. intros q. rewrite !get_set. destruct (str_eqb q k); [now constructor | apply H].
Qed.
Lemma alter_ext k f g m : (forall o, f o = g o) -> alter k f m = alter k g m.
Proof. intros H. rewrite !alter_set. now rewrite H. Qed.
Lemma last_meq f g l l' : Forall2 meq l l' -> (forall m m', meq m m' -> orel meq (f m) (g m')) -> orel (Forall2 meq) (on_last f l) (on_last g l').
Proof.
  intros F H. induction F as [|m m' l l' M F IH]; [constructor|]. destruct F as [|x y l l' X F].
  - cbn [on_last]. destruct (H _ _ M); constructor. now constructor.
  - change (on_last f (m :: x :: l)) with (match on_last f (x :: l) with Some t => Some (m :: t) | None => None end).
    change (on_last g (m' :: y :: l')) with (match on_last g (y :: l') with Some t => Some (m' :: t) | None => None end).
    destruct IH; constructor. now constructor.
Qed.
Lemma last_ext {A} (f g : A -> option A) l : (forall x, f x = g x) -> on_last f l = on_last g l.
Proof. intros H. induction l as [|x [|y l] IH]; [reflexivity | cbn; now rewrite H|]. change (on_last f (x :: y :: l)) with (match on_last f (y :: l) with Some t => Some (x :: t) | None => None end). now rewrite IH. Qed.
Definition cong (F : bool -> list (str * node) -> option (list (str * node))) : Prop := forall b m m', meq m m' -> orel meq (F b m) (F b m').
Lemma descend_meq d F G : (forall b m m', meq m m' -> orel meq (F b m) (G b m')) -> forall p b m m', meq m m' -> orel meq (descend d p b F m) (descend d p b G m').
Proof.
  intros H. induction p as [|k p IH]; intros b m m' M; [now apply H|]. cbn [descend]. apply alter_meq; [exact M|]. intros o o' O. destruct O as [|n n' N].
  - destruct (IH d [] [] (meq_refl [])); constructor. constructor. assumption.
  - inversion N as [t|i e x x' X|l l' L]; subst; [constructor | |].
    + destruct (d && negb i); [constructor|]. destruct (IH e x x' X); constructor. constructor. assumption.
    + destruct (last_meq _ _ l l' L (fun m m' M => IH false m m' M)); constructor. constructor. assumption.
Qed.
Lemma descend_ext d F G : (forall b m, F b m = G b m) -> forall p b m, descend d p b F m = descend d p b G m.
Proof.
  intros H. induction p as [|k p IH]; intros b m; [apply H|]. cbn [descend]. apply alter_ext. intros [[t|i e x|l]|]; try reflexivity; rewrite ?IH; try reflexivity.
  now rewrite (last_ext _ (descend d p false G)).
Qed.
Lemma descend_app d q F : forall r b m, descend d (r ++ q) b F m = descend d r b (fun b m => descend d q b F m) m.
Proof.
  induction r as [|k r IH]; intros b m; [reflexivity|]. cbn [app descend]. apply alter_ext. intros [[t|i e x|l]|]; try reflexivity; rewrite ?IH; try reflexivity.
  now rewrite (last_ext _ (descend d r false (fun b m => descend d q b F m))).
Qed.
Lemma entry_meq p k t m m' : meq m m' -> orel meq (put_entry p k t m) (put_entry p k t m').
Proof.
  unfold put_entry. apply descend_meq. intros b x x' X. destruct (Bool.eqb b _); [constructor|]. apply alter_meq; [exact X|]. intros o o' O. destruct O; constructor. apply neq_refl.
Qed.
Definition alike (es es' : list (list str * toml_value)) : Prop := forall m m', meq m m' -> orel meq (put_entries es m) (put_entries es' m').
Lemma alike_refl es : alike es es.
Proof.
  induction es as [|[p t] es IH]; intros m m' M; cbn [put_entries]; [now constructor|]. destruct (entry_meq (removelast p) (List.last p []) t m m' M); [constructor | now apply IH].
Qed.
Lemma section_meq b p es es' m m' : alike es es' -> meq m m' -> orel meq (put_section b p es m) (put_section b p es' m').
Proof.
  intros A. unfold put_section. apply descend_meq. intros _ x x' X. apply alter_meq; [exact X|]. intros o o' O. pose proof (A [] [] (meq_refl [])) as A0. destruct b.
  - destruct O as [|n n' N]; [destruct A0; constructor; constructor; now repeat constructor|].
    inversion N as [t|i e y y' Y|l l' L]; subst; [constructor | constructor |]. destruct A0; constructor. constructor. apply Forall2_app; auto.
  - destruct O as [|n n' N]; [destruct A0; constructor; now constructor|].
    inversion N as [t|i e y y' Y|l l' L]; subst; [constructor | | constructor]. destruct i, e; try constructor. destruct (A y y' Y); constructor. now constructor.
Qed.
Lemma run_meq f : forall l m m', meq m m' -> orel meq (run_sections f l m) (run_sections f l m').
Proof.
  induction f as [|f IH]; intros l m m' M; [constructor|]. cbn [run_sections]. destruct l as [|[b p|p t] l]; [now constructor | | constructor].
  destruct (entries_before l) as [es r]. destruct (section_meq b p es es m m' (alike_refl es) M); [constructor | now apply IH].
Qed.

Lemma alter_same k f g m : orel neq (f (mget k m)) (g (mget k m)) -> orel meq (alter k f m) (alter k g m).
Proof. intros F. rewrite !alter_set. destruct F as [|n n' N]; constructor. intros q. rewrite !get_set. destruct (str_eqb q k); [now constructor | apply meq_refl]. Qed.
Lemma last_same f g l : (forall m, In m l -> orel meq (f m) (g m)) -> orel (Forall2 meq) (on_last f l) (on_last g l).
Proof.
  assert (R : forall l, Forall2 meq l l) by (clear; induction l; constructor; auto using meq_refl).
  induction l as [|x [|y l] IH]; intros H; [constructor | cbn [on_last]; destruct (H x ltac:(now left)); constructor; now repeat constructor|].
  change (on_last f (x :: y :: l)) with (match on_last f (y :: l) with Some t => Some (x :: t) | None => None end).
  change (on_last g (x :: y :: l)) with (match on_last g (y :: l) with Some t => Some (x :: t) | None => None end).
  destruct IH; [intros m J; apply H; now right | constructor | constructor; constructor; auto using meq_refl].
Qed.

(** ** Commuting *)
Definition commute (F G : bool -> list (str * node) -> option (list (str * node))) : Prop := forall b m, orel meq (obind (F b m) (G b)) (obind (G b m) (F b)).
Lemma last_bind f g l : on_last (fun m => obind (f m) g) l = obind (@on_last (list (str * node)) f l) (on_last g).
Proof.
  induction l as [|x [|y l] IH]; [reflexivity | cbn [on_last]; destruct (f x); reflexivity|].
  change (on_last (fun m => obind (f m) g) (x :: y :: l)) with (match on_last (fun m => obind (f m) g) (y :: l) with Some t => Some (x :: t) | None => None end). rewrite IH.
  change (on_last f (x :: y :: l)) with (match on_last f (y :: l) with Some t => Some (x :: t) | None => None end). destruct (on_last f (y :: l)) as [t|] eqn:E; [|reflexivity]. cbn [obind].
  assert (N : t <> []) by (intros ->; pose proof (on_last_full f _ _ E); congruence). destruct t as [|z t]; [congruence|]. reflexivity.
Qed.
Lemma alter_alter k f g m : obind (alter k f m) (alter k g) = alter k (fun o => obind (f o) (fun n => g (Some n))) m.
Proof.
  rewrite !alter_set. destruct (f (mget k m)) as [n|] eqn:E; [|reflexivity]. cbn [option_map obind]. rewrite alter_set, get_set, str_eqb_refl. destruct (g (Some n)) as [n'|]; [|reflexivity]. cbn [option_map]. f_equal.
  induction m as [|[k' x] m IH]; cbn [nset]; [now rewrite str_eqb_refl|]. cbn [mget] in E. destruct (str_eqb_spec k k') as [<-|N].
  - cbn [nset]. now rewrite str_eqb_refl.
  - cbn [nset]. destruct (str_eqb_spec k k'); [congruence|]. now rewrite IH.
Qed.
Lemma level_commute a a' (c c' : bool -> bool) g g' : a <> a' -> commute (fun b m => if c b then None else alter a g m) (fun b m => if c' b then None else alter a' g' m).
Proof.
  intros N b m. assert (X : str_eqb a' a = false) by (apply str_eqb_neq; congruence). assert (Y : str_eqb a a' = false) by now apply str_eqb_neq.
  destruct (c b), (c' b); cbn [obind]; [constructor | destruct (alter _ _ m); constructor | destruct (alter _ _ m); constructor|].
  rewrite !alter_set. destruct (g (mget a m)) as [n|] eqn:E1, (g' (mget a' m)) as [n'|] eqn:E2; cbn [option_map obind]; rewrite ?alter_set, ?get_set, ?X, ?Y, ?E1, ?E2; cbn [option_map]; constructor.
  apply meq_get. intros q. rewrite !get_set. destruct (str_eqb_spec q a) as [Ea|], (str_eqb_spec q a') as [Eb|]; congruence.
Qed.
Lemma descend_commute d F G : commute F G -> forall r b m, orel meq (obind (descend d r b F m) (descend d r b G)) (obind (descend d r b G m) (descend d r b F)).
Proof.
  intros H. induction r as [|k r IH]; intros b m; [apply H|]. cbn [descend].
  rewrite !alter_alter. apply alter_same. destruct (mget k m) as [[t|i e x|l]|]; cbn [obind].
  - constructor.
  - destruct (d && negb i) eqn:D; cbn [obind]; [constructor|].
    assert (E : forall F G : bool -> list (str * node) -> option (list (str * node)),
      obind (option_map (NTab i e) (descend d r e F x)) (fun n => match n with NVal _ => None | NTab imp dot m' => if d && negb imp then None else option_map (NTab imp dot) (descend d r dot G m') | NArr l => option_map NArr (on_last (descend d r false G) l) end)
      = option_map (NTab i e) (obind (descend d r e F x) (descend d r e G))) by (intros F0 G0; destruct (descend d r e F0 x); cbn [option_map obind]; rewrite ?D; reflexivity).
    cbn beta. rewrite !E. destruct (IH e x); constructor. constructor. assumption.
  - assert (E : forall F G : bool -> list (str * node) -> option (list (str * node)),
      obind (option_map NArr (on_last (descend d r false F) l)) (fun n => match n with NVal _ => None | NTab imp dot m' => if d && negb imp then None else option_map (NTab imp dot) (descend d r dot G m') | NArr l => option_map NArr (on_last (descend d r false G) l) end)
      = option_map NArr (on_last (fun m => obind (descend d r false F m) (descend d r false G)) l)) by (intros F0 G0; rewrite last_bind; destruct (on_last (descend d r false F0) l); reflexivity).
    cbn beta. rewrite !E. destruct (last_same _ (fun m => obind (descend d r false G m) (descend d r false F)) l (fun m _ => IH false m)); constructor. constructor. assumption.
  - assert (E : forall F G : bool -> list (str * node) -> option (list (str * node)),
      obind (option_map (NTab true d) (descend d r d F [])) (fun n => match n with NVal _ => None | NTab imp dot m' => if d && negb imp then None else option_map (NTab imp dot) (descend d r dot G m') | NArr l => option_map NArr (on_last (descend d r false G) l) end)
      = option_map (NTab true d) (obind (descend d r d F []) (descend d r d G))) by (intros F0 G0; destruct (descend d r d F0 []); cbn [option_map obind negb]; rewrite ?andb_false_r; reflexivity).
    cbn beta. rewrite !E. destruct (IH d []); constructor. constructor. assumption.
Qed.

(** ** Paths apart *)
Lemma apart_split (p q : list str) : apart p q -> exists r a b p' q', a <> b /\ p = r ++ a :: p' /\ q = r ++ b :: q'.
Proof.
  revert q. induction p as [|x p IH]; intros q [H1 H2]; [destruct H1; exists q; reflexivity|]. destruct q as [|y q]; [destruct H2; exists (x :: p); reflexivity|].
  destruct (str_eqb_spec x y) as [<-|N].
  - destruct (IH q) as (r & a & b & p' & q' & Nab & -> & ->).
    + split; [intros (z & E); apply H1; exists z; cbn; now rewrite E | intros (z & E); apply H2; exists z; cbn; now rewrite E].
    + exists (x :: r), a, b, p', q'. auto.
  - exists [], x, y, p, q. auto.
Qed.
Lemma apart_sym {p q : list str} : apart p q -> apart q p.
Proof. intros [A B]. now split. Qed.
Lemma last_cons_app (r : list str) a p' : List.last (r ++ a :: p') [] = List.last (a :: p') [].
Proof. apply last_app. discriminate. Qed.
Lemma entry_level r a p' t : exists (c : bool -> bool) g, forall m,
  put_entry (removelast (r ++ a :: p')) (List.last (r ++ a :: p') []) t m = descend true r false (fun b m => if c b then None else alter a g m) m.
Proof.
  rewrite removelast_app', last_cons_app by discriminate. unfold put_entry. destruct p' as [|k p'].
  - cbn [removelast List.last]. rewrite app_nil_r. exists (fun b => Bool.eqb b (match r with [] => true | _ => false end)), (fun o => match o with None => Some (NVal t) | Some _ => None end). reflexivity.
  - change (removelast (a :: k :: p')) with (a :: removelast (k :: p')). set (q := removelast (k :: p')). exists (fun _ : bool => false). eexists. intros m. rewrite descend_app. apply descend_ext. intros b m'. cbn [descend]. reflexivity.
Qed.
Lemma section_level ar r a p' es : exists (c : bool -> bool) g, forall m,
  put_section ar (r ++ a :: p') es m = descend false r false (fun b m => if c b then None else alter a g m) m.
Proof.
  unfold put_section. rewrite removelast_app', last_cons_app by discriminate. destruct p' as [|k p'].
  - cbn [removelast List.last]. rewrite app_nil_r. exists (fun _ : bool => false). eexists. intros m. reflexivity.
  - change (removelast (a :: k :: p')) with (a :: removelast (k :: p')). set (q := removelast (k :: p')). exists (fun _ : bool => false). eexists. intros m. rewrite descend_app. apply descend_ext. intros b m'. cbn [descend]. reflexivity.
Qed.
Definition pe (e : list str * toml_value) (m : list (str * node)) : option (list (str * node)) := put_entry (removelast (fst e)) (List.last (fst e) []) (snd e) m.
Lemma entries_swap e e' m : apart (fst e) (fst e') -> orel meq (obind (pe e m) (pe e')) (obind (pe e' m) (pe e)).
Proof.
  unfold pe. destruct e as [p t], e' as [q u]. cbn [fst snd]. intros A. destruct (apart_split p q A) as (r & a & b & p' & q' & N & -> & ->).
  destruct (entry_level r a p' t) as (c & g & E), (entry_level r b q' u) as (c' & g' & E').
  rewrite E, E'. replace (obind (descend _ r false _ m) _) with (obind (descend true r false (fun b m => if c b then None else alter a g m) m) (descend true r false (fun b0 m => if c' b0 then None else alter b g' m))); [|destruct (descend true r false _ m); [cbn [obind]; now rewrite E' | reflexivity]].
  replace (obind (descend true r false (fun b0 m => if c' b0 then None else alter b g' m) m) _) with (obind (descend true r false (fun b0 m => if c' b0 then None else alter b g' m) m) (descend true r false (fun b m => if c b then None else alter a g m)));
    [|destruct (descend true r false (fun b0 m => if c' b0 then None else alter b g' m) m); [cbn [obind]; now rewrite E | reflexivity]].
  apply descend_commute, level_commute. exact N.
Qed.
Lemma sections_swap b p es b' q es' m : apart p q ->
  orel meq (obind (put_section b p es m) (put_section b' q es')) (obind (put_section b' q es' m) (put_section b p es)).
Proof.
  intros A. destruct (apart_split p q A) as (r & x & y & p' & q' & N & -> & ->).
  destruct (section_level b r x p' es) as (c & g & E), (section_level b' r y q' es') as (c' & g' & E').
  rewrite E, E'. replace (obind (descend _ r false _ m) _) with (obind (descend false r false (fun b m => if c b then None else alter x g m) m) (descend false r false (fun b0 m => if c' b0 then None else alter y g' m))); [|destruct (descend false r false _ m); [cbn [obind]; now rewrite E' | reflexivity]].
  replace (obind (descend false r false (fun b0 m => if c' b0 then None else alter y g' m) m) _) with (obind (descend false r false (fun b0 m => if c' b0 then None else alter y g' m) m) (descend false r false (fun b m => if c b then None else alter x g m)));
    [|destruct (descend false r false (fun b0 m => if c' b0 then None else alter y g' m) m); [cbn [obind]; now rewrite E | reflexivity]].
  apply descend_commute, level_commute. exact N.
Qed.
Lemma entries_cons e es m : put_entries (e :: es) m = obind (pe e m) (put_entries es).
Proof. destruct e as [p t]. unfold pe. cbn [put_entries fst snd]. destruct (put_entry _ _ t m); reflexivity. Qed.
Lemma alike_trans a b c : alike a b -> alike b c -> alike a c.
Proof. intros H1 H2 m m' M. eapply omeq_trans; [exact (H1 m m' M) | exact (H2 m' m' (meq_refl m'))]. Qed.
Lemma alike_app a b c d : alike a b -> alike c d -> alike (a ++ c) (b ++ d).
Proof. intros H1 H2 m m' M. rewrite !entries_app. destruct (H1 m m' M); [constructor | now apply H2]. Qed.
Lemma alike_two e e' : apart (fst e) (fst e') -> alike [e; e'] [e'; e].
Proof.
  intros A m m' M. eapply omeq_trans; [apply alike_refl; exact M|]. pose proof (entries_swap e e' m' A) as S. rewrite !entries_cons.
  assert (G : forall x y, obind (pe x m') (put_entries [y]) = obind (pe x m') (pe y)).
  { intros x y. destruct (pe x m') as [z|]; [|reflexivity]. cbn [obind]. rewrite entries_cons. destruct (pe y z); reflexivity. }
  now rewrite !G.
Qed.
Lemma alike_past e l : (forall e', In e' l -> apart (fst e) (fst e')) -> alike (e :: l) (l ++ [e]).
Proof.
  induction l as [|x l IH]; intros H; [apply alike_refl|]. apply (alike_trans _ (x :: e :: l)).
  - apply (alike_app [e; x] [x; e] l l); [apply alike_two, H; now left | apply alike_refl].
  - apply (alike_app [x] [x] (e :: l) (l ++ [e])); [apply alike_refl | apply IH; intros e' J; apply H; now right].
Qed.
Lemma alike_swap l1 l2 : (forall e e', In e l1 -> In e' l2 -> apart (fst e) (fst e')) -> alike (l1 ++ l2) (l2 ++ l1).
Proof.
  induction l1 as [|e l1 IH]; intros H; [rewrite app_nil_r; apply alike_refl|]. apply (alike_trans _ (e :: l2 ++ l1)).
  - apply (alike_app [e] [e] (l1 ++ l2) (l2 ++ l1)); [apply alike_refl | apply IH; intros x y J; apply H; now right].
  - replace (l2 ++ e :: l1) with ((l2 ++ [e]) ++ l1) by (now rewrite <- app_assoc). apply (alike_app (e :: l2) (l2 ++ [e]) l1 l1); [|apply alike_refl]. apply alike_past. intros y J. apply H; [now left | exact J].
Qed.

(** ** Statements *)
Definition some_entries (l : list (list str * toml_value)) : list statement := map ent l.
Lemma before_some l r : entries_before (some_entries l ++ r) = (l ++ fst (entries_before r), snd (entries_before r)).
Proof. unfold some_entries. induction l as [|[p t] l IH]; cbn [map app entries_before ent fst snd]; [apply surjective_pairing|]. now rewrite IH. Qed.
Lemma before_replaced A x y B : alike x y ->
  alike (fst (entries_before (A ++ some_entries x ++ B))) (fst (entries_before (A ++ some_entries y ++ B))) /\
  (snd (entries_before (A ++ some_entries x ++ B)) = snd (entries_before (A ++ some_entries y ++ B)) \/
   exists A', (List.length A' <= List.length A)%nat /\ snd (entries_before (A ++ some_entries x ++ B)) = A' ++ some_entries x ++ B /\ snd (entries_before (A ++ some_entries y ++ B)) = A' ++ some_entries y ++ B).
Proof.
  intros H. induction A as [|[b p|p t] A IH].
  - cbn [app]. rewrite !before_some. cbn [fst snd]. split; [apply alike_app; [exact H | apply alike_refl] | now left].
  - cbn [app entries_before fst snd]. split; [apply alike_refl|]. right. exists (SHead b p :: A). auto.
  - cbn [app entries_before]. destruct (entries_before (A ++ some_entries x ++ B)) as [e1 r1], (entries_before (A ++ some_entries y ++ B)) as [e2 r2]. cbn [fst snd] in *. destruct IH as [I1 I2]. split.
    + apply (alike_app [(p, t)] [(p, t)] e1 e2); [apply alike_refl | exact I1].
    + destruct I2 as [I2|(A' & L & E1 & E2)]; [now left | right; exists A'; cbn [List.length]; auto].
Qed.
Lemma run_replaced x y B : alike x y -> List.length x = List.length y -> forall f A m m', meq m m' -> (forall p t T, A ++ some_entries x ++ B <> SEntry p t :: T) ->
  orel meq (run_sections f (A ++ some_entries x ++ B) m) (run_sections f (A ++ some_entries y ++ B) m').
Proof.
  intros H Lxy. induction f as [|f IH]; intros A m m' M N; [constructor|]. destruct A as [|[b p|p t] A].
  - destruct x as [|[p t] x]; [|destruct (N p t (some_entries x ++ B) eq_refl)]. destruct y; [|discriminate Lxy]. cbn [app some_entries map]. now apply run_meq.
  - cbn [app run_sections]. destruct (before_replaced A x y B H) as [B1 B2].
    destruct (before_rest (A ++ some_entries x ++ B)) as (_ & _ & _).
    destruct (entries_before (A ++ some_entries x ++ B)) as [e1 r1] eqn:E1, (entries_before (A ++ some_entries y ++ B)) as [e2 r2] eqn:E2. cbn [fst snd] in *.
    destruct (section_meq b p e1 e2 m m' B1 M) as [|z z' Z]; [constructor|]. destruct B2 as [->|(A' & _ & -> & ->)]; [now apply run_meq|]. apply IH; [exact Z|].
    intros q u T E. assert (X : fst (entries_before (A' ++ some_entries x ++ B)) = []).
    { pose proof (f_equal (fun z => fst (entries_before (snd z))) E1) as X. cbn [snd] in X. rewrite <- X. clear. induction (A ++ some_entries x ++ B) as [|[b p|p t] l IH]; [reflexivity|reflexivity|]. cbn [entries_before]. destruct (entries_before l). exact IH. }
    rewrite E in X. cbn [entries_before] in X. destruct (entries_before T). discriminate X.
  - destruct (N p t (A ++ some_entries x ++ B) eq_refl).
Qed.
Lemma root_replaced A x y B : alike x y -> List.length x = List.length y -> orel meq (run_root (A ++ some_entries x ++ B)) (run_root (A ++ some_entries y ++ B)).
Proof.
  intros H Lxy. unfold run_root. destruct (before_replaced A x y B H) as [B1 B2]. pose proof (B1 [] [] (meq_refl [])) as P. destruct P as [|m m' M]; [constructor|].
  destruct B2 as [->|(A' & L & E1 & E2)].
  - now apply run_meq.
  - assert (X : fst (entries_before (A' ++ some_entries x ++ B)) = []).
    { rewrite <- E1. clear. induction (A ++ some_entries x ++ B) as [|[b p|p t] l IH]; [reflexivity|reflexivity|]. cbn [entries_before]. destruct (entries_before l). exact IH. }
    rewrite E1, E2. unfold some_entries in *. rewrite !app_length, !map_length, <- Lxy. apply (run_replaced x y B H Lxy); [exact M|].
    intros q u T E. unfold some_entries in E. rewrite E in X. cbn [entries_before] in X. destruct (entries_before T). discriminate X.
Qed.
Definition sect (b : bool) (p : list str) (es : list (list str * toml_value)) : list statement := SHead b p :: some_entries es.
Lemma run_sect f b p es B m : fst (entries_before B) = [] -> run_sections (S f) (sect b p es ++ B) m = obind (put_section b p es m) (run_sections f B).
Proof.
  intros H. unfold sect. cbn [app run_sections]. rewrite before_some, H, app_nil_r.
  assert (E : snd (entries_before B) = B) by (destruct B as [|[b0 p0|p0 t0] B]; [reflexivity | reflexivity | cbn [entries_before] in H; destruct (entries_before B); discriminate H]). rewrite E. destruct (put_section b p es m); reflexivity.
Qed.
Lemma root_swapped A b p es b' q es' B : apart p q -> fst (entries_before B) = [] ->
  orel meq (run_root (A ++ sect b p es ++ sect b' q es' ++ B)) (run_root (A ++ sect b' q es' ++ sect b p es ++ B)).
Proof.
  intros Ap H. rewrite !(root_then A) by reflexivity. destruct (run_root A) as [m|]; [|constructor].
  set (n := List.length (sect b p es ++ sect b' q es' ++ B)). assert (N : List.length (sect b' q es' ++ sect b p es ++ B) = n) by (unfold n; rewrite !app_length; lia). rewrite N.
  assert (N2 : exists k, n = S k) by (unfold n, sect; cbn [app List.length]; eauto). destruct N2 as (k & ->). rewrite !run_sect by (reflexivity || exact H).
  assert (G : forall b p es b' q es', obind (put_section b p es m) (run_sections (S k) (sect b' q es' ++ B)) = obind (obind (put_section b p es m) (put_section b' q es')) (run_sections k B)).
  { intros b1 p1 es1 b2 p2 es2. destruct (put_section b1 p1 es1 m) as [z|]; [|reflexivity]. cbn [obind]. now rewrite run_sect. }
  rewrite !G. destruct (sections_swap b p es b' q es' m Ap) as [|z z' Z]; [constructor|]. cbn [obind]. now apply run_meq.
Qed.

(** ** What they hold *)
Lemma tab_get (m : list (str * node)) k n : NoDup (map fst m) -> In (k, n) m <-> mget k m = Some n.
Proof. intros N. split; [now apply node_in | apply node_get]. Qed.
Lemma neq_shown : forall a b, neq a b -> proper_toml (of_node a) -> proper_toml (of_node b) -> vequiv (shown a) (shown b).
Proof.
  assert (T : forall m, (forall k n, In (k, n) m -> forall b, neq n b -> proper_toml (of_node n) -> proper_toml (of_node b) -> vequiv (shown n) (shown b)) ->
    forall m' i d i' d', meq m m' -> proper_toml (of_node (NTab i d m)) -> proper_toml (of_node (NTab i' d' m')) -> vequiv (shown (NTab i d m)) (shown (NTab i' d' m'))).
  { intros m IH m' i d i' d' M P P'. cbn [of_node] in P, P'. inversion P as [| | | | | |? N H]; subst. inversion P' as [| | | | | |? N' H']; subst. rewrite map_map in N, N'. cbn [fst] in N, N'.
    assert (Hp : forall k n, In (k, n) m -> proper_toml (of_node n)) by (intros k n J; apply (H k), in_map_iff; exists (k, n); auto).
    assert (Hp' : forall k n, In (k, n) m' -> proper_toml (of_node n)) by (intros k n J; apply (H' k), in_map_iff; exists (k, n); auto).
    unfold shown. cbn [of_node doc_value]. rewrite !map_map. cbn [fst snd]. constructor.
    - intros k x J. apply in_map_iff in J as ([k0 n] & [= <- <-] & J). pose proof (M k0) as O. rewrite (proj1 (tab_get m k0 n N) J) in O. inversion O as [|? n' Q E1 E2]; subst. symmetry in E2. apply (tab_get m' k0 n' N') in E2.
      exists (shown n'). split; [apply in_map_iff; exists (k0, n'); auto | apply (IH k0 n J n' Q); eauto].
    - intros k x J. apply in_map_iff in J as ([k0 n'] & [= <- <-] & J). pose proof (M k0) as O. rewrite (proj1 (tab_get m' k0 n' N') J) in O. inversion O as [|n ? Q E1 E2]; subst. symmetry in E1. apply (tab_get m k0 n N) in E1.
      exists (shown n). split; [apply in_map_iff; exists (k0, n); auto | apply (IH k0 n E1 n' Q); eauto]. }
  fix IH 1. intros a b Q P P'. destruct a as [t|i d m|l].
  - inversion Q; subst. apply vequiv_refl.
  - inversion Q as [|? ? ? m' M|]; subst. apply T; [|exact M | exact P | exact P'].
    clear - IH. induction m as [|[k n] m IHm]; intros k0 n0 J; [destruct J|]. destruct J as [[= <- <-]|J]; [apply IH | exact (IHm k0 n0 J)].
  - inversion Q as [| |? l' L]; subst. unfold shown. cbn [of_node doc_value]. rewrite !map_map. constructor. cbn [of_node] in P, P'. inversion P as [| | | | |? H|]; subst. inversion P' as [| | | | |? H'|]; subst. clear - IH T L H H'.
    revert l' L H'. induction l as [|m l IHl]; intros l' L H'; inversion L as [|? m' ? l2 M L2]; subst; [constructor|]. cbn [map]. constructor.
    + apply (T m) with (i := false) (d := false) (i' := false) (d' := false); [|exact M | apply (H _ (or_introl eq_refl)) | apply (H' _ (or_introl eq_refl))].
      clear - IH. induction m as [|[k n] m IHm]; intros k0 n0 J; [destruct J|]. destruct J as [[= <- <-]|J]; [apply IH | exact (IHm k0 n0 J)].
    + apply IHl; [intros x J; apply H; now right | exact L2 | intros x J; apply H'; now right].
Qed.
Lemma roots_load r lim s s' v : (forall m, doc_root lim s = Some m -> exists m', doc_root lim s' = Some m' /\ meq m m') -> is_text s' = is_text s ->
  toml_from_str (toml_codec r (toml_text lim)) s = Ok v -> exists v', toml_from_str (toml_codec r (toml_text lim)) s' = Ok v' /\ vequiv v v'.
Proof.
  intros H T E. destruct (load_iff r lim s v E) as (m & Ts & R & V & _). destruct (H m R) as (m' & R' & M). rewrite <- T in Ts. destruct (load_root r lim s' m' Ts R') as (v' & E' & V' & _).
  exists v'. split; [exact E'|]. apply (vequiv_trans _ (doc_value (TvTab (table_entries m)))); [now apply vequiv_sym|]. apply (vequiv_trans _ (doc_value (TvTab (table_entries m')))); [|exact V'].
  assert (Q : ts_parse (toml_text lim) s = Ok (TvTab (table_entries m))) by (apply crate_parse; rewrite T in Ts; eauto). assert (Q' : ts_parse (toml_text lim) s' = Ok (TvTab (table_entries m'))) by (apply crate_parse; eauto).
  apply (neq_shown (NTab false false m) (NTab false false m')); [now constructor | exact (proj1 (toml_text_tables lim s _ Q)) | exact (proj1 (toml_text_tables lim s' _ Q'))].
Qed.

Section Order.
Context (W : str -> value -> Prop) (lim : nat) (Wok : forall s v, word s -> W s v -> exists t, token_value s = Some t /\ doc_value t = v).
Lemma section_read p s : section_text W lim p s -> exists b tl, stms lim s = Some (sect b p tl) /\ ends_line s /\ p <> [].
Proof.
  intros H. inversion H as [p0 h l t Hh Hs|p0 h l t Hh Hs]; subst; destruct (settings_read W lim Wok l t Hs) as (tl & El & Sl & Enl & Pl).
  - destruct (header_read W lim Wok p h Hh) as (Sh & Eh & N). exists false, tl. split; [now rewrite (stms_app lim h _ _ Eh Sh), Sl|]. split; [now apply ends_app | exact N].
  - destruct (element_read lim p h Hh) as (Sh & Eh & N). exists true, tl. split; [now rewrite (stms_app lim h _ _ Eh Sh), Sl|]. split; [now apply ends_app | exact N].
Qed.
Lemma start_read a : file_start W lim a -> exists L, stms lim a = Some L /\ ends_line a.
Proof.
  intros (l & s & ps & Hs & Hp & ->). destruct (settings_read W lim Wok l s Hs) as (tl & El & Sl & Enl & Pl).
  assert (G : exists L, stms lim (List.concat (map snd ps)) = Some L /\ ends_line (List.concat (map snd ps))).
  { clear - Hp Wok. induction ps as [|[p t] ps IH]; [exists []; split; [reflexivity | now left]|]. destruct (IH (fun q u J => Hp q u (or_intror J))) as (L & S & En). destruct (section_read p t (Hp p t (or_introl eq_refl))) as (b & tl & St & Et & _).
    cbn [map List.concat snd]. exists (sect b p tl ++ L). split; [now rewrite (stms_app lim t _ _ Et St), S | now apply ends_app]. }
  destruct G as (L & S & En). exists (map ent tl ++ L). split; [now rewrite (stms_app lim s _ _ Enl Sl), S | now apply ends_app].
Qed.
Lemma no_mark_stms s L : stms lim s = Some L -> unmark s = s.
Proof. intros S. rewrite unmark_eq. destruct s as [|c u]; [reflexivity|]. destruct (Z.eqb_spec c 65279) as [->|]; [rewrite mark_fails in S; discriminate S | reflexivity]. Qed.
Lemma no_mark_head s t L : stms lim s = Some L -> s <> [] -> unmark (s ++ t) = s ++ t.
Proof. intros S N. rewrite unmark_app by exact N. now rewrite (no_mark_stms s L S). Qed.
Lemma text_swap (a s t b : str) : is_text (a ++ t ++ s ++ b) = is_text (a ++ s ++ t ++ b).
Proof. rewrite !is_text_app. destruct (is_text a), (is_text s), (is_text t), (is_text b); reflexivity. Qed.
Lemma sections_order r a p q s t b v : file_start W lim a -> section_text W lim p s -> section_text W lim q t -> apart p q -> b = [] \/ begins_section b ->
  toml_from_str (toml_codec r (toml_text lim)) (a ++ s ++ t ++ b) = Ok v -> exists v', toml_from_str (toml_codec r (toml_text lim)) (a ++ t ++ s ++ b) = Ok v' /\ vequiv v v'.
Proof.
  intros Ha Hs Ht Ap Hb. apply roots_load; [|apply text_swap]. destruct (start_read a Ha) as (La & Sa & Ea). destruct (section_read p s Hs) as (x & es & Ss & Es & _). destruct (section_read q t Ht) as (y & et & St & Et & _).
  assert (Ns : s <> []) by (intros ->; discriminate Ss). assert (Nt : t <> []) by (intros ->; discriminate St).
  assert (U : forall s t Ls, s <> [] -> stms lim s = Some Ls -> unmark (a ++ s ++ t ++ b) = a ++ s ++ t ++ b).
  { intros s0 t0 L0 N S0. rewrite app_assoc. apply (no_mark_head (a ++ s0) (t0 ++ b) (La ++ L0)); [now rewrite (stms_app lim a _ _ Ea Sa), S0|]. intros E. apply app_eq_nil in E as [_ E]. congruence. }
  intros m. unfold doc_root. rewrite (U s t _ Ns Ss), (U t s _ Nt St).
  rewrite !(stms_app lim a _ _ Ea Sa), (stms_app lim s (t ++ b) _ Es Ss), (stms_app lim t (s ++ b) _ Et St), (stms_app lim t b _ Et St), (stms_app lim s b _ Es Ss).
  destruct (stms lim b) as [Lb|] eqn:Sb; cbn [option_map]; [|discriminate]. intros R.
  assert (Hh : fst (entries_before Lb) = []) by (destruct Hb as [->|Hb]; [injection Sb as <-; reflexivity | exact (head_before lim b Lb Hb Sb)]).
  pose proof (root_swapped La x p es y q et Lb Ap Hh) as O. change (La ++ sect x p es ++ sect y q et ++ Lb) with (La ++ sect x p es ++ sect y q et ++ Lb) in O. rewrite R in O. inversion O as [|? m' M E1 E2]; subst. exists m'. auto.
Qed.
Lemma settings_order r a l k s t b v : file_start W lim a -> settings_text W lim l s -> settings_text W lim k t -> (forall e e', In e l -> In e' k -> apart (fst e) (fst e')) ->
  toml_from_str (toml_codec r (toml_text lim)) (a ++ s ++ t ++ b) = Ok v -> exists v', toml_from_str (toml_codec r (toml_text lim)) (a ++ t ++ s ++ b) = Ok v' /\ vequiv v v'.
Proof.
  intros Ha Hs Ht Ap. apply roots_load; [|apply text_swap]. destruct (start_read a Ha) as (La & Sa & Ea).
  destruct (settings_read W lim Wok l s Hs) as (tl & El & Ss & Es & _). destruct (settings_read W lim Wok k t Ht) as (tk & Ek & St & Et & _).
  assert (U : forall s t Ls Lt, stms lim s = Some Ls -> ends_line s -> stms lim t = Some Lt -> a ++ s ++ t <> [] -> unmark (a ++ s ++ t ++ b) = a ++ s ++ t ++ b).
  { intros s0 t0 L0 L1 S0 E0 S1 N. rewrite (app_assoc s0), app_assoc. apply (no_mark_head _ b (La ++ L0 ++ L1)); [|exact N]. rewrite (stms_app lim a _ _ Ea Sa), (stms_app lim s0 _ _ E0 S0), S1. reflexivity. }
  intros m. destruct (list_eq_dec Z.eq_dec (a ++ s ++ t) []) as [E|N].
  - apply app_eq_nil in E as [-> E]. apply app_eq_nil in E as [-> ->]. cbn [app]. intros R. exists m. split; [exact R | apply meq_refl].
  - assert (N2 : a ++ t ++ s <> []) by (intros E; apply N; apply app_eq_nil in E as [-> E]; apply app_eq_nil in E as [-> ->]; reflexivity).
    unfold doc_root. rewrite (U s t _ _ Ss Es St N), (U t s _ _ St Et Ss N2).
    rewrite !(stms_app lim a _ _ Ea Sa), (stms_app lim s (t ++ b) _ Es Ss), (stms_app lim t (s ++ b) _ Et St), (stms_app lim t b _ Et St), (stms_app lim s b _ Es Ss).
    destruct (stms lim b) as [Lb|]; cbn [option_map]; [|discriminate]. intros R.
    pose proof (root_replaced La (tl ++ tk) (tk ++ tl) Lb) as O. unfold some_entries in O. rewrite !map_app, <- !app_assoc in O. rewrite R in O.
    assert (A : alike (tl ++ tk) (tk ++ tl)).
    { apply alike_swap. intros e e' J J'. subst l k. exact (Ap _ _ (in_map plain_pair _ _ J) (in_map plain_pair _ _ J')). }
    specialize (O A ltac:(rewrite !app_length; lia)). inversion O as [|? m' M E1 E2]; subst. exists m'. auto.
Qed.
Lemma rearranged_apart (P : list str -> str -> Prop) ps ps' : rearranged ps ps' -> (forall p t, In (p, t) ps -> P p t) -> forall p t, In (p, t) ps' -> P p t.
Proof.
  induction 1 as [l|l p s q t l' A|a b c H1 I1 H2 I2]; intros H u w J; [auto | | exact (I2 (I1 H) u w J)]. apply H. apply in_app_or in J as [J|[J|[J|J]]]; apply in_or_app; cbn [In]; auto.
Qed.
Lemma rearranged_order r l a ps ps' b v : settings_text W lim l a -> (forall p t, In (p, t) ps -> section_text W lim p t) -> rearranged ps ps' -> b = [] \/ begins_section b ->
  toml_from_str (toml_codec r (toml_text lim)) (a ++ List.concat (map snd ps) ++ b) = Ok v ->
  exists v', toml_from_str (toml_codec r (toml_text lim)) (a ++ List.concat (map snd ps') ++ b) = Ok v' /\ vequiv v v'.
Proof.
  intros Ha Hp R Hb. revert v Hp. induction R as [l0|l0 p s q t l' A|x y z R1 I1 R2 I2]; intros v Hp E.
  - exists v. split; [exact E | apply vequiv_refl].
  - rewrite !map_app, !concat_app in *. cbn [map List.concat snd] in *.
    assert (Hl : List.concat (map snd l') ++ b = [] \/ begins_section (List.concat (map snd l') ++ b)).
    { destruct l' as [|[u w] l']; [cbn [map List.concat app]; destruct Hb as [->|Hb]; auto|]. right. cbn [map List.concat snd].
      assert (Sx : section_text W lim u w) by (apply (Hp u w); apply in_or_app; right; right; right; now left).
      inversion Sx as [p0 h k z Hh|p0 h k z Hh]; subst; inversion Hh as [p1 t1 w1 e1 _ _ B1 _]; subst; exists [], w1; rewrite <- !app_assoc; cbn [app]; eexists; repeat split; try exact B1; constructor. }
    rewrite <- !app_assoc in E. destruct (sections_order r (a ++ List.concat (map snd l0)) p q s t (List.concat (map snd l') ++ b) v) as (v' & E' & V).
    + exists l, a, l0. split; [exact Ha|]. split; [|reflexivity]. intros u w J. apply Hp, in_or_app. now left.
    + apply Hp, in_or_app. right. now left.
    + apply Hp, in_or_app. right. right. now left.
    + exact A.
    + exact Hl.
    + rewrite <- !app_assoc. exact E.
    + exists v'. split; [|exact V]. rewrite <- !app_assoc in *. exact E'.
  - destruct (I1 v Hp E) as (v1 & E1 & V1). destruct (I2 v1 (rearranged_apart _ _ _ R1 Hp) E1) as (v2 & E2 & V2). exists v2. split; [exact E2 | eapply vequiv_trans; eauto].
Qed.
End Order.
