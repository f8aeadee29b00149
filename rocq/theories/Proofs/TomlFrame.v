(** Statements act on their own top-level key only (TomlText). *)
From Coq Require Import ZArith Bool String Lia.
From Coq Require Import List.
Import ListNotations.
From Verif.Model Require Import Text Num Flt Value Toml TomlText.
From Verif.Proofs Require Import Basics TomlProper.
Local Open Scope Z_scope.

Definition head_key (p : list str) : str := match p with k :: _ => k | [] => [] end.
Definition stmt_key (s : statement) : str := match s with SHead _ p => head_key p | SEntry p _ => head_key p end.
Definition keys {A} (m : list (str * A)) : list str := map fst m.

Lemma alter_frame k f m n : ~ In k (keys m) -> alter k f (m ++ n) = option_map (app m) (alter k f n).
Proof.
  induction m as [|[k' x] m IH]; intros N; cbn [app].
  - destruct (alter k f n); reflexivity.
  - cbn [alter]. destruct (str_eqb k k') eqn:E; [apply str_eqb_eq in E; subst; destruct N; now left|].
    rewrite IH by (intros I; apply N; now right). destruct (alter k f n); reflexivity.
Qed.
(** A change of a top-level key. *)
Definition at_key (k : str) (F : list (str * node) -> option (list (str * node))) : Prop := exists f, forall m, F m = alter k f m.
Lemma descend_at dotted p isdot f k t : exists g, forall m,
  descend dotted (removelast (k :: p)) isdot (fun d m => if t d : bool then None else alter (List.last (k :: p) []) f m) m
  = if match p with [] => t isdot | _ => false end then None else alter k g m.
Proof.
  destruct p as [|k2 p]; [exists f; intros; reflexivity|]. change (removelast (k :: k2 :: p)) with (k :: removelast (k2 :: p)). cbn [descend].
  eexists. intros m. reflexivity.
Qed.
Lemma entry_at p t : exists g, forall m, put_entry (removelast p) (List.last p []) t m = alter (head_key p) g m.
Proof.
  destruct p as [|k p]; [eexists; intros m; reflexivity|]. unfold put_entry.
  destruct (descend_at true p false (fun o => match o with None => Some (NVal t) | Some _ => None end) k
    (fun d => Bool.eqb d (match removelast (k :: p) with [] => true | _ => false end))) as (g & H).
  exists g. intros m. rewrite H. destruct p; reflexivity.
Qed.
(** Which change it is, if the key is there already. *)
Lemma alter_hit k f m n : In k (keys m) -> (forall x, In (k, x) m -> f (Some x) = None) -> alter k f (m ++ n) = None.
Proof.
  induction m as [|[k' x] m IH]; intros I H; [destruct I|]. cbn [app alter]. destruct (str_eqb k k') eqn:E.
  - apply str_eqb_eq in E. subst k'. rewrite (H x) by now left. reflexivity.
  - destruct I as [I|I]; [cbn in I; subst k'; rewrite str_eqb_refl in E; discriminate E|]. rewrite IH; auto. intros y Hy. apply H. now right.
Qed.
Definition is_val (n : node) : bool := match n with NVal _ => true | _ => false end.
Definition vals (m : list (str * node)) : Prop := forall k n, In (k, n) m -> is_val n = true.

(** One statement, or one section. *)
Lemma entry_spec p t : exists g, (forall m, put_entry (removelast p) (List.last p []) t m = alter (head_key p) g m)
  /\ (forall x, g (Some (NVal x)) = None)
  /\ (forall o n, g o = Some n -> is_val n = true -> o = None /\ (p = [] \/ p = [head_key p])).
Proof.
  destruct p as [|k [|k2 p]].
  - exists (fun o => match o with None => Some (NVal t) | Some _ => None end). split; [reflexivity|]. split; [reflexivity|]. intros [o|] n E; [discriminate E|]. auto.
  - exists (fun o => match o with None => Some (NVal t) | Some _ => None end). split; [reflexivity|]. split; [reflexivity|]. intros [o|] n E; [discriminate E|]. auto.
  - unfold put_entry. change (removelast (k :: k2 :: p)) with (k :: removelast (k2 :: p)). cbn [descend head_key]. eexists. split; [intros m; reflexivity|].
    split; [reflexivity|]. intros o n E Vn. cbv beta in E. destruct o as [[x|i d m|l]|].
    + discriminate E.
    + destruct (true && negb i); [discriminate E|]. apply map_some in E as (y & _ & ->). discriminate Vn.
    + apply map_some in E as (y & _ & ->). discriminate Vn.
    + apply map_some in E as (y & _ & ->). discriminate Vn.
Qed.
Lemma section_spec b p es : exists g, (forall m, put_section b p es m = alter (head_key p) g m)
  /\ (forall x, g (Some (NVal x)) = None) /\ (forall o n, g o = Some n -> is_val n = false).
Proof.
  unfold put_section. assert (Z : removelast p = [] /\ List.last p [] = head_key p \/ exists k q, p = k :: q /\ removelast p = k :: removelast q).
  { destruct p as [|k [|k2 p]]; [left; auto | left; auto | right; eauto]. }
  destruct Z as [[-> ->]|(k & q & -> & ->)].
  - cbn [descend]. eexists. split; [intros m; reflexivity|]. split.
    + intros x. cbv beta. destruct b; reflexivity.
    + intros o n E. cbv beta in E. destruct b; [destruct o as [[x|i d m|l]|] | destruct o as [[x|[] [] m|l]|]]; try discriminate E; apply map_some in E as (y & _ & ->); reflexivity.
  - cbn [descend head_key]. eexists. split; [intros m; reflexivity|]. split; [reflexivity|].
    intros o n E. cbv beta in E. destruct o as [[x|i d m|l]|]; [discriminate E| | |]; cbn [andb] in E; apply map_some in E as (y & _ & ->); reflexivity.
Qed.

(** ** Frames *)
Lemma entries_frame l : forall m n, (forall p t, In (p, t) l -> ~ In (head_key p) (keys m)) ->
  put_entries l (m ++ n) = option_map (app m) (put_entries l n).
Proof.
  induction l as [|[p t] l IH]; intros m n N; cbn [put_entries]; [reflexivity|].
  destruct (entry_spec p t) as (g & E & _). rewrite !E, alter_frame by (apply (N p t); now left).
  destruct (alter (head_key p) g n) as [n'|]; cbn [option_map]; [|reflexivity]. apply IH. intros q u I. apply (N q u). now right.
Qed.
Lemma entries_clash l : forall m n, vals m -> (exists p t, In (p, t) l /\ In (head_key p) (keys m)) -> put_entries l (m ++ n) = None.
Proof.
  induction l as [|[p t] l IH]; intros m n V (q & u & I & K); [destruct I|]. cbn [put_entries]. destruct (entry_spec p t) as (g & E & H & _). rewrite E.
  destruct (in_dec (list_eq_dec Z.eq_dec) (head_key p) (keys m)) as [Y|N].
  - rewrite alter_hit; auto. intros x Ix. specialize (V _ _ Ix). destruct x; try discriminate V. apply H.
  - rewrite alter_frame by exact N. destruct (alter (head_key p) g n) as [n'|]; cbn [option_map]; [|reflexivity].
    apply IH; auto. destruct I as [[= -> ->]|I]; [contradiction | eauto].
Qed.
Lemma before_app l1 l2 : (forall s, In s l1 -> exists p t, s = SEntry p t) ->
  entries_before (l1 ++ l2) = (fst (entries_before l1) ++ fst (entries_before l2), snd (entries_before l2)).
Proof.
  induction l1 as [|s l1 IH]; intros H; cbn [app].
  - cbn [entries_before fst app]. now destruct (entries_before l2).
  - destruct (H s ltac:(now left)) as (p & t & ->). cbn [entries_before]. rewrite IH by (intros; apply H; now right).
    destruct (entries_before l1), (entries_before l2). reflexivity.
Qed.
Lemma before_keys l : forall p t, In (p, t) (fst (entries_before l)) -> In (SEntry p t) l.
Proof.
  induction l as [|[b q|q u] l IH]; intros p t I; cbn [entries_before] in I; [destruct I | destruct I|].
  destruct (entries_before l). cbn [fst] in *. destruct I as [[= -> ->]|I]; [now left | right; auto].
Qed.
Lemma before_rest l : exists l1, l = l1 ++ snd (entries_before l) /\ l1 = map (fun e => SEntry (fst e) (snd e)) (fst (entries_before l)).
Proof.
  induction l as [|[b q|q u] l (l1 & E & E1)]; cbn [entries_before]; [exists []; auto | exists []; auto|].
  destruct (entries_before l). cbn [fst snd] in *. exists (SEntry q u :: l1). cbn [app map fst snd]. split; congruence.
Qed.
Lemma sections_frame f : forall l m n, (forall b p, In (SHead b p) l -> ~ In (head_key p) (keys m)) ->
  run_sections f l (m ++ n) = option_map (app m) (run_sections f l n).
Proof.
  induction f as [|f IH]; intros l m n N; [reflexivity|]. cbn [run_sections]. destruct l as [|[b p|p t] l]; [reflexivity| |reflexivity].
  destruct (before_rest l) as (l1 & E & _). destruct (entries_before l) as [es r] eqn:Eb. cbn [fst snd] in *.
  destruct (section_spec b p es) as (g & G & _). rewrite !G, alter_frame by (apply (N b p); now left).
  destruct (alter (head_key p) g n) as [n'|]; cbn [option_map]; [|reflexivity]. apply IH. intros b' q I. apply (N b' q). right. rewrite E. apply in_or_app. now right.
Qed.
Lemma sections_clash f : forall l m n, vals m -> (exists b p, In (SHead b p) l /\ In (head_key p) (keys m)) -> run_sections f l (m ++ n) = None.
Proof.
  induction f as [|f IH]; intros l m n V (b0 & q & I & K); [reflexivity|]. cbn [run_sections]. destruct l as [|[b p|p t] l]; [destruct I| |reflexivity].
  destruct (before_rest l) as (l1 & E & E1). destruct (entries_before l) as [es r] eqn:Eb. cbn [fst snd] in *.
  destruct (section_spec b p es) as (g & G & H & _). rewrite G.
  destruct (in_dec (list_eq_dec Z.eq_dec) (head_key p) (keys m)) as [Y|N].
  - rewrite alter_hit; auto. intros x Ix. specialize (V _ _ Ix). destruct x; try discriminate V. apply H.
  - rewrite alter_frame by exact N. destruct (alter (head_key p) g n) as [n'|]; cbn [option_map]; [|reflexivity].
    apply IH; auto. destruct I as [[= -> ->]|I]; [contradiction|]. exists b0, q. split; auto. rewrite E in I. apply in_app_or in I as [I|I]; auto.
    rewrite E1 in I. apply in_map_iff in I as (e & X & _). discriminate X.
Qed.

(** ** The keys there are *)
Lemma alter_keys k f m m' : alter k f m = Some m' -> forall x, In x (keys m') <-> x = k \/ In x (keys m).
Proof.
  revert m'. induction m as [|[k' n] m IH]; intros m' E x; cbn [alter] in E.
  - destruct (f None); [|discriminate E]. injection E as <-. cbn. intuition.
  - destruct (str_eqb k k') eqn:Ek.
    + apply str_eqb_eq in Ek. subst k'. destruct (f (Some n)); [|discriminate E]. injection E as <-. cbn. intuition.
    + destruct (alter k f m) as [t'|]; [|discriminate E]. injection E as <-. specialize (IH t' eq_refl x). cbn in *. tauto.
Qed.
Lemma entries_keys l : forall m m', put_entries l m = Some m' -> forall x, In x (keys m') <-> In x (keys m) \/ exists p t, In (p, t) l /\ head_key p = x.
Proof.
  induction l as [|[p t] l IH]; intros m m' E x; cbn [put_entries] in E.
  - injection E as <-. split; [auto | intros [H|(p & t & [] & _)]; auto].
  - destruct (entry_spec p t) as (g & G & _). rewrite G in E. destruct (alter (head_key p) g m) as [m1|] eqn:Ea; [|discriminate E].
    rewrite (IH _ _ E x), (alter_keys _ _ _ _ Ea x). split.
    + intros [[->|I]|(q & u & I & K)]; [right; exists p, t; split; [now left | reflexivity] | auto | right; exists q, u; split; [now right | auto]].
    + intros [I|(q & u & [[= -> ->]|I] & K)]; [auto | left; left; auto | right; eauto].
Qed.
Lemma sections_keys f : forall l m m', run_sections f l m = Some m' -> forall x, In x (keys m') <-> In x (keys m) \/ exists b p, In (SHead b p) l /\ head_key p = x.
Proof.
  induction f as [|f IH]; intros l m m' E x; [discriminate E|]. cbn [run_sections] in E. destruct l as [|[b p|p t] l]; [| |discriminate E].
  - injection E as <-. split; [auto | intros [H|(p & t & [] & _)]; auto].
  - destruct (before_rest l) as (l1 & El & E1). destruct (entries_before l) as [es r] eqn:Eb. cbn [fst snd] in *.
    destruct (section_spec b p es) as (g & G & _). rewrite G in E. destruct (alter (head_key p) g m) as [m1|] eqn:Ea; [|discriminate E].
    rewrite (IH _ _ _ E x), (alter_keys _ _ _ _ Ea x). split.
    + intros [[->|I]|(q & u & I & K)]; [right; exists b, p; split; [now left | reflexivity] | auto |].
      right; exists q, u. split; [|auto]. right. rewrite El. apply in_or_app. now right.
    + intros [I|(q & u & [[= -> ->]|I] & K)]; [auto | left; left; auto |]. right. exists q, u. split; auto. rewrite El in I. apply in_app_or in I as [I|I]; auto.
      rewrite E1 in I. apply in_map_iff in I as (e & X & _). discriminate X.
Qed.

(** ** Documents of values only have no headers *)
Lemma alter_vals k f m m' : (forall o n, f o = Some n -> is_val n = true -> o = None) -> alter k f m = Some m' -> vals m' -> vals m /\ exists n, f None = Some n /\ is_val n = true.
Proof.
  intros F. revert m'. induction m as [|[k' x] m IH]; intros m' E V; cbn [alter] in E.
  - destruct (f None) as [n|] eqn:Ef; [|discriminate E]. injection E as <-. split; [intros ? ? []|]. exists n. split; auto. apply (V k). now left.
  - destruct (str_eqb k k') eqn:Ek.
    + destruct (f (Some x)) as [n|] eqn:Ef; [|discriminate E]. injection E as <-. specialize (F _ _ Ef (V k n ltac:(now left))). discriminate F.
    + destruct (alter k f m) as [t'|]; [|discriminate E]. injection E as <-. destruct (IH t' eq_refl) as [A B]; [intros k0 n0 I; apply (V k0); now right|].
      split; auto. intros k0 n0 [[= <- <-]|I]; [apply (V k'); now left | exact (A _ _ I)].
Qed.
Lemma sections_vals f : forall l m m', run_sections f l m = Some m' -> vals m' -> l = [].
Proof.
  induction f as [|f IH]; intros l m m' E V; [discriminate E|]. cbn [run_sections] in E. destruct l as [|[b p|p t] l]; [reflexivity| |discriminate E]. exfalso.
  destruct (entries_before l) as [es r]. destruct (section_spec b p es) as (g & G & _ & Hv). rewrite G in E.
  destruct (alter (head_key p) g m) as [m1|] eqn:Ea; [|discriminate E]. pose proof (IH _ _ _ E V). subst r. destruct f; [discriminate E|]. injection E as ->.
  assert (Hf : forall o n, g o = Some n -> is_val n = true -> o = None) by (intros o n H1 H2; rewrite (Hv o n H1) in H2; discriminate H2).
  destruct (alter_vals _ _ _ _ Hf Ea V) as (_ & n & H1 & H2). rewrite (Hv _ _ H1) in H2. discriminate H2.
Qed.

(** The list of tables of an array is never empty. *)
Definition full (m : list (str * node)) : Prop := forall k l, In (k, NArr l) m -> l <> [].
Lemma alter_full k f m m' : (forall o l, f o = Some (NArr l) -> l <> []) -> full m -> alter k f m = Some m' -> full m'.
Proof.
  intros F. revert m'. induction m as [|[k' x] m IH]; intros m' Fu E; cbn [alter] in E.
  - destruct (f None) as [n|] eqn:Ef; [|discriminate E]. injection E as <-. intros k0 l [[= <- ->]|[]]. eauto.
  - destruct (str_eqb k k').
    + destruct (f (Some x)) as [n|] eqn:Ef; [|discriminate E]. injection E as <-. intros k0 l [[= <- ->]|I]; [eauto|]. apply (Fu k0). now right.
    + destruct (alter k f m) as [t'|]; [|discriminate E]. injection E as <-. intros k0 l [[= <- ->]|I]; [apply (Fu k'); now left|].
      eapply IH; eauto. intros k1 l1 I1. apply (Fu k1). now right.
Qed.
Lemma on_last_full {A} (f : A -> option A) l l' : on_last f l = Some l' -> l' <> [].
Proof.
  destruct l as [|x l]; [discriminate|]. cbn [on_last]. destruct l as [|y l]; [destruct (f x); [intros [= <-]|]; discriminate|].
  destruct (on_last f (y :: l)); [intros [= <-]|]; discriminate.
Qed.
Lemma descend_full dotted f p d m m' : (forall b m m', full m -> f b m = Some m' -> full m') -> full m -> descend dotted p d f m = Some m' -> full m'.
Proof.
  intros F Fu E. destruct p as [|k p]; cbn [descend] in E; [eauto|]. eapply alter_full; [|exact Fu|exact E]. clear. intros o l E. cbv beta in E. destruct o as [[x|i b m|l']|].
  - discriminate E.
  - destruct (dotted && negb i); [discriminate E|]. apply map_some in E as (y & _ & X). discriminate X.
  - apply map_some in E as (y & E & [= ->]). eapply on_last_full; eauto.
  - apply map_some in E as (y & _ & X). discriminate X.
Qed.
Lemma entries_full l : forall m m', full m -> put_entries l m = Some m' -> full m'.
Proof.
  induction l as [|[p t] l IH]; intros m m' F E; cbn [put_entries] in E; [injection E as <-; exact F|]. destruct (put_entry _ _ _ m) as [m1|] eqn:Ep; [|discriminate E].
  eapply IH; [|exact E]. unfold put_entry in Ep. eapply descend_full; [|exact F|exact Ep]. intros b m2 m3 F2 E2. cbv beta in E2.
  destruct (Bool.eqb _ _); [discriminate E2|]. eapply alter_full; [|exact F2|exact E2]. intros [o|] l0 X; discriminate X.
Qed.
Lemma section_full b p es m m' : full m -> put_section b p es m = Some m' -> full m'.
Proof.
  intros F E. unfold put_section in E. eapply descend_full; [|exact F|exact E]. intros d m2 m3 F2 E2. cbv beta in E2. eapply alter_full; [|exact F2|exact E2].
  intros o l X. cbv beta in X. destruct b; [destruct o as [[x|i d' m0|l']|] | destruct o as [[x|[] [] m0|l']|]]; try discriminate X; apply map_some in X as (y & _ & X); try discriminate X; injection X as ->.
  - now destruct l'.
  - discriminate.
Qed.
Lemma run_full f : forall l m m', full m -> run_sections f l m = Some m' -> full m'.
Proof.
  induction f as [|f IH]; intros l m m' F E; [discriminate E|]. cbn [run_sections] in E. destruct l as [|[b p|p t] l]; [injection E as <-; exact F| |discriminate E].
  destruct (entries_before l) as [es r]. destruct (put_section b p es m) as [m1|] eqn:Ea; [|discriminate E]. eapply IH; [|exact E]. eapply section_full; eauto.
Qed.

(** ** Fuel *)
Lemma before_short l : (List.length (snd (entries_before l)) <= List.length l)%nat.
Proof. induction l as [|[b q|q u] l IH]; cbn [entries_before]; try (cbn; lia). destruct (entries_before l). cbn [snd List.length] in *. lia. Qed.
Lemma run_fuel n : forall l m f f', (List.length l <= n)%nat -> (List.length l < f)%nat -> (List.length l < f')%nat -> run_sections f l m = run_sections f' l m.
Proof.
  induction n as [|n IH]; intros l m f f' L F F'; (destruct f as [|f]; [lia|]); (destruct f' as [|f']; [lia|]); cbn [run_sections].
  - destruct l; [reflexivity | cbn in L; lia].
  - destruct l as [|[b p|p t] l]; [reflexivity| |reflexivity]. pose proof (before_short l). destruct (entries_before l) as [es r]. cbn [snd List.length] in *.
    destruct (put_section b p es m); [|reflexivity]. apply IH; lia.
Qed.

(** ** Whole documents *)
Definition run_root (l : list statement) : option (list (str * node)) :=
  match put_entries (fst (entries_before l)) [] with
  | None => None
  | Some root => run_sections (S (List.length (snd (entries_before l)))) (snd (entries_before l)) root
  end.
Lemma run_document_root l : run_document l = option_map of_table (run_root l).
Proof. unfold run_document, run_root. destruct (entries_before l). cbn [fst snd]. destruct (put_entries _ []); reflexivity. Qed.
Definition table_entries (m : list (str * node)) : list (str * toml_value) := map (fun e => (fst e, of_node (snd e))) m.
Lemma table_keys m : keys (table_entries m) = keys m.
Proof. unfold keys, table_entries. rewrite map_map. reflexivity. Qed.
Lemma root_full l m : run_root l = Some m -> full m.
Proof.
  unfold run_root. destruct (put_entries _ []) as [r|] eqn:E; [|discriminate]. apply run_full. eapply entries_full; [|exact E]. intros ? ? [].
Qed.
Lemma root_keys l m : run_root l = Some m -> forall x, In x (keys m) <->
  (exists p t, In (p, t) (fst (entries_before l)) /\ head_key p = x) \/ (exists b p, In (SHead b p) (snd (entries_before l)) /\ head_key p = x).
Proof.
  unfold run_root. destruct (put_entries _ []) as [r|] eqn:E; [|discriminate]. intros R x. rewrite (sections_keys _ _ _ _ R x), (entries_keys _ _ _ E x). cbn. tauto.
Qed.
(** Values only: no headers, every statement one entry. *)
Lemma root_vals l m : run_root l = Some m -> vals m -> snd (entries_before l) = [] /\ put_entries (fst (entries_before l)) [] = Some m
  /\ forall s, In s l -> exists p t, s = SEntry p t.
Proof.
  unfold run_root. destruct (before_rest l) as (l1 & El & E1). destruct (put_entries _ []) as [r|] eqn:E; [|discriminate]. intros R V.
  pose proof (sections_vals _ _ _ _ R V) as Z. rewrite Z in *. cbn in R. injection R as ->. split; auto. split; auto.
  intros s I. rewrite El, app_nil_r, E1 in I. apply in_map_iff in I as (e & <- & _). eauto.
Qed.
Lemma entries_app l1 l2 m : put_entries (l1 ++ l2) m = match put_entries l1 m with Some m' => put_entries l2 m' | None => None end.
Proof.
  revert m. induction l1 as [|[p t] l1 IH]; intros m; [reflexivity|]. cbn [app put_entries]. destruct (put_entry _ _ _ m); [apply IH | reflexivity].
Qed.

(** Values first, then anything with other keys. *)
Lemma root_app l1 l2 m1 : run_root l1 = Some m1 -> vals m1 ->
  (forall m2, run_root l2 = Some m2 -> (forall x, In x (keys m1) -> ~ In x (keys m2)) -> run_root (l1 ++ l2) = Some (m1 ++ m2)) /\
  (forall m, run_root (l1 ++ l2) = Some m -> exists m2, run_root l2 = Some m2 /\ m = m1 ++ m2 /\ forall x, In x (keys m1) -> ~ In x (keys m2)).
Proof.
  intros R V. destruct (root_vals _ _ R V) as (_ & E1 & All).
  assert (Eq : run_root (l1 ++ l2) = match put_entries (fst (entries_before l2)) m1 with None => None
    | Some root => run_sections (S (List.length (snd (entries_before l2)))) (snd (entries_before l2)) root end).
  { unfold run_root. rewrite (before_app _ _ All). cbn [fst snd]. rewrite entries_app, E1. reflexivity. }
  assert (Fr : (forall p t, In (p, t) (fst (entries_before l2)) -> ~ In (head_key p) (keys m1)) -> (forall b p, In (SHead b p) (snd (entries_before l2)) -> ~ In (head_key p) (keys m1)) ->
    run_root (l1 ++ l2) = option_map (app m1) (run_root l2)).
  { intros H1 H2. rewrite Eq. unfold run_root. rewrite <- (app_nil_r m1) at 1. rewrite entries_frame by exact H1.
    destruct (put_entries (fst (entries_before l2)) []); cbn [option_map]; [|reflexivity]. now rewrite sections_frame by exact H2. }
  split.
  - intros m2 R2 D. rewrite Fr, R2; [reflexivity| |].
    + intros p t I K. apply (D _ K). apply (root_keys _ _ R2). left. eauto.
    + intros b p I K. apply (D _ K). apply (root_keys _ _ R2). right. eauto.
  - intros m Rm.
    assert (H1 : forall p t, In (p, t) (fst (entries_before l2)) -> ~ In (head_key p) (keys m1)).
    { intros p t I K. rewrite Eq in Rm. rewrite <- (app_nil_r m1) in Rm at 1. rewrite entries_clash in Rm; [discriminate Rm | exact V | eauto]. }
    assert (H2 : forall b p, In (SHead b p) (snd (entries_before l2)) -> ~ In (head_key p) (keys m1)).
    { intros b p I K. rewrite Eq in Rm. rewrite <- (app_nil_r m1) in Rm at 1. rewrite entries_frame in Rm by exact H1.
      destruct (put_entries (fst (entries_before l2)) []); cbn [option_map] in Rm; [|discriminate Rm]. rewrite sections_clash in Rm; [discriminate Rm | exact V | eauto]. }
    rewrite (Fr H1 H2) in Rm. apply map_some in Rm as (m2 & R2 & ->). exists m2. split; auto. split; auto.
    intros x K K2. apply (root_keys _ _ R2) in K2 as [(p & t & I & <-)|(b & p & I & <-)]; [eapply H1; eauto | eapply H2; eauto].
Qed.
(** A document, then one that begins with a header. *)
Lemma before_app_head l1 l2 : fst (entries_before l2) = [] -> fst (entries_before (l1 ++ l2)) = fst (entries_before l1)
  /\ snd (entries_before (l1 ++ l2)) = snd (entries_before l1) ++ l2.
Proof.
  intros H. induction l1 as [|[b p|p t] l1 [IH1 IH2]]; cbn [app entries_before].
  - cbn [fst snd]. split; auto. destruct l2 as [|[]]; cbn [entries_before] in *; try reflexivity. destruct (entries_before l2). discriminate H.
  - auto.
  - destruct (entries_before (l1 ++ l2)), (entries_before l1). cbn [fst snd] in *. split; congruence.
Qed.
Lemma sections_app f : forall l1 l2 m, fst (entries_before l2) = [] -> (List.length (l1 ++ l2) < f)%nat ->
  run_sections f (l1 ++ l2) m = match run_sections f l1 m with Some m' => run_sections f l2 m' | None => None end.
Proof.
  induction f as [|f IH]; intros l1 l2 m H L; [lia|]. destruct l1 as [|[b p|p t] l1]; [reflexivity| |reflexivity]. cbn [app run_sections].
  destruct (before_app_head l1 l2 H) as [A B]. pose proof (before_short l1) as Sh. rewrite (surjective_pairing (entries_before (l1 ++ l2))), A, B.
  destruct (entries_before l1) as [es r]. cbn [fst snd List.length app] in *. rewrite app_length in L. destruct (put_section b p es m) as [m'|]; [|reflexivity].
  rewrite IH by (try exact H; rewrite app_length; lia).
  destruct (run_sections f r m') as [m2|]; [|reflexivity]. change (run_sections f l2 m2 = run_sections (S f) l2 m2). apply (run_fuel (List.length l2)); lia.
Qed.
Lemma root_app_head l1 l2 m1 m2 : run_root l1 = Some m1 -> run_root l2 = Some m2 -> fst (entries_before l2) = [] ->
  (forall x, In x (keys m1) -> ~ In x (keys m2)) -> run_root (l1 ++ l2) = Some (m1 ++ m2).
Proof.
  intros R1 R2 H D. pose proof (root_keys _ _ R2) as K2. unfold run_root in *. destruct (before_app_head l1 l2 H) as [A B]. rewrite A, B.
  destruct (put_entries (fst (entries_before l1)) []) as [r1|]; [|discriminate R1].
  assert (Z : snd (entries_before l2) = l2). { destruct l2 as [|[]]; try reflexivity. cbn [entries_before] in H. destruct (entries_before l2). discriminate H. }
  rewrite H, Z in R2. cbn [put_entries] in R2. rewrite Z, H in K2.
  rewrite sections_app by (auto; lia).
  rewrite (run_fuel (List.length (snd (entries_before l1))) _ _ _ (S (List.length (snd (entries_before l1))))) by (rewrite ?app_length; lia). rewrite R1.
  rewrite <- (app_nil_r m1) at 1. rewrite sections_frame.
  - rewrite (run_fuel (List.length l2) _ _ _ (S (List.length l2))) by (rewrite ?app_length; lia). rewrite R2. reflexivity.
  - intros b p I K. apply (D _ K). apply K2. right. eauto.
Qed.
