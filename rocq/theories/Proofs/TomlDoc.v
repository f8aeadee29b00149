(** A printed TOML document is read back: statements and tables. *)
From Coq Require Import ZArith Bool String Lia.
From Coq Require Import List.
Import ListNotations.
From Verif.Model Require Import Text Num Flt Value Toml TomlText.
From Verif.Spec Require Import Numerals TomlSpec TomlTextSpec.
From Verif.Proofs Require Import Basics TomlProofs TomlLex TomlNum TomlValues.
Local Open Scope Z_scope.

Ltac len := unfold str, char in *; cbn [List.length] in *; repeat (rewrite app_length; cbn [List.length] in * ); lia.

(** *** Lines *)
Definition reads (lim : nat) (s : str) (l : list statement) : Prop := forall fuel, (List.length s < fuel)%nat -> statements lim fuel s = Some l.
Lemma reads_nil lim : reads lim [] [].
Proof. intros [|fuel] L; [cbn in L; lia | reflexivity]. Qed.
Lemma reads_blank lim s l : reads lim s l -> reads lim (10 :: s) l.
Proof. intros H [|fuel] L; cbn [List.length] in L; [lia|]. cbn [statements]. apply (H fuel). lia. Qed.
Lemma start_no_line c : value_start c = true -> (c =? 10) || (c =? 13) || (c =? 35) = false.
Proof. unfold value_start. destruct (is_ws c), (c =? 10), (c =? 13), (c =? 35); cbn; congruence. Qed.
Lemma reads_line lim s st r l : starts s -> (List.length r < List.length s)%nat -> statement_at lim s = Some (st, 10 :: r) -> reads lim r l -> reads lim s (st :: l).
Proof.
  intros S Lr E H [|fuel] L; [lia|]. cbn [statements]. rewrite (start_ws s S). destruct s as [|c s]; [destruct S|].
  cbn [starts] in S. replace ((c =? 10) || (c =? 13) || (c =? 35)) with false by (symmetry; now apply start_no_line).
  rewrite E. change (line_end (skip_ws (10 :: r))) with (Some r). cbn iota. rewrite (H fuel) by (unfold str, char in *; cbn [List.length] in *; lia). reflexivity.
Qed.
Definition no_bracket (s : str) : Prop := match s with c :: _ => c <> 91 | [] => False end.
Lemma key_no_bracket k r : is_text k = true -> no_bracket (print_key k ++ r).
Proof.
  intros T. unfold print_key. destruct k as [|c k]; [discriminate|]. destruct (forallb bare_char (c :: k)) eqn:B; [|discriminate].
  cbn in B. apply andb_true_iff in B as [B _]. cbn [app no_bracket]. unfold bare_char, digit_char in *. lia.
Qed.
Lemma statement_entry lim (s : str) : no_bracket s -> statement_at lim s =
  match key_path (S (List.length s)) s with
  | Some (p, 61 :: t) =>
    if Nat.leb lim (List.length p) then None else
    match value_at lim (2 * List.length t + 2) 0 (skip_ws t) with
    | Some (x, r) => Some (SEntry p x, r)
    | None => None
    end
  | _ => None
  end.
Proof.
  destruct s as [|c s]; [intros []|]. intros N. cbn [no_bracket] in N. unfold statement_at. destruct c as [|p|p]; try reflexivity.
  do 7 (destruct p as [p|p|]; try reflexivity; try congruence).
Qed.
Lemma statement_head lim (s : str) : no_bracket s -> statement_at lim (91 :: s) =
  match key_path (S (List.length s)) s with
  | Some (p, 93 :: r) => if Nat.leb lim (List.length p) then None else Some (SHead false p, r)
  | _ => None
  end.
Proof.
  destruct s as [|c s]; [intros []|]. intros N. cbn [no_bracket] in N. unfold statement_at. destruct c as [|p|p]; try reflexivity.
  do 7 (destruct p as [p|p|]; try reflexivity; try congruence).
Qed.

Lemma reads_entry lim n k x s l : (2 <= lim)%nat -> (n < lim)%nat -> is_text k = true -> proper_toml x -> plain_doc n x -> reads lim s l ->
  reads lim (print_entry (k, x) ++ s) (SEntry [k] x :: l).
Proof.
  intros L2 Ln T P W H. unfold print_entry. cbn [fst snd].
  assert (E : (print_key k ++ lit " = " ++ print_value x ++ [10]) ++ s = print_key k ++ 32 :: 61 :: 32 :: (print_value x ++ 10 :: s)).
  { rewrite <- !app_assoc. reflexivity. }
  rewrite E. apply reads_line with s; auto.
  - apply starts_app, key_starts, T.
  - len.
  - set (t := print_value x ++ 10 :: s).
    rewrite statement_entry by (apply key_no_bracket; auto).
    rewrite key_eq_read by (auto; lia). cbn [List.length]. replace (Nat.leb lim 1) with false by (symmetry; apply Nat.leb_gt; lia).
    change (skip_ws (32 :: t)) with (skip_ws t). unfold t. rewrite start_ws by (eapply starts_app, value_starts; eauto).
    rewrite (value_read x n); auto; [lia | apply EvLine | len].
Qed.
Lemma join_starts p r : p <> [] -> (forall k, In k p -> is_text k = true) -> no_bracket (join_str (lit ".") (map print_key p) ++ r).
Proof.
  intros N T. destruct p as [|k [|k' p]]; [congruence| |].
  - cbn [map join_str]. apply key_no_bracket. apply T. now left.
  - cbn [map]. rewrite join_cons by discriminate. rewrite <- app_assoc. apply key_no_bracket. apply T. now left.
Qed.
Lemma reads_header lim b p es s l : p <> [] -> (forall k, In k p -> is_text k = true) -> (List.length p < lim)%nat -> reads lim s l ->
  reads lim (print_header {| sc_path := p; sc_array := b; sc_entries := es |} ++ s) (SHead b p :: l).
Proof.
  intros N T L H. unfold print_header. cbn [sc_array sc_path]. set (J := join_str (lit ".") (map print_key p)).
  pose proof (join_length p) as JL. fold J in JL. destruct b.
  - assert (E : (lit "[[" ++ J ++ lit "]]" ++ [10]) ++ s = 91 :: 91 :: (J ++ 93 :: 93 :: 10 :: s)).
    { rewrite <- !app_assoc. reflexivity. }
    rewrite E. apply reads_line with s; auto; [reflexivity | len|].
    unfold statement_at. unfold J. rewrite (key_path_read p (93 :: 93 :: 10 :: s) (93 :: 93 :: 10 :: s)); auto; [|repeat split | fold J; len].
    replace (Nat.leb lim (List.length p)) with false by (symmetry; apply Nat.leb_gt; lia). reflexivity.
  - assert (E : (lit "[" ++ J ++ lit "]" ++ [10]) ++ s = 91 :: (J ++ 93 :: 10 :: s)).
    { rewrite <- !app_assoc. reflexivity. }
    rewrite E. apply reads_line with s; auto; [reflexivity | len|].
    unfold J. rewrite statement_head by (apply join_starts; auto).
    rewrite (key_path_read p (93 :: 10 :: s) (93 :: 10 :: s)); auto; [|repeat split | fold J; len].
    replace (Nat.leb lim (List.length p)) with false by (symmetry; apply Nat.leb_gt; lia). reflexivity.
Qed.

Definition entry_stmts (es : list (str * toml_value)) : list statement := map (fun e => SEntry [fst e] (snd e)) es.
Definition section_stmts (l : list section_text) : list statement :=
  flat_map (fun s => SHead (sc_array s) (sc_path s) :: entry_stmts (sc_entries s)) l.
Definition entries_fine (lim : nat) (es : list (str * toml_value)) : Prop :=
  forall k x, In (k, x) es -> is_text k = true /\ proper_toml x /\ exists n, (n < lim)%nat /\ plain_doc n x.
Definition section_fine (lim : nat) (s : section_text) : Prop :=
  sc_path s <> [] /\ (forall k, In k (sc_path s) -> is_text k = true) /\ (List.length (sc_path s) < lim)%nat /\ entries_fine lim (sc_entries s).
Lemma reads_entries lim es s l : (2 <= lim)%nat -> entries_fine lim es -> reads lim s l -> reads lim (flat_map print_entry es ++ s) (entry_stmts es ++ l).
Proof.
  intros L2 F H. induction es as [|[k x] es IH]; [exact H|]. cbn [flat_map entry_stmts map app fst snd]. rewrite <- app_assoc.
  destruct (F k x ltac:(now left)) as (T & P & n & Ln & W). apply reads_entry with n; auto. apply IH. intros k' x' I. apply F. now right.
Qed.
Lemma reads_sections lim top l : (2 <= lim)%nat -> (forall s, In s l -> section_fine lim s) -> reads lim (print_sections top l) (section_stmts l).
Proof.
  intros L2. revert top. induction l as [|s l IH]; intros top F; [apply reads_nil|]. cbn [print_sections section_stmts flat_map app].
  destruct s as [p b es]. destruct (F _ ltac:(now left)) as (N & T & L & E). cbn [sc_path sc_array sc_entries] in *.
  assert (R : reads lim (print_header {| sc_path := p; sc_array := b; sc_entries := es |} ++ flat_map print_entry es ++ print_sections false l)
    (SHead b p :: entry_stmts es ++ section_stmts l)).
  { apply reads_header; auto. apply reads_entries; auto. apply IH. intros s' I. apply F. now right. }
  destruct top; [exact R | apply reads_blank; exact R].
Qed.

(** *** Carrying out sections *)
Definition flat_entries (es : list (str * toml_value)) : list (list str * toml_value) := map (fun e => ([fst e], snd e)) es.
Fixpoint exec (l : list section_text) (root : list (str * node)) : option (list (str * node)) :=
  match l with
  | [] => Some root
  | s :: t => match put_section (sc_array s) (sc_path s) (flat_entries (sc_entries s)) root with Some r => exec t r | None => None end
  end.
Lemma exec_app a b root : exec (a ++ b) root = match exec a root with Some r => exec b r | None => None end.
Proof. revert root. induction a as [|s a IH]; intros root; cbn [app exec]; [reflexivity|]. destruct (put_section _ _ _ _); auto. Qed.
Lemma before_entries es l : match l with SEntry _ _ :: _ => False | _ => True end -> entries_before (entry_stmts es ++ l) = (flat_entries es, l).
Proof.
  intros H. induction es as [|[k x] es IH]; cbn [entry_stmts map app entries_before flat_entries].
  - destruct l as [|[]]; [reflexivity | reflexivity | destruct H].
  - fold (entry_stmts es). rewrite IH. reflexivity.
Qed.
Lemma section_stmts_head l : match section_stmts l with SEntry _ _ :: _ => False | _ => True end.
Proof. destruct l; cbn; exact I. Qed.
Lemma run_exec l : forall fuel root, (List.length (section_stmts l) < fuel)%nat -> run_sections fuel (section_stmts l) root = exec l root.
Proof.
  induction l as [|s l IH]; intros [|fuel] root L; [cbn in L; lia | reflexivity | lia|]. cbn [section_stmts flat_map app run_sections exec] in *.
  fold (section_stmts l) in *. cbn [List.length] in L. rewrite app_length in L. rewrite before_entries by apply section_stmts_head.
  destruct (put_section _ _ _ _); auto. apply IH. lia.
Qed.

(** *** Sections below a key *)
Definition below (k : str) (s : section_text) : section_text := {| sc_path := k :: sc_path s; sc_array := sc_array s; sc_entries := sc_entries s |}.
Lemma descend_dot f p : (forall a b m, f a m = f b m) -> forall a b m, descend false p a f m = descend false p b f m.
Proof. intros H a b m. destruct p; [apply H | reflexivity]. Qed.
Lemma put_below b k p es root : p <> [] -> put_section b (k :: p) es root =
  alter k (fun o =>
    match o with
    | None => option_map (NTab true false) (put_section b p es [])
    | Some (NTab imp dot m') => option_map (NTab imp dot) (put_section b p es m')
    | Some (NArr l) => option_map NArr (on_last (put_section b p es) l)
    | Some (NVal _) => None
    end) root.
Proof.
  intros N. unfold put_section. destruct p as [|k' p]; [congruence|]. change (removelast (k :: k' :: p)) with (k :: removelast (k' :: p)).
  change (List.last (k :: k' :: p) []) with (List.last (k' :: p) []). cbn [descend]. unfold andb.
  generalize (removelast (k' :: p)) as q, (List.last (k' :: p) []) as z. intros q z. revert root. fix R 1. intros [|[k0 n0] root]; cbn [alter].
  - reflexivity.
  - destruct (str_eqb k k0); [|now rewrite R]. destruct n0; try reflexivity. erewrite descend_dot; [reflexivity|]. reflexivity.
Qed.
Lemma alter_absent k f m : ~ In k (map fst m) -> alter k f m = match f None with Some n => Some (m ++ [(k, n)]) | None => None end.
Proof.
  induction m as [|[k' n'] m IH]; intros N; cbn [alter]; [reflexivity|]. cbn [map fst In] in N.
  destruct (str_eqb k k') eqn:E; [apply str_eqb_eq in E; subst; tauto|]. rewrite IH by tauto. destruct (f None); reflexivity.
Qed.
Lemma alter_present k f m n : ~ In k (map fst m) -> alter k f (m ++ [(k, n)]) = match f (Some n) with Some n' => Some (m ++ [(k, n')]) | None => None end.
Proof.
  induction m as [|[k' n'] m IH]; intros N; cbn [alter app].
  - rewrite (proj2 (str_eqb_eq k k) eq_refl). reflexivity.
  - cbn [map fst In] in N. destruct (str_eqb k k') eqn:E; [apply str_eqb_eq in E; subst; tauto|]. rewrite IH by tauto. destruct (f (Some n)); reflexivity.
Qed.
Lemma on_last_snoc {A} (f : A -> option A) l x : on_last f (l ++ [x]) = match f x with Some y => Some (l ++ [y]) | None => None end.
Proof.
  induction l as [|a l IH]; [reflexivity|]. cbn [app on_last]. destruct (l ++ [x]) eqn:E; [destruct l; discriminate|]. rewrite IH. destruct (f x); reflexivity.
Qed.
Definition pathful (l : list section_text) : Prop := forall s, In s l -> sc_path s <> [].
Lemma below_table k L : pathful L -> forall m0 imp m m1, ~ In k (map fst m0) -> exec L m = Some m1 ->
  exec (map (below k) L) (m0 ++ [(k, NTab imp false m)]) = Some (m0 ++ [(k, NTab imp false m1)]).
Proof.
  induction L as [|s L IH]; intros P m0 imp m m1 N E; cbn [map exec] in *; [congruence|].
  destruct (put_section _ _ _ m) as [m'|] eqn:Ep; [|discriminate E]. cbn [below sc_array sc_path sc_entries].
  rewrite put_below by (apply P; now left). rewrite alter_present, Ep by auto. cbn [option_map]. apply IH; auto. intros s' I. apply P. now right.
Qed.
Lemma below_new k L : pathful L -> L <> [] -> forall m0 m1, ~ In k (map fst m0) -> exec L [] = Some m1 ->
  exec (map (below k) L) m0 = Some (m0 ++ [(k, NTab true false m1)]).
Proof.
  intros P NE m0 m1 N E. destruct L as [|s L]; [congruence|]. cbn [map exec] in *. destruct (put_section _ _ _ []) as [m'|] eqn:Ep; [|discriminate E].
  cbn [below sc_array sc_path sc_entries]. rewrite put_below by (apply P; now left). rewrite alter_absent, Ep by auto. cbn [option_map].
  apply below_table; auto. intros s' I. apply P. now right.
Qed.
Lemma below_array k L : pathful L -> forall m0 ts m m1, ~ In k (map fst m0) -> exec L m = Some m1 ->
  exec (map (below k) L) (m0 ++ [(k, NArr (ts ++ [m]))]) = Some (m0 ++ [(k, NArr (ts ++ [m1]))]).
Proof.
  induction L as [|s L IH]; intros P m0 ts m m1 N E; cbn [map exec] in *; [congruence|].
  destruct (put_section _ _ _ m) as [m'|] eqn:Ep; [|discriminate E]. cbn [below sc_array sc_path sc_entries].
  rewrite put_below by (apply P; now left). rewrite alter_present, on_last_snoc, Ep by auto. cbn [option_map]. apply IH; auto. intros s' I. apply P. now right.
Qed.

(** Relative sections. *)
Definition under (path : list str) (s : section_text) : section_text := {| sc_path := path ++ sc_path s; sc_array := sc_array s; sc_entries := sc_entries s |}.
Lemma toml_ind2 (P : toml_value -> Prop) : (forall t, match t with TvTab _ => False | _ => True end -> P t) ->
  (forall m, (forall k x, In (k, x) m -> P x) -> (forall k l x, In (k, TvArr l) m -> In x l -> P x) -> P (TvTab m)) -> forall t, P t.
Proof.
  intros H1 H2. assert (G : forall t, P t /\ match t with TvArr l => forall x, In x l -> P x | _ => True end).
  { induction t as [t F|l IH|m IH] using toml_ind'.
    - split; [apply H1; destruct t; auto|]. destruct t; auto. destruct F.
    - split; [now apply H1|]. intros x I. now apply IH.
    - split; [|exact I]. apply H2.
      + intros k x I. now apply IH in I.
      + intros k l x I J. apply IH in I as [_ I]. now apply I. }
  intros t. apply G.
Qed.
Lemma flat_map_eq {A B} (f g : A -> list B) l : (forall x, In x l -> f x = g x) -> flat_map f l = flat_map g l.
Proof. induction l as [|a l IH]; intros H; [reflexivity|]. cbn [flat_map]. rewrite H, IH; auto; [intros; apply H; now right | now left]. Qed.
Lemma map_flat_map {A B C} (f : B -> C) (g : A -> list B) l : map f (flat_map g l) = flat_map (fun x => map f (g x)) l.
Proof. induction l as [|a l IH]; [reflexivity|]. cbn [flat_map]. now rewrite map_app, IH. Qed.
Lemma sections_under t : forall pre path b, sections (pre ++ path) b t = map (under pre) (sections path b t).
Proof.
  induction t as [t F|m IH IHl] using toml_ind2; intros pre path b; [destruct t; try reflexivity; destruct F|].
  cbn [sections]. rewrite map_app. f_equal; [destruct m as [|e m]; [reflexivity|]; destruct (own_entries (e :: m)); [destruct b|]; reflexivity|].
  unfold entry_sections. rewrite map_flat_map. apply flat_map_eq. intros [k x] I. cbn [fst snd]. destruct (is_section x); [|reflexivity].
  rewrite <- app_assoc. assert (Px := IH k x I). destruct x; try apply Px. rewrite map_flat_map. apply flat_map_eq. intros y J. eapply IHl; eauto.
Qed.
Lemma under_below k l : map (under [k]) l = map (below k) l.
Proof. reflexivity. Qed.
Lemma entry_sections_below k m : entry_sections sections [k] m = map (below k) (entry_sections sections [] m).
Proof.
  rewrite <- under_below. unfold entry_sections. rewrite map_flat_map. apply flat_map_eq. intros [k' x] _. cbn [fst snd]. destruct (is_section x); [|reflexivity].
  destruct x; try apply (sections_under _ [k] [k']). rewrite map_flat_map. apply flat_map_eq. intros y _. apply (sections_under y [k] [k']).
Qed.
Lemma sections_pathful t : forall path b s, path <> [] -> In s (sections path b t) -> sc_path s <> [].
Proof.
  intros path b s N I. destruct path as [|k path]; [congruence|]. change (k :: path) with ([k] ++ path) in I. rewrite sections_under in I.
  apply in_map_iff in I as (s' & <- & _). discriminate.
Qed.
Lemma entry_pathful m : pathful (entry_sections sections [] m).
Proof.
  intros s I. unfold entry_sections in I. apply in_flat_map in I as ([k x] & I & J). cbn [fst snd app] in J. destruct (is_section x); [|destruct J].
  destruct x; try (eapply sections_pathful; [|exact J]; discriminate). apply in_flat_map in J as (y & _ & J). eapply sections_pathful; [|exact J]; discriminate.
Qed.
Definition hidden (m : list (str * toml_value)) : bool := match m, own_entries m with _ :: _, [] => true | _, _ => false end.
Lemma sections_tab k b m : sections [k] b (TvTab m) =
  (if hidden m && negb b then [] else [{| sc_path := [k]; sc_array := b; sc_entries := own_entries m |}]) ++ map (below k) (entry_sections sections [] m).
Proof.
  cbn [sections]. rewrite entry_sections_below. f_equal. unfold hidden. destruct m as [|e m]; [reflexivity|].
  destruct (own_entries (e :: m)) eqn:E; [destruct b|]; reflexivity.
Qed.

(** Every section entry shows up. *)
Lemma shown t : forall k b, is_tab t = true -> sections [k] b t <> [].
Proof.
  induction t as [t F|m IH IHl] using toml_ind2; intros k b T; [destruct t; discriminate T || destruct F|]. rewrite sections_tab.
  destruct (hidden m && negb b) eqn:H; [|discriminate]. apply andb_true_iff in H as [H _]. unfold hidden in H. destruct m as [|[k' x] m]; [discriminate H|].
  destruct (own_entries ((k', x) :: m)) eqn:O; [|discriminate H]. cbn [own_entries filter snd] in O. destruct (is_section x) eqn:Sx; [|discriminate O].
  cbn [app]. intros E. apply map_eq_nil in E. unfold entry_sections in E. cbn [flat_map fst snd app] in E. rewrite Sx in E. apply app_eq_nil in E as [E _].
  destruct x; try discriminate Sx.
  - cbn [is_section] in Sx. destruct l as [|y l]; [discriminate Sx|]. cbn [flat_map] in E. apply app_eq_nil in E as [E _].
    cbn [forallb] in Sx. apply andb_true_iff in Sx as [Sx _]. eapply (IHl k' (y :: l) y); [now left | now left | exact Sx | exact E].
  - eapply (IH k'); [now left | reflexivity | exact E].
Qed.

(** The tables under construction once a document is read. *)
Fixpoint body (t : toml_value) : list (str * node) :=
  match t with
  | TvTab m =>
    val_nodes (own_entries m) ++
    flat_map (fun e => if is_section (snd e) then
                         [(fst e, match snd e with
                                  | TvArr l => NArr (map body l)
                                  | _ => NTab (match snd e with TvTab m' => hidden m' | _ => false end) false (body (snd e))
                                  end)]
                       else []) m
  | _ => []
  end.
Definition sec_nodes (m : list (str * toml_value)) : list (str * node) :=
  flat_map (fun e => if is_section (snd e) then
                         [(fst e, match snd e with
                                  | TvArr l => NArr (map body l)
                                  | _ => NTab (match snd e with TvTab m' => hidden m' | _ => false end) false (body (snd e))
                                  end)]
                       else []) m.
Definition sec_node (x : toml_value) : node := match x with TvArr l => NArr (map body l) | _ => NTab (match x with TvTab m' => hidden m' | _ => false end) false (body x) end.
Definition sec_keys (m : list (str * toml_value)) : list str := map fst (filter (fun e => is_section (snd e)) m).
Lemma body_tab m : body (TvTab m) = val_nodes (own_entries m) ++ sec_nodes m.
Proof. reflexivity. Qed.
Lemma nodup_unique {A} (m : list (str * A)) k x y : NoDup (map fst m) -> In (k, x) m -> In (k, y) m -> x = y.
Proof.
  induction m as [|[k' z] m IH]; intros N I J; [destruct I|]. cbn [map fst] in N. inversion N as [|? ? N1 N2]; subst.
  destruct I as [I|I], J as [J|J].
  - congruence.
  - injection I as -> ->. exfalso. apply N1. apply in_map_iff. exists (k, y). auto.
  - injection J as -> ->. exfalso. apply N1. apply in_map_iff. exists (k, x). auto.
  - auto.
Qed.
Lemma val_nodes_keys m : map fst (val_nodes m) = map fst m.
Proof. unfold val_nodes. rewrite map_map. reflexivity. Qed.
Lemma put_flat_new es : NoDup (map fst es) -> put_entries (flat_entries es) [] = Some (val_nodes es).
Proof. intros N. apply (put_flat es []). exact N. Qed.
Lemma nodup_filter {A} (f : str * A -> bool) (m : list (str * A)) : NoDup (map fst m) -> NoDup (map fst (filter f m)).
Proof.
  induction m as [|[k x] m IH]; intros N; [constructor|]. cbn [map fst] in N. inversion N as [|? ? N1 N2]; subst. cbn [filter]. destruct (f (k, x)); [|auto].
  cbn [map fst]. constructor; auto. intros I. apply N1. apply in_map_iff in I as ([k' x'] & E & I). cbn in E. subst. apply filter_In in I as [I _].
  apply in_map_iff. exists (k, x'). auto.
Qed.
Lemma own_not_sec m k : NoDup (map fst m) -> In k (map fst (own_entries m)) -> ~ In k (sec_keys m).
Proof.
  intros N I J. apply in_map_iff in I as ([k1 x1] & E1 & I). apply in_map_iff in J as ([k2 x2] & E2 & J). cbn in E1, E2. subst.
  apply filter_In in I as [I F1]. apply filter_In in J as [J F2]. assert (x1 = x2) by (eapply nodup_unique; eauto). subst. cbn [snd] in *. rewrite F2 in F1. discriminate F1.
Qed.
Definition builds (m : list (str * toml_value)) : Prop :=
  NoDup (map fst m) -> forall m0, (forall k, In k (map fst m0) -> ~ In k (sec_keys m)) ->
  exec (entry_sections sections [] m) m0 = Some (m0 ++ sec_nodes m).

Lemma array_builds k l : l <> [] -> (forall x, In x l -> exists m, x = TvTab m /\ NoDup (map fst m) /\ builds m) ->
  forall m0, ~ In k (map fst m0) -> exec (flat_map (fun x => sections [k] true x) l) m0 = Some (m0 ++ [(k, NArr (map body l))]).
Proof.
  intros NE H m0 N.
  assert (Step : forall m, NoDup (map fst m) -> builds m -> forall ts, exec (sections [k] true (TvTab m)) (m0 ++ [(k, NArr ts)]) = Some (m0 ++ [(k, NArr (ts ++ [body (TvTab m)]))])).
  { intros m Nm B ts. rewrite sections_tab. rewrite andb_false_r. cbn [app exec sc_array sc_path sc_entries].
    unfold put_section. cbn [removelast List.last descend]. rewrite alter_present by auto.
    rewrite put_flat_new by now apply nodup_filter. cbn [option_map]. apply below_array; auto; [apply entry_pathful|]. rewrite body_tab. apply B; auto.
    intros k' I. rewrite val_nodes_keys in I. now apply own_not_sec. }
  assert (Rest : forall l, (forall x, In x l -> exists m, x = TvTab m /\ NoDup (map fst m) /\ builds m) -> forall ts,
    exec (flat_map (fun x => sections [k] true x) l) (m0 ++ [(k, NArr ts)]) = Some (m0 ++ [(k, NArr (ts ++ map body l))])).
  { clear l NE H. induction l as [|x l IH]; intros H ts; cbn [flat_map map]; [now rewrite app_nil_r|].
    destruct (H x ltac:(now left)) as (m & -> & Nm & B). rewrite exec_app, Step by auto. rewrite IH by (intros; apply H; now right). now rewrite <- app_assoc. }
  destruct l as [|x l]; [congruence|]. destruct (H x ltac:(now left)) as (m & -> & Nm & B). cbn [flat_map map]. rewrite exec_app.
  assert (First : exec (sections [k] true (TvTab m)) m0 = Some (m0 ++ [(k, NArr [body (TvTab m)])])).
  { rewrite sections_tab. rewrite andb_false_r. cbn [app exec sc_array sc_path sc_entries].
    unfold put_section. cbn [removelast List.last descend]. rewrite alter_absent by auto.
    rewrite put_flat_new by now apply nodup_filter. cbn [option_map]. apply (below_array k _ (entry_pathful m) m0 []); auto. rewrite body_tab. apply B; auto.
    intros k' I. rewrite val_nodes_keys in I. now apply own_not_sec. }
  rewrite First. rewrite Rest by (intros; apply H; now right). reflexivity.
Qed.
Lemma table_builds k m : NoDup (map fst m) -> builds m -> forall m0, ~ In k (map fst m0) ->
  exec (sections [k] false (TvTab m)) m0 = Some (m0 ++ [(k, NTab (hidden m) false (body (TvTab m)))]).
Proof.
  intros Nm B m0 N. pose proof (shown (TvTab m) k false eq_refl) as NE. rewrite sections_tab in *. rewrite andb_true_r in *.
  destruct (hidden m) eqn:H.
  - cbn [app] in *. apply below_new; auto; [apply entry_pathful | intros E; apply NE; now rewrite E|].
    assert (O : own_entries m = []) by (unfold hidden in H; destruct m; [discriminate H|]; destruct (own_entries _); [reflexivity | discriminate H]).
    rewrite body_tab, O. cbn [val_nodes map app]. apply (B Nm []). intros ? [].
  - cbn [app exec sc_array sc_path sc_entries]. unfold put_section. cbn [removelast List.last descend]. rewrite alter_absent by auto.
    rewrite put_flat_new by now apply nodup_filter. cbn [option_map]. apply below_table; auto; [apply entry_pathful|]. rewrite body_tab. apply B; auto.
    intros k' I. rewrite val_nodes_keys in I. now apply own_not_sec.
Qed.
Lemma sec_nodes_cons k x m : sec_nodes ((k, x) :: m) = (if is_section x then [(k, sec_node x)] else []) ++ sec_nodes m.
Proof. reflexivity. Qed.
Lemma entry_sections_cons k x m : entry_sections sections [] ((k, x) :: m) =
  (if is_section x then match x with TvArr l => flat_map (fun y => sections [k] true y) l | _ => sections [k] false x end else []) ++ entry_sections sections [] m.
Proof. reflexivity. Qed.
Lemma builds_from m : (forall k x, In (k, x) m -> match x with TvTab m' => NoDup (map fst m') /\ builds m' | _ => True end) ->
  (forall k l x, In (k, TvArr l) m -> In x l -> match x with TvTab m' => NoDup (map fst m') /\ builds m' | _ => True end) -> builds m.
Proof.
  induction m as [|[k x] m IH]; intros H1 H2 ND m0 D; [cbn; now rewrite app_nil_r|].
  cbn [map fst] in ND. inversion ND as [|? ? N1 N2]; subst.
  assert (B : builds m).
  { apply IH; intros; [eapply H1 | eapply H2]; try (right; eassumption); eassumption. }
  rewrite entry_sections_cons, sec_nodes_cons, exec_app. destruct (is_section x) eqn:Sx.
  - assert (Nk : ~ In k (map fst m0)).
    { intros I. apply (D k I). unfold sec_keys. cbn [filter snd]. rewrite Sx. now left. }
    assert (E : exec (match x with TvArr l => flat_map (fun y => sections [k] true y) l | _ => sections [k] false x end) m0 = Some (m0 ++ [(k, sec_node x)])).
    { destruct x; try discriminate Sx.
      - cbn [is_section] in Sx. destruct l as [|y l]; [discriminate Sx|]. apply array_builds; [discriminate | | auto].
        intros z I. rewrite forallb_forall in Sx. specialize (Sx z I). destruct z; try discriminate Sx. exists m1. split; auto.
        apply (H2 k (y :: l) (TvTab m1)); auto. now left.
      - apply table_builds; auto; apply (H1 k (TvTab m1)); now left. }
    rewrite E. rewrite B; auto; [now rewrite <- app_assoc|]. intros k' I. rewrite map_app in I. apply in_app_or in I as [I|[<-|[]]].
    + intros J. apply (D k' I). unfold sec_keys in *. cbn [filter snd]. rewrite Sx. now right.
    + intros J. apply N1. unfold sec_keys in J. apply in_map_iff in J as ([k2 x2] & E2 & J). apply filter_In in J as [J _]. apply in_map_iff. exists (k2, x2). auto.
  - cbn [exec app]. apply B; auto. intros k' I J. apply (D k' I). unfold sec_keys in *. cbn [filter snd]. now rewrite Sx.
Qed.
Lemma tab_builds t : proper_toml t -> match t with TvTab m => NoDup (map fst m) /\ builds m | _ => True end.
Proof.
  induction t as [t F|m IH IHl] using toml_ind2; intros P; [destruct t; auto; destruct F|].
  inversion P as [| | | | | |? ND Pl]; subst. split; auto. apply builds_from.
  - intros k x I. apply (IH k x I). now apply Pl in I.
  - intros k l x I J. apply (IHl k l x I J). apply Pl in I as [_ I]. inversion I; auto.
Qed.

(** *** The same document *)
Lemma of_body_entries m k y : In (k, y) (map (fun e => (fst e, of_node (snd e))) (body (TvTab m))) <->
  exists x, In (k, x) m /\ y = (if is_section x then of_node (sec_node x) else x).
Proof.
  rewrite body_tab, map_app, in_app_iff. split.
  - intros [I|I]; apply in_map_iff in I as ([k' n] & E & I); cbn [fst snd] in E; injection E as -> <-.
    + apply in_map_iff in I as ([k' x] & E & I). cbn [fst snd] in E. injection E as -> <-. apply filter_In in I as [I S]. cbn [snd] in S.
      exists x. split; auto. apply negb_true_iff in S. now rewrite S.
    + apply in_flat_map in I as ([k' x] & I & J). cbn [fst snd] in J. destruct (is_section x) eqn:S; [|destruct J]. destruct J as [J|[]]. injection J as -> <-.
      exists x. split; auto. rewrite S. reflexivity.
  - intros (x & I & ->). destruct (is_section x) eqn:S.
    + right. apply in_map_iff. exists (k, sec_node x). split; auto. apply in_flat_map. exists (k, x). split; auto. cbn [fst snd]. rewrite S. now left.
    + left. apply in_map_iff. exists (k, NVal x). split; auto. apply in_map_iff. exists (k, x). split; auto. apply filter_In. split; auto. cbn [snd]. now rewrite S.
Qed.
Lemma same_refl t : same_toml t t.
Proof.
  induction t as [t F|l IH|m IH] using toml_ind'.
  - destruct t; try constructor; destruct F.
  - constructor. induction l; constructor; [apply IH; now left | apply IHl; intros; apply IH; now right].
  - constructor; intros k x I; exists x; split; eauto.
Qed.
Lemma same_body t : forall m, t = TvTab m -> same_toml t (of_table (body t)).
Proof.
  induction t as [t F|m IH IHl] using toml_ind2; intros m0 E; [subst; destruct F|]. clear m0 E.
  assert (G : forall k x, In (k, x) m -> same_toml x (if is_section x then of_node (sec_node x) else x)).
  { intros k x I. destruct (is_section x) eqn:S; [|apply same_refl]. destruct x; try discriminate S.
    - cbn [sec_node of_node]. constructor. cbn [is_section] in S. destruct l as [|z l]; [discriminate S|]. rewrite forallb_forall in S.
      rewrite map_map. assert (Q : forall l', (forall y, In y l' -> In y (z :: l)) -> Forall2 same_toml l' (map (fun x => TvTab (map (fun e => (fst e, of_node (snd e))) (body x))) l')).
      { induction l' as [|y l' IHq]; intros Sub; constructor; [|apply IHq; intros; apply Sub; now right].
        assert (Iy : In y (z :: l)) by (apply Sub; now left). specialize (S y Iy). destruct y; try discriminate S. exact (IHl k _ _ I Iy _ eq_refl). }
      apply Q. auto.
    - exact (IH k _ I _ eq_refl). }
  unfold of_table. cbn [of_node]. constructor.
  - intros k x I. exists (if is_section x then of_node (sec_node x) else x). split; [apply of_body_entries; eauto | eauto].
  - intros k y I. apply of_body_entries in I as (x & I & ->). eauto.
Qed.

(** *** Whole documents *)
Lemma sections_fine t : forall lim n path b, proper_toml t -> plain_doc n t -> (n + List.length path <= lim)%nat ->
  path <> [] -> (forall k, In k path -> is_text k = true) -> forall s, In s (sections path b t) -> section_fine lim s.
Proof.
  induction t as [t F|m IH IHl] using toml_ind2; intros lim n path b P W L NE T s I; [destruct t; cbn in I; destruct I || destruct F|].
  inversion P as [| | | | | |? ND Pl]; subst. inversion W as [| | | | |n' ? Wl]; subst. cbn [sections] in I.
  apply in_app_or in I as [I|I].
  - assert (H : s = {| sc_path := path; sc_array := b; sc_entries := own_entries m |}).
    { destruct m as [|e m]; [destruct I as [<-|[]]; reflexivity|]. destruct (own_entries (e :: m)) eqn:O; [destruct b; [|destruct I]|]; destruct I as [<-|[]]; reflexivity. }
    subst s. split; [exact NE | split; [exact T | split]]; cbn [sc_path sc_entries]; [lia|]. intros k x I'. apply filter_In in I' as [I' _].
    destruct (Pl k x I'). split; auto. split; auto. exists n'. split; [destruct path; [congruence | cbn [List.length] in L; lia] | eauto].
  - unfold entry_sections in I. apply in_flat_map in I as ([k x] & I & J). cbn [fst snd] in J. destruct (is_section x) eqn:S; [|destruct J].
    destruct (Pl k x I) as [Tk Px]. pose proof (Wl k x I) as Wx.
    assert (Tp : forall k', In k' (path ++ [k]) -> is_text k' = true). { intros k' Q. apply in_app_or in Q as [Q|[<-|[]]]; auto. }
    assert (Lp : List.length (path ++ [k]) = Datatypes.S (List.length path)) by (rewrite app_length; cbn; lia).
    assert (Np : path ++ [k] <> []) by (destruct path; discriminate).
    destruct x; try discriminate S.
    + apply in_flat_map in J as (y & Iy & J). inversion Px as [| | | | |? Pa|]; subst. inversion Wx as [| | | |n2 ? Wa|]; subst.
      refine (IHl k l y I Iy lim n2 (path ++ [k]) true (Pa y Iy) (Wa y Iy) _ Np Tp s J). rewrite Lp. lia.
    + refine (IH k _ I lim n' (path ++ [k]) false Px Wx _ Np Tp s J). rewrite Lp. lia.
Qed.
Lemma entry_sections_fine lim m : proper_toml (TvTab m) -> plain_doc lim (TvTab m) -> forall s, In s (entry_sections sections [] m) -> section_fine lim s.
Proof.
  intros P W. inversion P as [| | | | | |? ND Pl]; subst. inversion W as [| | | | |n' ? Wl]; subst.
  intros s I. unfold entry_sections in I. apply in_flat_map in I as ([k x] & I & J). cbn [fst snd app] in J. destruct (is_section x) eqn:S; [|destruct J].
  destruct (Pl k x I) as [Tk Px]. pose proof (Wl k x I) as Wx. assert (Tp : forall k', In k' [k] -> is_text k' = true) by (intros ? [<-|[]]; auto).
  destruct x; try discriminate S.
  + apply in_flat_map in J as (y & Iy & J). inversion Px as [| | | | |? Pa|]; subst. inversion Wx as [| | | |n2 ? Wa|]; subst.
    refine (sections_fine y (Datatypes.S (Datatypes.S n2)) n2 [k] true (Pa y Iy) (Wa y Iy) _ _ Tp s J); [cbn; lia | discriminate].
  + refine (sections_fine _ (Datatypes.S n') n' [k] false Px Wx _ _ Tp s J); [cbn; lia | discriminate].
Qed.
Lemma document_text lim m : (2 <= lim)%nat -> proper_toml (TvTab m) -> plain_doc lim (TvTab m) ->
  reads lim (print_document (TvTab m)) (entry_stmts (own_entries m) ++ section_stmts (entry_sections sections [] m)).
Proof.
  intros L2 P W. inversion P as [| | | | | |? ND Pl]; subst. inversion W as [| | | | |n' ? Wl]; subst. cbn [print_document].
  apply reads_entries; auto; [|apply reads_sections; auto].
  - intros k x I. apply filter_In in I as [I _]. destruct (Pl k x I). split; auto. split; auto. exists n'. split; [lia | eauto].
  - now apply entry_sections_fine.
Qed.
Lemma not_bom (s : str) : match s with c :: _ => c <> 65279 | [] => True end -> match s with 65279 :: t => t | _ => s end = s.
Proof.
  destruct s as [|c s]; [reflexivity|]. intros N. destruct c as [|p|p]; try reflexivity. do 16 (destruct p as [p|p|]; try reflexivity; try congruence).
Qed.
Lemma document_read lim m : (2 <= lim)%nat -> proper_toml (TvTab m) -> plain_doc lim (TvTab m) ->
  parse_document lim (print_document (TvTab m)) = Some (of_table (body (TvTab m))).
Proof.
  intros L2 P W. pose proof (document_text lim m L2 P W) as R. unfold parse_document. cbv zeta. rewrite not_bom.
  - rewrite (R _ (Nat.lt_succ_diag_r _)). unfold run_document. rewrite before_entries by apply section_stmts_head.
    destruct (tab_builds _ P) as [ND B]. rewrite put_flat_new by now apply nodup_filter. rewrite run_exec by lia.
    rewrite B; auto. intros k I. rewrite val_nodes_keys in I. now apply own_not_sec.
  - inversion P as [| | | | | |? ND Pl]; subst. cbn [print_document]. destruct (own_entries m) as [|[k x] es] eqn:O.
    + destruct (entry_sections sections [] m) as [|s l]; [exact I|]. cbn [flat_map app print_sections]. unfold print_header. destruct (sc_array s); discriminate.
    + assert (I0 : In (k, x) m). { assert (Q : In (k, x) (own_entries m)) by (rewrite O; now left). now apply filter_In in Q. }
      apply Pl in I0 as [T _]. cbn [flat_map]. unfold print_entry. cbn [fst snd]. rewrite <- !app_assoc.
      pose proof (key_starts k T) as S. revert S. destruct (print_key k) as [|c t] eqn:Ek; [intros []|]. intros _. cbn [app].
      unfold print_key in Ek. destruct k as [|a k]; [injection Ek as <- _; discriminate|]. destruct (forallb bare_char (a :: k)) eqn:Bk; [|injection Ek as <- _; discriminate].
      injection Ek as <- _. cbn [forallb] in Bk. apply andb_true_iff in Bk as [Bk _]. unfold bare_char, digit_char in Bk. lia.
Qed.
