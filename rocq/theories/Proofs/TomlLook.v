(** The look of a saved TOML file (C137). *)
From Coq Require Import ZArith Bool String Lia.
From Coq Require Import Floats.SpecFloat.
From Coq Require Import List.
Import ListNotations.
From Verif.Model Require Import Text Num Flt Value Toml TomlText.
From Verif.Spec Require Import Spec Numerals TomlSpec TomlTextSpec TomlLook.
From Verif.Proofs Require Import Basics Conversions TomlProofs TomlLex TomlNum TomlExact.
Local Open Scope Z_scope.

(** ** The style of a text *)
Definition three (s : str) : Prop := exists a b, s = a ++ [39; 39; 39] ++ b.
Definition fine (c : char) : Prop := c = 9 \/ c = 10 \/ (32 <= c /\ c <> 127).
(** Exactly [n] single quotes at the end. *)
Definition trail (n : nat) (s : str) : Prop := exists a, s = a ++ List.repeat 39 n /\ forall b, a <> b ++ [39].
Lemma snoc_inj (a b : str) x y : a ++ [x] = b ++ [y] -> a = b /\ x = y.
Proof. apply app_inj_tail. Qed.
Lemma rep_snoc n : List.repeat (39 : Z) (S n) = List.repeat 39 n ++ [39].
Proof. cbn. apply (List.repeat_cons n 39). Qed.
Lemma trail_snoc n s : trail n s -> trail (S n) (s ++ [39]).
Proof. intros (a & -> & N). exists a. split; auto. now rewrite rep_snoc, app_assoc. Qed.
Lemma trail_other c s : c <> 39 -> trail 0 (s ++ [c]).
Proof. intros N. exists (s ++ [c]). split; [now rewrite app_nil_r|]. intros b E. apply snoc_inj in E as [_ E]. congruence. Qed.
Lemma trail_zero n s : trail n s -> n = O <-> (forall a, s <> a ++ [39]).
Proof.
  intros (a & -> & N). split.
  - intros -> b. cbn. rewrite app_nil_r. apply N.
  - intros H. destruct n as [|n]; auto. exfalso. apply (H (a ++ List.repeat 39 n)). now rewrite rep_snoc, app_assoc.
Qed.
Lemma trail_two n s : trail n s -> (2 <= n)%nat <-> exists a, s = a ++ [39; 39].
Proof.
  intros (a & -> & N). split.
  - intros L. destruct n as [|[|n]]; try lia. exists (a ++ List.repeat 39 n). rewrite <- app_assoc. f_equal. rewrite !rep_snoc. now rewrite <- app_assoc.
  - intros (b & E). destruct n as [|[|n]]; [| |lia]; exfalso.
    + cbn in E. rewrite app_nil_r in E. subst a. apply (N (b ++ [39])). now rewrite <- app_assoc.
    + cbn in E. change (b ++ [39; 39]) with (b ++ [39] ++ [39]) in E. rewrite app_assoc in E. apply snoc_inj in E as [E _]. exact (N _ E).
Qed.
Lemma three_snoc s c : three (s ++ [c]) <-> three s \/ (c = 39 /\ exists a, s = a ++ [39; 39]).
Proof.
  split.
  - intros (a & b & E). destruct (list_eq_dec Z.eq_dec b []) as [->|Nb].
    + right. change (a ++ [39; 39; 39] ++ []) with (a ++ [39; 39] ++ [39]) in E. rewrite app_assoc in E. apply snoc_inj in E as [-> ->]. eauto.
    + left. destruct (exists_last Nb) as (b' & d & ->). exists a, b'. rewrite !app_assoc in E. apply snoc_inj in E as [-> _]. now rewrite <- app_assoc.
  - intros [(a & b & ->)|(-> & a & ->)]; [exists a, (b ++ [c]); now rewrite <- !app_assoc | exists a, []; now rewrite <- app_assoc].
Qed.
Lemma in_snoc {A} (x c : A) s : In x (s ++ [c]) <-> In x s \/ x = c.
Proof. rewrite in_app_iff. cbn. intuition congruence. Qed.
Lemma style_snoc s c : style_of (s ++ [c]) = style_step (style_of s) c.
Proof. unfold style_of. now rewrite fold_left_app. Qed.
Lemma style_ok s : is_text s = true ->
  (st_lines (style_of s) = true <-> In 10 s)
  /\ (st_pretty (style_of s) = true <-> ~ three s /\ forall c, In c s -> fine c)
  /\ (st_pretty (style_of s) = true -> (st_prefer (style_of s) = true <-> In 34 s \/ In 92 s) /\ trail (st_run (style_of s)) s
      /\ ((1 <= Nat.max (st_max (style_of s)) (st_run (style_of s)))%nat <-> In 39 s)).
Proof.
  induction s as [|c s IH] using rev_ind; intros T.
  - cbn. split; [split; [discriminate | intros []]|]. split; [split; auto|].
    + intros _. split; [|intros ? []]. intros (a & b & E). destruct a; discriminate E.
    + intros _. split; [split; [discriminate | intros [[]|[]]]|]. split; [exists []; split; [reflexivity | intros [|? ?]; discriminate]|]. split; [lia | intros []].
  - unfold is_text in T. rewrite forallb_app in T. apply andb_true_iff in T as [T Tc]. cbn [forallb] in Tc. apply andb_true_iff in Tc as [Tc _]. apply scalar_nonneg in Tc.
    destruct (IH T) as (L & P & R). clear IH T. rewrite style_snoc, !in_snoc. set (st := style_of s) in *. clearbody st.
    assert (Fs : (forall x, In x (s ++ [c]) -> fine x) <-> (forall x, In x s -> fine x) /\ fine c).
    { split; [intros H; split; [intros x I | ]; apply H; apply in_snoc; auto | intros [H1 H2] x I; apply in_snoc in I as [I| ->]; auto]. }
    rewrite Fs, three_snoc. clear Fs. unfold style_step. destruct (st_pretty st) eqn:Ep.
    2:{ cbn [st_lines st_pretty]. split; [rewrite orb_true_iff, L, Z.eqb_eq; intuition congruence|]. split; [|discriminate]. split; [discriminate|]. intros [H1 [H2 _]].
        apply P. split; auto. }
    destruct (proj1 P eq_refl) as [N3 Fn]. destruct (R eq_refl) as (Pr & Tr & Mx). clear P R.
    destruct (Z.eqb_spec c 39) as [->|N39].
    { cbn [Z.eqb Pos.eqb orb Z.leb Z.compare Pos.compare Pos.compare_cont andb st_pretty st_run st_lines st_max st_prefer negb].
      split; [rewrite L; intuition discriminate|].
      assert (E : Nat.leb 3 (S (st_run st)) = true <-> exists a, s = a ++ [39; 39]) by (rewrite Nat.leb_le, <- (trail_two _ _ Tr); lia).
      split.
      - rewrite negb_true_iff, <- not_true_iff_false, E. unfold fine at 2. intuition lia.
      - intros _. split; [rewrite Pr; intuition discriminate|]. split; [now apply trail_snoc|]. intuition lia. }
    cbn [andb negb]. pose proof (trail_other c s N39) as Tr'.
    assert (M2 : (1 <= Nat.max (Nat.max (st_max st) (st_run st)) 0)%nat <-> In 39 s \/ 39 = c) by (rewrite Nat.max_0_r, Mx; intuition congruence).
    assert (NT : ~ (three s \/ c = 39 /\ (exists a, s = a ++ [39; 39]))) by tauto.
    destruct (Z.eqb_spec c 9) as [->|N9].
    { cbn [st_lines st_pretty st_prefer st_run st_max]. split; [rewrite L; intuition discriminate|]. split; [unfold fine at 2; tauto|]. intros _. split; [rewrite Pr; intuition discriminate | auto]. }
    destruct ((c =? 34) || (c =? 92)) eqn:E1.
    { apply orb_true_iff in E1. rewrite !Z.eqb_eq in E1. cbn [st_lines st_pretty st_prefer st_run st_max]. split; [rewrite L; intuition congruence|].
      split; [unfold fine at 2; intuition lia|]. intros _. split; [split; [intuition congruence | auto] | auto]. }
    apply orb_false_iff in E1 as [E1 E1']. apply Z.eqb_neq in E1, E1'.
    destruct (Z.eqb_spec c 10) as [->|N10].
    { cbn [st_lines st_pretty st_prefer st_run st_max]. split; [tauto|]. split; [unfold fine at 2; tauto|]. intros _. split; [rewrite Pr; intuition discriminate | auto]. }
    destruct ((c <=? 31) || (c =? 127)) eqn:E2; cbn [st_lines st_pretty st_prefer st_run st_max].
    { split; [rewrite L; intuition congruence|]. split; [|discriminate]. split; [discriminate|]. intros [_ [_ F]]. unfold fine in F. lia. }
    split; [rewrite L; intuition congruence|]. split; [split; auto; intros _; split; auto; split; auto; unfold fine; lia|]. intros _. split; [rewrite Pr; intuition congruence | auto].
Qed.
Lemma literal_iff s : is_text s = true -> literal_ok s = true <-> literal_text s.
Proof.
  intros T. destruct (style_ok s T) as (_ & P & R). unfold literal_ok, literal_text. rewrite !andb_true_iff, Nat.eqb_eq. split.
  - intros [[H1 H2] H3]. destruct (R H1) as (Pr & Tr & _). apply P in H1 as [N3 F]. split; [now apply Pr|]. split; [intros a b E; apply N3; exists a, b; exact E|]. split; [now apply (trail_zero _ _ Tr) | exact F].
  - intros (H1 & H2 & H3 & H4). assert (Q : st_pretty (style_of s) = true) by (apply P; split; auto; intros (a & b & E); exact (H2 a b E)).
    destruct (R Q) as (Pr & Tr & _). split; [split; auto; now apply Pr | now apply (trail_zero _ _ Tr)].
Qed.

(** ** Escapes *)
Lemma hex_look z : 0 <= z <= 15 -> capital_hex z (hex_digit z).
Proof. intros H. unfold capital_hex, hex_digit. destruct (Z.ltb_spec z 10); lia. Qed.
Lemma capital_fun z d : capital_hex z d -> d = hex_digit z.
Proof. unfold capital_hex, hex_digit. destruct (Z.ltb_spec z 10); lia. Qed.
Lemma escaped_char_ok keep c t : 0 <= c -> escaped_char keep c t <-> t = escape_char keep c.
Proof.
  intros H0. unfold escape_char. split.
  - intros H. inversion H as [| |K|K| | | | |? h l a b D N Hl E Ha Hb|? D N1 N2 N3]; subst; try reflexivity.
    + apply capital_fun in Ha, Hb. subst a b. unfold escape_u. set (c := 16 * h + l) in *. assert (Nn : c <> 8 /\ c <> 9 /\ c <> 10 /\ c <> 12 /\ c <> 13) by (cbn in N; intuition congruence).
      assert (Q : c / 16 = h /\ c mod 16 = l) by (split; unfold c; [rewrite (Z.mul_comm 16), Z.div_add_l by lia; rewrite (Z.div_small l) by lia; lia | rewrite (Z.mul_comm 16), Z.add_comm, Z.mod_add by lia; apply Z.mod_small; lia]).
      destruct Q as [-> ->]. clearbody c. destruct (Z.eqb_spec c 8), (Z.eqb_spec c 9), (Z.eqb_spec c 10), (Z.eqb_spec c 12), (Z.eqb_spec c 13), (Z.eqb_spec c 34), (Z.eqb_spec c 92); try lia.
      destruct (Z.leb_spec c 31), (Z.eqb_spec c 127); try lia; reflexivity.
    + destruct (Z.eqb_spec c 8), (Z.eqb_spec c 9), (Z.eqb_spec c 10), (Z.eqb_spec c 12), (Z.eqb_spec c 13), (Z.eqb_spec c 34), (Z.eqb_spec c 92); try lia.
      destruct (Z.leb_spec c 31), (Z.eqb_spec c 127); try lia; reflexivity.
  - intros ->. destruct (Z.eqb_spec c 8) as [->|]; [constructor|]. destruct (Z.eqb_spec c 9) as [->|]; [constructor|]. destruct (Z.eqb_spec c 10) as [->|]; [destruct keep; now constructor|].
    destruct (Z.eqb_spec c 12) as [->|]; [constructor|]. destruct (Z.eqb_spec c 13) as [->|]; [constructor|]. destruct (Z.eqb_spec c 34) as [->|]; [constructor|].
    destruct (Z.eqb_spec c 92) as [->|]; [constructor|]. destruct ((c <=? 31) || (c =? 127)) eqn:E.
    + unfold escape_u. pose proof (Z.mod_pos_bound c 16 ltac:(lia)). pose proof (Z.div_mod c 16 ltac:(lia)).
      assert (c <= 127) by (apply orb_true_iff in E; rewrite Z.leb_le, Z.eqb_eq in E; lia).
      assert (c / 16 < 8) by (apply Z.div_lt_upper_bound; lia). assert (0 <= c / 16) by (apply Z.div_pos; lia).
      apply (EcControl keep c (c / 16) (c mod 16)); try lia; [cbn; intuition congruence | apply hex_look; lia | apply hex_look; lia].
    + apply orb_false_iff in E as [E1 E2]. apply Z.leb_gt in E1. apply Z.eqb_neq in E2. apply EcPlain; lia.
Qed.
Lemma escaped_ok keep s : is_text s = true -> forall t, escaped keep s t <-> t = flat_map (escape_char keep) s.
Proof.
  induction s as [|c s IH]; intros T t; cbn [flat_map]; [split; [intros H; now inversion H | intros ->; constructor]|].
  cbn [is_text forallb] in T. apply andb_true_iff in T as [Tc Ts]. apply scalar_nonneg in Tc. split.
  - intros H. inversion H as [|? ? u w H1 H2]; subst. apply (escaped_char_ok keep c u Tc) in H1. apply (IH Ts) in H2. congruence.
  - intros ->. constructor; [now apply escaped_char_ok | now apply IH].
Qed.
Lemma text_look_ok s t : is_text s = true -> text_look s t <-> t = print_str s.
Proof.
  intros T. destruct (style_ok s T) as (L & _ & R). pose proof (literal_iff s T) as K. unfold print_str. split.
  - intros H. inversion H as [? Q I|? Q I J|? Q I J|? u Q I E|? u Q I E]; subst; try (apply K in Q; rewrite Q); try (assert (literal_ok s = false) as -> by (destruct (literal_ok s); auto; destruct Q; now apply K)).
    + rewrite (proj2 L I). reflexivity.
    + assert (st_lines (style_of s) = false) as -> by (destruct (st_lines (style_of s)); auto; destruct I; now apply L).
      unfold literal_ok in Q. rewrite !andb_true_iff in Q. destruct (R (proj1 (proj1 Q))) as (_ & _ & M). apply M in J. apply Nat.leb_le in J. rewrite J. reflexivity.
    + assert (st_lines (style_of s) = false) as -> by (destruct (st_lines (style_of s)); auto; destruct I; now apply L).
      unfold literal_ok in Q. rewrite !andb_true_iff in Q. destruct (R (proj1 (proj1 Q))) as (_ & _ & M). destruct (Nat.leb_spec 1 (Nat.max (st_max (style_of s)) (st_run (style_of s)))); [destruct J; now apply M | reflexivity].
    + rewrite (proj2 L I). apply (escaped_ok true s T) in E. now rewrite E.
    + assert (st_lines (style_of s) = false) as -> by (destruct (st_lines (style_of s)); auto; destruct I; now apply L). apply (escaped_ok false s T) in E. now rewrite E.
  - intros ->. destruct (literal_ok s) eqn:Q.
    + pose proof (proj1 K eq_refl) as Q'. destruct (st_lines (style_of s)) eqn:I; [apply TkLiteralLines; auto; now apply L|].
      assert (NI : ~ In 10 s) by (intros I2; apply L in I2; congruence). unfold literal_ok in Q. rewrite !andb_true_iff in Q. destruct (R (proj1 (proj1 Q))) as (_ & _ & M).
      destruct (Nat.leb_spec 1 (Nat.max (st_max (style_of s)) (st_run (style_of s)))) as [J|J]; [apply TkLiteralQuotes; auto; now apply M | apply TkLiteral; auto; intros I2; apply M in I2; lia].
    + assert (NQ : ~ literal_text s) by (intros Q'; apply (proj2 K) in Q'; discriminate Q'). destruct (st_lines (style_of s)) eqn:I.
      * apply TkLines; auto; [now apply L | now apply escaped_ok].
      * apply TkText; auto; [intros I2; apply L in I2; congruence | now apply escaped_ok].
Qed.
Lemma bare_iff c : bare_char c = true <-> 65 <= c <= 90 \/ 97 <= c <= 122 \/ 48 <= c <= 57 \/ c = 95 \/ c = 45.
Proof. unfold bare_char, digit_char. rewrite !orb_true_iff, !andb_true_iff, !Z.leb_le, !Z.eqb_eq. tauto. Qed.
Lemma bare_key_iff c k : forallb bare_char (c :: k) = true <-> bare_key (c :: k).
Proof. unfold bare_key. rewrite forallb_forall. split; [intros H; split; [discriminate|]; intros d I; apply bare_iff; auto | intros [_ H] d I; apply bare_iff; auto]. Qed.
Lemma key_look_ok k t : is_text k = true -> key_look k t <-> t = print_key k.
Proof.
  intros T. destruct k as [|c k].
  - cbn. split; [intros H; inversion H as [? [N _]|? u N E]; subst; [congruence | apply (escaped_ok false [] eq_refl) in E; subst; reflexivity]|].
    intros ->. apply (KlQuoted [] []); [intros [N _]; congruence | constructor].
  - unfold print_key. pose proof (bare_key_iff c k) as B. split.
    + intros H. inversion H as [? Q|? u Q E]; subst.
      * apply B in Q. now rewrite Q.
      * apply (escaped_ok false _ T) in E. subst u. destruct (forallb bare_char (c :: k)); [destruct Q; now apply B | reflexivity].
    + intros ->. destruct (forallb bare_char (c :: k)) eqn:Q; [apply KlBare; now apply B | apply KlQuoted; [intros B'; apply B in B'; congruence | now apply escaped_ok]].
Qed.

(** ** Values *)
Lemma joined_ok sep l : forall t, joined sep l t <-> t = join_str sep l.
Proof.
  induction l as [|x l IH]; intros t; [split; [intros H; now inversion H | intros ->; constructor]|]. destruct l as [|y l].
  - split; [intros H; now inversion H | intros ->; constructor].
  - split.
    + intros H. inversion H as [| |? ? ? u H1]; subst. apply IH in H1. subst u. reflexivity.
    + intros ->. change (join_str sep (x :: y :: l)) with (x ++ sep ++ join_str sep (y :: l)). constructor. now apply IH.
Qed.
Lemma has_char c (s : str) : existsb (Z.eqb c) s = true <-> In c s.
Proof. rewrite existsb_exists. split; [intros (x & I & E); apply Z.eqb_eq in E; now subst | intros I; exists c; split; auto; apply Z.eqb_refl]. Qed.
Lemma float_look_ok f t : float_look f t <-> t = print_float f.
Proof.
  split.
  - intros H. inversion H as [| | |? N1 N2 I|? N1 N2 I]; subst; try reflexivity.
    + apply has_char in I. unfold print_float. destruct f as [b|b| |b m e]; [rewrite I; reflexivity | destruct (N2 b eq_refl) | congruence | rewrite I; reflexivity].
    + assert (E : existsb (Z.eqb 46) (print_f64 f) = false) by (apply not_true_iff_false; intros E; apply I, has_char, E).
      unfold print_float. destruct f as [b|b| |b m e]; [rewrite E; reflexivity | destruct (N2 b eq_refl) | congruence | rewrite E; reflexivity].
  - intros ->. assert (K : (f <> S754_nan) -> (forall b, f <> S754_infinity b) -> float_look f (if existsb (Z.eqb 46) (print_f64 f) then print_f64 f else print_f64 f ++ lit ".0")).
    { intros N1 N2. destruct (existsb (Z.eqb 46) (print_f64 f)) eqn:E; [apply FkPoint; auto; now apply has_char | apply FkWhole; auto; intros I; apply has_char in I; congruence]. }
    destruct f as [b|[]| |b m e]; try (apply K; congruence); constructor.
Qed.
Definition look_ok (x : toml_value) : Prop := proper_toml x -> forall t, value_look x t <-> t = print_value x.
Lemma elements_ok l : (forall x, In x l -> forall t, value_look x t <-> t = print_value x) ->
  forall t, element_looks l t <-> t = flat_map (fun x => [10] ++ lit "    " ++ print_value x ++ lit ",") l.
Proof.
  induction l as [|x l IH]; intros H t; cbn [flat_map]; [split; [intros K; now inversion K | intros ->; constructor]|].
  assert (IH' := IH (fun y I => H y (or_intror I))). split.
  - intros K. inversion K as [|? ? u w K1 K2]; subst. apply (H x (or_introl eq_refl)) in K1. apply IH' in K2. subst. now rewrite <- !app_assoc.
  - intros ->. rewrite <- !app_assoc. constructor; [now apply (H x (or_introl eq_refl)) | now apply IH'].
Qed.
Lemma entries_look_ok m : (forall k x, In (k, x) m -> is_text k = true /\ forall t, value_look x t <-> t = print_value x) ->
  forall ts, entry_looks m ts <-> ts = map (fun e => print_key (fst e) ++ lit " = " ++ print_value (snd e)) m.
Proof.
  induction m as [|[k x] m IH]; intros H ts; cbn [map]; [split; [intros K; now inversion K | intros ->; constructor]|].
  assert (IH' := IH (fun k y I => H k y (or_intror I))). destruct (H k x (or_introl eq_refl)) as [Tk Hx]. cbn [fst snd]. split.
  - intros K. inversion K as [|? ? ? a u us K1 K2 K3]; subst. apply (key_look_ok k a Tk) in K1. apply Hx in K2. apply IH' in K3. now subst.
  - intros ->. constructor; [now apply key_look_ok | now apply Hx | now apply IH'].
Qed.
Lemma value_look_ok x : proper_toml x -> forall t, value_look x t <-> t = print_value x.
Proof.
  induction x as [x F|l IH|m IH] using toml_ind'; intros P t.
  - destruct x as [b|z|f|s|s|l|m]; try (destruct F); cbn [print_value].
    + destruct b; (split; [intros H; now inversion H | intros ->; constructor]).
    + split; [intros H; inversion H; subst; eapply canonical_unique; [eassumption | apply print_int_canonical] | intros ->; constructor; apply print_int_canonical].
    + split; [intros H; inversion H; subst; now apply float_look_ok | intros ->; constructor; now apply float_look_ok].
    + inversion P; subst. split; [intros H; inversion H; subst; now apply text_look_ok | intros ->; constructor; now apply text_look_ok].
    + split; [intros H; now inversion H | intros ->; constructor].
  - inversion P as [| | | | |? Pl|]; subst. assert (K : forall x, In x l -> forall t, value_look x t <-> t = print_value x) by (intros x I; apply IH; auto).
    destruct l as [|x [|y l]].
    + cbn. split; [intros H; now inversion H | intros ->; constructor].
    + cbn [print_value]. specialize (K x (or_introl eq_refl)). split; [intros H; inversion H as [| | | | | | |? u E| | |]; subst; apply K in E; now subst | intros ->; constructor; now apply K].
    + change (print_value (TvArr (x :: y :: l))) with (lit "[" ++ flat_map (fun x => [10] ++ lit "    " ++ print_value x ++ lit ",") (x :: y :: l) ++ [10] ++ lit "]").
      pose proof (elements_ok (x :: y :: l) K) as Q. split; [intros H; inversion H as [| | | | | | | |? ? ? u E| |]; subst; apply Q in E; now subst | intros ->; constructor; now apply Q].
  - inversion P as [| | | | | |? ND Pm]; subst. assert (K : forall k x, In (k, x) m -> is_text k = true /\ forall t, value_look x t <-> t = print_value x).
    { intros k x I. destruct (Pm k x I) as [Tk Px]. split; auto. eapply IH; eauto. }
    destruct m as [|e m]; [cbn; split; [intros H; now inversion H | intros ->; constructor]|].
    change (print_value (TvTab (e :: m))) with (lit "{ " ++ join_str (lit ", ") (map (fun e => print_key (fst e) ++ lit " = " ++ print_value (snd e)) (e :: m)) ++ lit " }").
    pose proof (entries_look_ok (e :: m) K) as Q. split.
    + intros H. inversion H as [| | | | | | | | | |? ? ts u E1 E2]; subst. apply Q in E1. subst ts. apply joined_ok in E2. now subst.
    + intros ->. eapply VlEntries; [now apply Q | now apply joined_ok].
Qed.

(** ** Files *)
Lemma tab_iff x : is_tab x = true <-> table_like x.
Proof. destruct x; cbn; unfold table_like; split; try discriminate; try (intros (? & E); discriminate E); intros _; eauto. Qed.
Lemma section_iff x : is_section x = true <-> section_like x.
Proof.
  destruct x as [| | | | |l|m]; cbn; unfold section_like; try (split; [discriminate | intros [(? & E)|(? & E & _)]; discriminate E]).
  - split.
    + intros H. right. exists l. destruct l as [|a l]; [discriminate|]. split; [reflexivity|]. split; [discriminate|]. intros x I. apply tab_iff. rewrite forallb_forall in H. auto.
    + intros [(? & E)|(q & E & N & H)]; [discriminate E|]. injection E as <-. destruct l as [|a l]; [congruence|]. apply forallb_forall. intros x I. apply tab_iff. auto.
  - split; auto. intros _. left. eexists; reflexivity.
Qed.
Lemma not_section x : is_section x = false <-> ~ section_like x.
Proof. rewrite <- section_iff. destruct (is_section x); split; congruence. Qed.
Lemma settings_iff m : has_settings m <-> own_entries m <> [].
Proof.
  unfold has_settings, own_entries. split.
  - intros (k & x & I & N) E. assert (I' : In (k, x) (filter (fun e => negb (is_section (snd e))) m)) by (apply filter_In; split; auto; cbn; apply negb_true_iff, not_section, N). rewrite E in I'. destruct I'.
  - intros N. destruct (filter _ m) as [|[k x] q] eqn:E; [congruence|]. exists k, x. assert (I : In (k, x) (filter (fun e => negb (is_section (snd e))) m)) by (rewrite E; left; auto).
    apply filter_In in I as [I Q]. split; auto. cbn in Q. apply negb_true_iff in Q. now apply not_section.
Qed.
Definition proper_entries (m : list (str * toml_value)) : Prop := forall k x, In (k, x) m -> is_text k = true /\ proper_toml x.
Lemma lines_ok m : proper_entries m -> forall s, lines_look m s <-> s = flat_map print_entry (own_entries m).
Proof.
  induction m as [|[k x] m IH]; intros P s; [cbn; split; [intros K; now inversion K | intros ->; constructor]|].
  assert (IH' := IH (fun k y I => P k y (or_intror I))). destruct (P k x (or_introl eq_refl)) as [Tk Px]. unfold own_entries. cbn [filter snd]. fold (own_entries m).
  destruct (is_section x) eqn:E; cbn [negb].
  - pose proof E as E'. apply section_iff in E'. split; [intros K; inversion K; subst; [contradiction | now apply IH'] | intros ->; apply LlSection; auto; now apply IH'].
  - pose proof E as E'. apply not_section in E'. cbn [flat_map]. unfold print_entry at 1. cbn [fst snd]. split.
    + intros K. inversion K as [|? ? ? a u w _ K1 K2 K3|]; subst; [|contradiction]. apply (key_look_ok k a Tk) in K1. apply (value_look_ok x Px) in K2. apply IH' in K3. subst. now rewrite <- !app_assoc.
    + intros ->. rewrite <- !app_assoc. apply LlSetting; auto; [now apply key_look_ok | now apply value_look_ok | now apply IH'].
Qed.
Lemma keys_ok path : forallb is_text path = true -> forall ks, Forall2 key_look path ks <-> ks = map print_key path.
Proof.
  induction path as [|k p IH]; intros T ks; cbn; [split; [intros H; now inversion H | intros ->; constructor]|]. cbn in T. apply andb_true_iff in T as [Tk Tp]. split.
  - intros H. inversion H as [|? a ? q H1 H2]; subst. apply (key_look_ok k a Tk) in H1. apply (IH Tp) in H2. congruence.
  - intros ->. constructor; [now apply key_look_ok | now apply IH].
Qed.
Definition header_text (path : list str) (array : bool) : str := print_header {| sc_path := path; sc_array := array; sc_entries := [] |}.
Lemma header_ok path array : forallb is_text path = true -> forall t, header_look path array t <-> t = header_text path array.
Proof.
  intros T t. unfold header_look, header_text, print_header. cbn [sc_path sc_array]. split.
  - intros (ks & u & K & J & ->). apply (keys_ok path T) in K. subst ks. apply joined_ok in J. subst u. destruct array; now rewrite <- !app_assoc.
  - intros ->. exists (map print_key path), (join_str (lit ".") (map print_key path)). split; [now apply keys_ok|]. split; [now apply joined_ok|]. destruct array; now rewrite <- !app_assoc.
Qed.
Definition block_text (s : section_text) : str := print_header s ++ flat_map print_entry (sc_entries s).
Definition blocks_fine (t : toml_value) : Prop :=
  match t with
  | TvTab m => forall path, forallb is_text path = true -> forall array bs, blocks_look path array m bs <-> bs = map block_text (sections path array t)
  | TvArr l => forallb is_tab l = true -> forall path, forallb is_text path = true -> forall bs, each_look path l bs <-> bs = map block_text (flat_map (sections path true) l)
  | _ => True
  end.
Lemma text_path path k : forallb is_text path = true -> is_text k = true -> forallb is_text (path ++ [k]) = true.
Proof. intros H K. rewrite forallb_app, H. cbn. now rewrite K. Qed.
Lemma below_ok m : proper_entries m -> (forall k x, In (k, x) m -> blocks_fine x) -> forall path, forallb is_text path = true ->
  forall bs, below_look path m bs <-> bs = map block_text (entry_sections sections path m).
Proof.
  induction m as [|[k x] m IH]; intros P F path T bs; [cbn; split; [intros K; now inversion K | intros ->; constructor]|].
  assert (IH' := IH (fun k y I => P k y (or_intror I)) (fun k y I => F k y (or_intror I)) path T). destruct (P k x (or_introl eq_refl)) as [Tk Px]. specialize (F k x (or_introl eq_refl)). pose proof (text_path path k T Tk) as T'.
  unfold entry_sections. cbn [flat_map fst snd]. fold (entry_sections sections path m). rewrite map_app. destruct (is_section x) eqn:E.
  - pose proof E as E'. apply section_iff in E'. destruct x as [| | | | |l|n]; try discriminate E.
    + assert (Q : forallb is_tab l = true) by (cbn in E; destruct l; auto). cbn [blocks_fine] in F. specialize (F Q _ T'). split.
      * intros K. inversion K as [|? ? ? ? ? N K1| |? ? ? ? cs ds S1 K1 K2]; subst; [contradiction|]. apply F in K1. apply IH' in K2. now subst.
      * intros ->. apply BwArray; auto; [now apply F | now apply IH'].
    + cbn [blocks_fine] in F. specialize (F _ T' false). split.
      * intros K. inversion K as [|? ? ? ? ? N K1|? ? ? ? cs ds K1 K2|]; subst; [contradiction|]. apply F in K1. apply IH' in K2. now subst.
      * intros ->. apply BwTable; [now apply F | now apply IH'].
  - pose proof E as E'. apply not_section in E'. cbn [map app]. split.
    + intros K. inversion K as [|? ? ? ? ? N K1|? ? ? ? cs ds K1 K2|? ? ? ? cs ds S1 K1 K2]; subst; [now apply IH' | discriminate E | contradiction].
    + intros ->. apply BwSetting; auto. now apply IH'.
Qed.
Lemma blocks_ok x : proper_toml x -> blocks_fine x.
Proof.
  induction x as [x F|l IH|m IH] using toml_ind'; intros P.
  - destruct x; try exact I; destruct F.
  - inversion P as [| | | | |? Pl|]; subst. cbn [blocks_fine]. intros Q path T. clear P. induction l as [|x l IHl]; intros bs; [cbn; split; [intros K; now inversion K | intros ->; constructor]|].
    cbn in Q. apply andb_true_iff in Q as [Qx Ql]. pose proof (IHl (fun y I => IH y (or_intror I)) (fun y I => Pl y (or_intror I)) Ql) as IHl'.
    pose proof (IH x (or_introl eq_refl) (Pl x (or_introl eq_refl))) as Fx. destruct x as [| | | | | |n]; try discriminate Qx. cbn [blocks_fine] in Fx. specialize (Fx path T true). cbn [flat_map]. rewrite map_app. split.
    + intros K. inversion K as [|? ? ? cs ds K1 K2]; subst. apply Fx in K1. apply IHl' in K2. now subst.
    + intros ->. constructor; [now apply Fx | now apply IHl'].
  - inversion P as [| | | | | |? ND Pm]; subst. cbn [blocks_fine]. intros path T array bs.
    assert (B : forall bs, below_look path m bs <-> bs = map block_text (entry_sections sections path m)).
    { apply below_ok; auto. intros k x I. eapply IH; eauto. apply (Pm k x I). }
    pose proof (settings_iff m) as S. pose proof (lines_ok m Pm) as L. pose proof (fun a => header_ok path a T) as H.
    assert (Hid : sections path array (TvTab m) = (if array then [{| sc_path := path; sc_array := true; sc_entries := own_entries m |}]
      else match m, own_entries m with _ :: _, [] => [] | _, own => [{| sc_path := path; sc_array := false; sc_entries := own |}] end) ++ entry_sections sections path m).
    { cbn [sections]. destruct array, m as [|e m]; try reflexivity. destruct (own_entries (e :: m)); reflexivity. }
    rewrite Hid, map_app. clear Hid. split.
    + intros K. inversion K as [? ? ? h s cs D K1 K2 K3|? ? cs N N' K1]; subst.
      * apply H in K1. apply L in K2. apply B in K3. subst. destruct array; [reflexivity|]. destruct m as [|e m]; [reflexivity|]. destruct (own_entries (e :: m)) eqn:O; [exfalso; destruct D as [D|[D|D]]; try discriminate; now apply S in D | reflexivity].
      * apply B in K1. subst. destruct m as [|e m]; [congruence|]. destruct (own_entries (e :: m)) eqn:O; [reflexivity | exfalso; apply N', S; discriminate].
    + intros ->. assert (Sh : forall a, a = true \/ m = [] \/ has_settings m -> blocks_look path a m ([block_text {| sc_path := path; sc_array := a; sc_entries := own_entries m |}] ++ map block_text (entry_sections sections path m))).
      { intros a D. cbn [app]. apply BlShown; auto; [now apply H | now apply L | now apply B]. }
      destruct array; [apply Sh; auto|]. destruct m as [|e m]; [apply Sh; auto|]. destruct (own_entries (e :: m)) eqn:O.
      * cbn [map app]. apply BlHidden; [discriminate | intros X; apply S in X; congruence | now apply B].
      * apply Sh. right. right. apply S. discriminate.
Qed.
Lemma sections_text l : print_sections false l = List.concat (map (fun b => [10] ++ b) (map block_text l)).
Proof. induction l as [|s l IH]; [reflexivity|]. cbn [print_sections map List.concat]. rewrite IH. unfold block_text. now rewrite <- !app_assoc. Qed.
Lemma join_blocks x l : join_str [10] (x :: l) = x ++ List.concat (map (fun b => [10] ++ b) l).
Proof. revert x. induction l as [|y l IH]; intros x; [cbn; now rewrite app_nil_r|]. change (join_str [10] (x :: y :: l)) with (x ++ [10] ++ join_str [10] (y :: l)). rewrite IH. cbn [map List.concat]. now rewrite <- !app_assoc. Qed.
Lemma top_sections_text l : print_sections true l = join_str [10] (map block_text l).
Proof. destruct l as [|s l]; [reflexivity|]. cbn [map]. rewrite join_blocks, <- sections_text. cbn [print_sections app]. unfold block_text. rewrite <- !app_assoc. reflexivity. Qed.
Lemma file_look_ok m : proper_toml (TvTab m) -> forall s, file_look m s <-> s = print_document (TvTab m).
Proof.
  intros P s. inversion P as [| | | | | |? ND Pm]; subst.
  assert (B : forall bs, below_look [] m bs <-> bs = map block_text (entry_sections sections [] m)).
  { apply below_ok; auto. intros k x I. apply blocks_ok. apply (Pm k x I). }
  pose proof (settings_iff m) as S. pose proof (lines_ok m Pm) as L. unfold print_document. split.
  - intros K. inversion K as [? u bs N K1 K2|? bs ? N K1 K2]; subst.
    + apply L in K1. apply B in K2. subst. destruct (own_entries m) eqn:O; [apply S in N; congruence|]. now rewrite sections_text.
    + apply B in K1. subst. apply joined_ok in K2. subst. destruct (own_entries m) eqn:O; [|exfalso; apply N, S; discriminate]. cbn [flat_map app]. now rewrite top_sections_text.
  - intros ->. destruct (own_entries m) eqn:O.
    + cbn [flat_map app]. rewrite top_sections_text. eapply FlTables; [intros X; apply S in X; congruence | now apply B | now apply joined_ok].
    + rewrite <- O, sections_text. apply FlSettings; [apply S; congruence | apply L; rewrite O; reflexivity | now apply B].
Qed.

(** ** What is never in a saved file *)
Lemma plain_app a b : plain_text a -> plain_text b -> plain_text (a ++ b).
Proof. intros A B c I. apply in_app_or in I as [I|I]; auto. Qed.
Lemma plain_check s : forallb (fun c => (c =? 9) || (c =? 10) || ((32 <=? c) && negb (c =? 127))) s = true -> plain_text s.
Proof. intros H c I. rewrite forallb_forall in H. specialize (H c I). rewrite !orb_true_iff, andb_true_iff, negb_true_iff, !Z.eqb_eq, Z.leb_le, Z.eqb_neq in H. tauto. Qed.
Ltac plain := solve [assumption | apply plain_check; reflexivity | apply plain_app; plain | auto].
Lemma plain_escaped keep s t : escaped keep s t -> plain_text t.
Proof.
  induction 1 as [|c s t u H _ IH]; [intros ? []|]. apply plain_app; auto. destruct H as [| | | | | | | |c h l a b D N Hl E Ha Hb|c H1 H2 H3 H4]; try (apply plain_check; reflexivity).
  - apply plain_app; [plain|]. intros d [<-|[<-|[]]]; unfold capital_hex in Ha, Hb; lia.
  - intros d [<-|[]]. tauto.
Qed.
Lemma plain_text_look s t : text_look s t -> plain_text t.
Proof.
  intros H. inversion H as [? (_ & _ & _ & Q) I|? (_ & _ & _ & Q) I J|? (_ & _ & _ & Q) I J|? u Q I E|? u Q I E]; subst; try (apply plain_escaped in E); plain.
Qed.
Lemma plain_bare k : bare_key k -> plain_text k.
Proof. intros [_ H] c I. specialize (H c I). lia. Qed.
Lemma plain_key k t : key_look k t -> plain_text t.
Proof. intros H. inversion H as [? B|? u N E]; subst; [now apply plain_bare | apply plain_escaped in E; plain]. Qed.
Lemma plain_token s : forallb token_char s = true -> plain_text s.
Proof.
  intros H c I. rewrite forallb_forall in H. specialize (H c I). unfold token_char in H. rewrite !orb_true_iff, !Z.eqb_eq in H.
  destruct H as [[[H|H]|H]|H]; try lia. apply bare_iff in H. lia.
Qed.
Lemma plain_joined sep l t : plain_text sep -> joined sep l t -> (forall x, In x l -> plain_text x) -> plain_text t.
Proof.
  intros P H. induction H as [|x|x y l t _ IH]; intros Q; [intros ? []|apply Q; now left|]. apply plain_app; [apply Q; now left|]. apply plain_app; auto. apply IH. intros z I. apply Q. now right.
Qed.
Inductive dateless : toml_value -> Prop :=
| DlBool b : dateless (TvBool b)
| DlInt z : dateless (TvInt z)
| DlFloat f : dateless (TvFloat f)
| DlStr s : dateless (TvStr s)
| DlArr l : (forall x, In x l -> dateless x) -> dateless (TvArr l)
| DlTab m : (forall k x, In (k, x) m -> dateless x) -> dateless (TvTab m).
Definition good (x : toml_value) : Prop := proper_toml x /\ dateless x.
Lemma good_arr l x : good (TvArr l) -> In x l -> good x.
Proof. intros [P D] I. inversion P; inversion D; subst. split; auto. Qed.
Lemma good_tab m k x : good (TvTab m) -> In (k, x) m -> good x.
Proof. intros [P D] I. inversion P as [| | | | | |? ? Q]; inversion D as [| | | | |? R]; subst. split; [apply (Q k x I) | apply (R k x I)]. Qed.
Scheme value_look_mut := Induction for value_look Sort Prop
with element_looks_mut := Induction for element_looks Sort Prop
with entry_looks_mut := Induction for entry_looks Sort Prop.
Combined Scheme look_mut from value_look_mut, element_looks_mut, entry_looks_mut.
Lemma plain_values :
  (forall x t, value_look x t -> good x -> plain_text t)
  /\ (forall l t, element_looks l t -> (forall x, In x l -> good x) -> plain_text t)
  /\ (forall m ts, entry_looks m ts -> (forall k x, In (k, x) m -> good x) -> forall t, In t ts -> plain_text t).
Proof.
  apply look_mut; try (intros; plain; fail).
  - intros z t C _. apply plain_token. rewrite (canonical_unique _ _ _ C (print_int_canonical z)). apply token_chars_int.
  - intros f t L [P _]. inversion P; subst. apply float_look_ok in L. subst. apply plain_token. now apply token_chars_float.
  - intros s t L _. eapply plain_text_look; eauto.
  - intros s [_ D]. inversion D.
  - intros x t _ IH G. assert (plain_text t) by (apply IH; eapply good_arr; eauto; now left). plain.
  - intros x y l t _ IH G. assert (plain_text t) by (apply IH; intros; eapply good_arr; eauto). plain.
  - intros e m ts t _ IH J G. assert (plain_text t) by (eapply plain_joined; eauto; [plain | apply IH; intros; eapply good_tab; eauto]). plain.
  - intros x l t u _ IHx _ IHl G. assert (plain_text t) by (apply IHx, G; now left). assert (plain_text u) by (apply IHl; intros; apply G; now right). plain.
  - intros _ t [].
  - intros k x m a t ts K _ IHx _ IHm G u [<-|I]; [|apply IHm; auto; intros; apply (G k0); now right].
    apply plain_key in K. assert (plain_text t) by (apply IHx, (G k); now left). plain.
Qed.
Definition line_ended (s : str) : Prop := exists t, s = t ++ [10].
Lemma lines_fine m s : lines_look m s -> (forall k x, In (k, x) m -> good x) -> plain_text s /\ (s = [] \/ line_ended s) /\ (has_settings m -> line_ended s).
Proof.
  induction 1 as [|k x m a t s N K V _ IH|k x m s S _ IH]; intros G.
  - split; [intros ? []|]. split; auto. intros (k & x & [] & _).
  - destruct IH as (P & E & _); [intros; apply (G k0); now right|]. apply plain_key in K. apply (proj1 plain_values) in V; [|apply (G k); now left].
    assert (L : line_ended (a ++ lit " = " ++ t ++ [10] ++ s)).
    { destruct E as [-> |(u & ->)]; [exists (a ++ lit " = " ++ t); now rewrite <- !app_assoc | exists (a ++ lit " = " ++ t ++ [10] ++ u); now rewrite <- !app_assoc]. }
    split; [plain | split; auto].
  - destruct IH as (P & E & Q); [intros; apply (G k0); now right|]. split; auto. split; auto. intros (k' & x' & [[= -> ->]|I] & N); [contradiction | apply Q; exists k', x'; auto].
Qed.
Lemma header_fine path a t : header_look path a t -> plain_text t /\ line_ended t.
Proof.
  intros (ks & u & F & J & ->). split.
  - assert (plain_text u). { eapply plain_joined; eauto; [plain|]. clear J. induction F as [|k t p q H _ IH]; intros x []; [subst; eapply plain_key; eauto | auto]. }
    destruct a; plain.
  - eexists. reflexivity.
Qed.
Scheme blocks_look_mut := Induction for blocks_look Sort Prop
with below_look_mut := Induction for below_look Sort Prop
with each_look_mut := Induction for each_look Sort Prop.
Combined Scheme blocks_mut from blocks_look_mut, below_look_mut, each_look_mut.
Definition all_fine (bs : list str) : Prop := forall b, In b bs -> plain_text b /\ line_ended b.
Lemma all_fine_app a b : all_fine a -> all_fine b -> all_fine (a ++ b).
Proof. intros A B c I. apply in_app_or in I as [I|I]; auto. Qed.
Lemma app_some {A} (a b : list A) : a <> [] \/ b <> [] -> a ++ b <> [].
Proof. intros [H|H] E; apply app_eq_nil in E; tauto. Qed.
Lemma blocks_fine_text :
  (forall path a m bs, blocks_look path a m bs -> good (TvTab m) -> all_fine bs /\ bs <> [])
  /\ (forall path m bs, below_look path m bs -> (forall k x, In (k, x) m -> good x) -> all_fine bs /\ (m <> [] -> ~ has_settings m -> bs <> []))
  /\ (forall path l bs, each_look path l bs -> (forall x, In x l -> good x) -> all_fine bs /\ (l <> [] -> bs <> [])).
Proof.
  apply blocks_mut.
  - intros path a m h s bs D H L _ IH G. destruct IH as [F _]; [intros; eapply good_tab; eauto|]. split; [|discriminate].
    apply header_fine in H as [Ph (u & ->)]. apply lines_fine in L as (Pl & E & _); [|intros; eapply good_tab; eauto].
    intros b [<-|I]; [|auto]. split; [plain|].
    destruct E as [-> |(w & ->)]; [exists u; now rewrite app_nil_r | exists ((u ++ [10]) ++ w); now rewrite <- !app_assoc].
  - intros path m bs N S _ IH G. destruct IH as [F Q]; [intros; eapply good_tab; eauto|]. auto.
  - intros path G. split; [intros ? [] | congruence].
  - intros path k x m bs N _ IH G. destruct IH as [F _]; [intros; apply (G k0); now right|]. split; auto. intros _ S. destruct S. exists k, x. split; auto. now left.
  - intros path k n m bs cs _ IHn _ IHm G. destruct IHn as [F Q]; [apply (G k); now left|]. destruct IHm as [F' _]; [intros; apply (G k0); now right|].
    split; [now apply all_fine_app|]. intros _ _. apply app_some. auto.
  - intros path k l m bs cs S _ IHl _ IHm G. destruct IHl as [F Q]; [intros x I; eapply good_arr; eauto; apply (G k); now left|]. destruct IHm as [F' _]; [intros; apply (G k0); now right|].
    split; [now apply all_fine_app|]. intros _ _. apply app_some. left. apply Q. destruct S as [(? & E)|(? & [= <-] & N & _)]; [discriminate E | exact N].
  - intros path G. split; [intros ? [] | congruence].
  - intros path n l bs cs _ IHn _ IHl G. destruct IHn as [F Q]; [apply G; now left|]. destruct IHl as [F' _]; [intros; apply G; now right|].
    split; [now apply all_fine_app|]. intros _. apply app_some. auto.
Qed.
Lemma file_fine m s : file_look m s -> good (TvTab m) -> plain_text s /\ (m <> [] -> line_ended s).
Proof.
  intros K G. assert (Ge : forall k x, In (k, x) m -> good x) by (intros; eapply good_tab; eauto).
  assert (C : forall bs, all_fine bs -> plain_text (List.concat (map (fun b => [10] ++ b) bs)) /\ (bs <> [] -> line_ended (List.concat (map (fun b => [10] ++ b) bs)))).
  { induction bs as [|b bs IH]; intros A; [split; [intros ? [] | congruence]|]. destruct IH as [P E]; [intros x I; apply A; now right|]. destruct (A b (or_introl eq_refl)) as [Pb (u & ->)]. cbn [map List.concat]. split; [plain|].
    intros _. destruct bs as [|c bs]; [exists ([10] ++ u); cbn [map List.concat]; rewrite app_nil_r; reflexivity|]. destruct E as (w & ->); [discriminate|]. exists (([10] ++ u ++ [10]) ++ w). rewrite app_assoc; reflexivity. }
  destruct K as [m s bs N L B|m bs t N B J].
  - apply lines_fine in L as (Pl & _ & E); auto. apply (proj1 (proj2 blocks_fine_text)) in B as [F _]; auto. destruct (C bs F) as [P E']. split; [plain|]. intros _.
    destruct bs as [|b bs]; [cbn; rewrite app_nil_r; auto|]. destruct E' as (u & ->); [discriminate|]. exists (s ++ u). now rewrite <- app_assoc.
  - apply (proj1 (proj2 blocks_fine_text)) in B as [F Q]; auto. apply joined_ok in J. subst t. destruct bs as [|b bs].
    + split; [intros ? [] | intros X; destruct (Q X N); reflexivity].
    + rewrite join_blocks. destruct (F b (or_introl eq_refl)) as [Pb (u & E)]. destruct (C bs ltac:(intros x I; apply F; now right)) as [P E']. split; [plain|]. intros _.
      destruct bs as [|c bs]; [exists u; cbn [map List.concat]; now rewrite app_nil_r|]. destruct E' as (w & ->); [discriminate|]. exists (b ++ w). now rewrite <- app_assoc.
Qed.
Lemma becomes_dateless r :
  (forall v t, becomes r v t -> dateless t)
  /\ (forall l q, items r l q -> forall t, In t q -> dateless t)
  /\ (forall m n, entries r m n -> forall k t, In (k, t) n -> dateless t)
  /\ (forall v w, stuck r v w -> True).
Proof.
  apply toml_mut; try (intros; exact I); try (intros; constructor; assumption); try (intros; constructor; fail).
  - intros t [].
  - intros x l y q _ Hx _ Hl t [<-|I]; auto.
  - intros k t [].
  - intros k x m y n _ Hx _ Hm k' t [[= <- <-]|I]; eauto.
  - intros k m n _ Hm. exact Hm.
  - intros k x m n _ _ _ _ Hm. exact Hm.
Qed.
