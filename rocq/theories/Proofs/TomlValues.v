(** Values of TOML text are read back as written. *)
From Coq Require Import ZArith Bool String Lia.
From Coq Require Import List.
Import ListNotations.
From Verif.Model Require Import Text Num Flt Value Toml TomlText.
From Verif.Spec Require Import Numerals TomlSpec TomlTextSpec.
From Verif.Proofs Require Import Basics TomlProofs TomlLex TomlNum.
Local Open Scope Z_scope.

(** How a value begins. *)
Definition value_start (c : char) : bool :=
  negb (is_ws c || (c =? 10) || (c =? 13) || (c =? 35) || (c =? 93) || (c =? 44) || (c =? 125)).
Definition starts (s : str) : Prop := match s with c :: _ => value_start c = true | [] => False end.
Lemma token_start s : s <> [] -> forallb token_char s = true -> starts s.
Proof.
  destruct s as [|c s]; intros N T; [congruence|]. cbn [forallb] in T. apply andb_true_iff in T as [T _]. cbn [starts].
  unfold value_start, is_ws, token_char, bare_char, digit_char in *. lia.
Qed.
Lemma token_nonempty s t : token_value s = Some t -> s <> [].
Proof. intros H ->. discriminate H. Qed.
Lemma print_str_start s : starts (print_str s).
Proof. unfold print_str. destruct (literal_ok s), (st_lines (style_of s)); try reflexivity. destruct (Nat.leb _ _); reflexivity. Qed.
Lemma value_starts n t : proper_toml t -> plain_doc n t -> starts (print_value t).
Proof.
  intros P W. destruct t; cbn [print_value].
  - destruct b; reflexivity.
  - inversion P; subst. apply token_start; [|apply token_chars_int]. eapply token_nonempty, token_int; eauto.
  - inversion P; subst. apply token_start; [|now apply token_chars_float]. eapply token_nonempty, token_float; eauto.
  - apply print_str_start.
  - inversion W.
  - destruct l as [|? [|? ?]]; reflexivity.
  - destruct m; reflexivity.
Qed.

Lemma starts_app s r : starts s -> starts (s ++ r).
Proof. destruct s; [intros [] | auto]. Qed.
Lemma start_ws s : starts s -> skip_ws s = s.
Proof.
  destruct s as [|c s]; [intros []|]. cbn [starts]. intros H. unfold skip_ws. cbn [drop_while].
  replace (is_ws c) with false; auto. unfold value_start in H. destruct (is_ws c); [discriminate H | reflexivity].
Qed.
Definition stops_lines (s : str) : Prop :=
  match s with c :: _ => is_ws c = false /\ c <> 10 /\ c <> 13 /\ c <> 35 | [] => True end.
Lemma start_stops s : starts s -> stops_lines s.
Proof. destruct s as [|c s]; [intros []|]. cbn [starts stops_lines]. unfold value_start. intros H. destruct (is_ws c); [discriminate H|]. lia. Qed.
Lemma skip_comment_id c s : c <> 35 -> skip_comment (c :: s) = c :: s.
Proof. intros N. unfold skip_comment. destruct c as [|p|p]; try reflexivity. do 6 (destruct p as [p|p|]; try reflexivity; try congruence). Qed.
Lemma not_line_end {A} c s (a : str -> A) (b : str -> A) : c <> 10 -> c <> 13 ->
  match c :: s with 10 :: t => a t | 13 :: 10 :: t => a t | r => b r end = b (c :: s).
Proof. intros N1 N2. destruct c as [|p|p]; try reflexivity. do 4 (destruct p as [p|p|]; try reflexivity; try congruence). Qed.
Lemma skip_lines_id n s : stops_lines s -> skip_lines n s = s.
Proof.
  intros H. destruct n as [|n]; [reflexivity|]. destruct s as [|c s]; [reflexivity|]. destruct H as (H1 & H2 & H3 & H4). cbn [skip_lines].
  unfold skip_ws. cbn [drop_while]. rewrite H1, skip_comment_id by auto. now apply (not_line_end c s (skip_lines n) (fun r => r)).
Qed.
Lemma skip_lines_newline n s : skip_lines (S n) (10 :: s) = skip_lines n s.
Proof. reflexivity. Qed.
Lemma skip_lines_spaces n s : stops_lines s -> skip_lines (S n) (32 :: 32 :: 32 :: 32 :: s) = s.
Proof.
  intros H. cbn [skip_lines]. change (skip_ws (32 :: 32 :: 32 :: 32 :: s)) with (skip_ws s). destruct s as [|c s]; [reflexivity|].
  destruct H as (H1 & H2 & H3 & H4). unfold skip_ws. cbn [drop_while]. rewrite H1, skip_comment_id by auto. now apply (not_line_end c s (skip_lines n) (fun r => r)).
Qed.

(** *** The forms of [value_at] *)
Lemma va_string lim f deep s x r : string_value s = Some (x, r) -> value_at lim (S f) deep s = Some (TvStr x, r).
Proof.
  intros H. destruct s as [|c s]; [discriminate H|]. cbn [value_at]. replace ((c =? 34) || (c =? 39)) with true; [now rewrite H|].
  symmetry. apply orb_true_iff. rewrite !Z.eqb_eq. destruct (Z.eq_dec c 34) as [->|N1]; auto. destruct (Z.eq_dec c 39) as [->|N2]; auto. exfalso.
  unfold string_value in H. destruct c as [|p|p]; try discriminate H. do 6 (destruct p as [p|p|]; try discriminate H; try congruence).
Qed.
Lemma va_token lim f deep s a r t : token_end s = (a, r) -> token_value a = Some t -> starts s -> head_not (fun c => (c =? 34) || (c =? 39) || (c =? 91) || (c =? 123)) s ->
  value_at lim (S f) deep s = Some (t, r).
Proof.
  intros E V S H. destruct s as [|c s]; [destruct S|]. cbn [head_not] in H. cbn [value_at].
  apply orb_false_iff in H as [H H4]. apply orb_false_iff in H as [H H3]. rewrite H, H3, H4, E, V. reflexivity.
Qed.
Lemma va_word lim f deep s rest t : forallb token_char s = true -> token_value s = Some t -> ends_value rest ->
  value_at lim (S f) deep (s ++ rest) = Some (t, rest).
Proof.
  intros T V E. pose proof (token_nonempty _ _ V) as N. eapply va_token; [apply token_end_read; eauto | exact V | apply starts_app, token_start; auto|].
  destruct s as [|c s]; [congruence|]. cbn [app head_not]. cbn [forallb] in T. apply andb_true_iff in T as [T _].
  unfold token_char, bare_char, digit_char in T. lia.
Qed.
Lemma va_array lim f deep s l r : (S deep < lim)%nat -> items_at lim f (S deep) s = Some (l, r) -> value_at lim (S f) deep (91 :: s) = Some (TvArr l, r).
Proof.
  intros L H. cbn [value_at]. cbn [Z.eqb Pos.eqb orb]. replace (Nat.leb lim (S deep)) with false by (symmetry; apply Nat.leb_gt; lia). now rewrite H.
Qed.
Lemma va_empty_table lim f deep r : (S deep < lim)%nat -> value_at lim (S f) deep (123 :: 125 :: r) = Some (TvTab [], r).
Proof.
  intros L. cbn [value_at]. cbn [Z.eqb Pos.eqb orb]. replace (Nat.leb lim (S deep)) with false by (symmetry; apply Nat.leb_gt; lia). reflexivity.
Qed.
Lemma va_table lim f deep s l m r : (S deep < lim)%nat -> starts s -> pairs_at lim f (S deep) s = Some (l, r) -> put_entries l [] = Some m ->
  value_at lim (S f) deep (123 :: 32 :: s) = Some (of_table m, r).
Proof.
  intros L S H P. cbn [value_at]. cbn [Z.eqb Pos.eqb orb]. replace (Nat.leb lim (Datatypes.S deep)) with false by (symmetry; apply Nat.leb_gt; lia).
  change (skip_ws (32 :: s)) with (skip_ws s). rewrite (start_ws s S). destruct s as [|c s]; [destruct S|]. cbn [starts] in S.
  transitivity (match pairs_at lim f (Datatypes.S deep) (c :: s) with
                | Some (l, r) => match put_entries l [] with Some m => Some (of_table m, r) | None => None end
                | None => None end).
  - assert (c <> 125) by (unfold value_start in S; lia). destruct c as [|p|p]; try reflexivity. do 7 (destruct p as [p|p|]; try reflexivity; try congruence).
  - now rewrite H, P.
Qed.

(** *** Items of an array *)
Lemma ia_end lim f deep r : items_at lim (S f) deep (93 :: r) = Some ([], r).
Proof. cbn [items_at]. rewrite skip_lines_id; [reflexivity|]. cbn. repeat split; discriminate. Qed.
Lemma ia_end_line lim f deep r : items_at lim (S f) deep (10 :: 93 :: r) = Some ([], r).
Proof.
  cbn [items_at]. cbn [List.length]. rewrite skip_lines_newline, skip_lines_id; [reflexivity|]. cbn. repeat split; discriminate.
Qed.
Lemma ia_value lim f deep s t x u : skip_lines (List.length s) s = t -> starts t -> value_at lim f deep t = Some (x, u) ->
  items_at lim (S f) deep s =
    match skip_lines (List.length u) u with
    | 44 :: r => match items_at lim f deep r with Some (l, r') => Some (x :: l, r') | None => None end
    | 93 :: r => Some ([x], r)
    | _ => None
    end.
Proof.
  intros E S V. cbn [items_at]. rewrite E. destruct t as [|c t]; [destruct S|]. cbn [starts] in S.
  transitivity (match value_at lim f deep (c :: t) with
    | None => None
    | Some (x, u) =>
      match skip_lines (List.length u) u with
      | 44 :: r => match items_at lim f deep r with Some (l, r') => Some (x :: l, r') | None => None end
      | 93 :: r => Some ([x], r)
      | _ => None
      end
    end).
  - assert (c <> 93) by (unfold value_start in S; lia). destruct c as [|p|p]; try reflexivity. do 7 (destruct p as [p|p|]; try reflexivity; try congruence).
  - now rewrite V.
Qed.
Definition item_text (x : toml_value) : str := [10] ++ lit "    " ++ print_value x ++ lit ",".
Lemma items_read lim deep l (rest : str) :
  (forall x, In x l -> starts (print_value x)) ->
  (forall x f r, In x l -> ends_value r -> (2 * List.length (print_value x) < f)%nat -> value_at lim f deep (print_value x ++ r) = Some (x, r)) ->
  forall fuel, (2 * List.length (flat_map item_text l) + 1 < fuel)%nat ->
  items_at lim fuel deep (flat_map item_text l ++ 10 :: 93 :: rest) = Some (l, rest).
Proof.
  intros S V. induction l as [|x l IH]; intros fuel L.
  - destruct fuel; [cbn in L; lia|]. apply ia_end_line.
  - destruct fuel as [|fuel]; [lia|]. cbn [flat_map] in L. rewrite app_length in L.
    assert (Lx : List.length (item_text x) = (6 + List.length (print_value x))%nat).
    { unfold item_text. rewrite !app_length. cbn [List.length]. change (List.length (lit "    ")) with 4%nat. change (List.length (lit ",")) with 1%nat. lia. }
    rewrite Lx in L. cbn [flat_map]. rewrite <- app_assoc. set (more := flat_map item_text l ++ 10 :: 93 :: rest) in *.
    assert (E : item_text x ++ more = 10 :: 32 :: 32 :: 32 :: 32 :: (print_value x ++ 44 :: more)).
    { unfold item_text. rewrite <- !app_assoc. reflexivity. }
    rewrite E. rewrite (ia_value lim fuel deep _ (print_value x ++ 44 :: more) x (44 :: more)); [| |apply starts_app, S; now left| apply V; [now left | constructor | lia]].
    + rewrite (skip_lines_id _ (44 :: more)) by (cbn; repeat split; discriminate). unfold more. rewrite IH; [reflexivity | | | lia].
      * intros; apply S; now right.
      * intros; apply V; auto; now right.
    + cbn [List.length]. rewrite skip_lines_newline. apply skip_lines_spaces, start_stops, starts_app, S. now left.
Qed.

(** *** Entries of an inline table *)
Definition pair_text (e : str * toml_value) : str := print_key (fst e) ++ lit " = " ++ print_value (snd e).
Lemma key_starts k : is_text k = true -> starts (print_key k).
Proof.
  intros T. unfold print_key. destruct k as [|c k]; [reflexivity|]. destruct (forallb bare_char (c :: k)) eqn:B; [|reflexivity].
  cbn in B. apply andb_true_iff in B as [B _]. cbn [starts]. unfold value_start, is_ws, bare_char, digit_char in *. lia.
Qed.
Lemma key_eq_read k t fuel : is_text k = true -> (0 < fuel)%nat -> key_path fuel (print_key k ++ 32 :: 61 :: t) = Some ([k], 61 :: t).
Proof.
  intros T L. apply (key_path_read [k] (32 :: 61 :: t) (61 :: t)); [discriminate | intros ? [<-|[]]; auto | repeat split | cbn; lia].
Qed.
Lemma key_path_space fuel s : key_path fuel (32 :: s) = key_path fuel s.
Proof. destruct fuel; reflexivity. Qed.
Lemma pa_one lim f deep (k : str) x (v rest sp : str) : sp = [] \/ sp = [32] -> is_text k = true -> (2 <= lim)%nat -> starts v -> value_at lim f deep (v ++ rest) = Some (x, rest) ->
  pairs_at lim (S f) deep (sp ++ print_key k ++ lit " = " ++ v ++ rest) =
    match skip_ws rest with
    | 44 :: r => match pairs_at lim f deep r with Some (l, r') => Some (([k], x) :: l, r') | None => None end
    | 125 :: r => Some ([([k], x)], r)
    | _ => None
    end.
Proof.
  intros Sp T L S V. cbn [pairs_at].
  assert (K : key_path (Datatypes.S (List.length (sp ++ print_key k ++ lit " = " ++ v ++ rest))) (sp ++ print_key k ++ lit " = " ++ v ++ rest) = Some ([k], 61 :: 32 :: v ++ rest)).
  { destruct Sp as [->| ->]; cbn [app]; rewrite ?key_path_space; apply (key_eq_read k (32 :: v ++ rest)); auto; lia. }
  rewrite K. cbn [List.length]. replace (Nat.leb lim 1) with false by (symmetry; apply Nat.leb_gt; lia).
  change (skip_ws (32 :: v ++ rest)) with (skip_ws (v ++ rest)). rewrite start_ws by now apply starts_app. now rewrite V.
Qed.
Lemma pairs_read lim deep m (rest : str) : (2 <= lim)%nat -> m <> [] ->
  (forall k x, In (k, x) m -> is_text k = true /\ starts (print_value x)) ->
  (forall k x f r, In (k, x) m -> ends_value r -> (2 * List.length (print_value x) < f)%nat -> value_at lim f deep (print_value x ++ r) = Some (x, r)) ->
  forall fuel (sp : str), sp = [] \/ sp = [32] -> (2 * List.length (join_str (lit ", ") (map pair_text m)) + 1 < fuel)%nat ->
  pairs_at lim fuel deep (sp ++ join_str (lit ", ") (map pair_text m) ++ 32 :: 125 :: rest) = Some (map (fun e => ([fst e], snd e)) m, rest).
Proof.
  intros L2. induction m as [|[k x] m IH]; intros N K V fuel sp Sp L; [congruence|].
  destruct fuel as [|fuel]; [lia|]. destruct (K k x ltac:(now left)) as [Tk Sx]. destruct m as [|e m].
  - cbn [map join_str] in *. unfold pair_text in *. cbn [fst snd] in *. rewrite !app_length in L. rewrite <- !app_assoc.
    rewrite (pa_one lim fuel deep k x (print_value x) (32 :: 125 :: rest) sp); auto.
    apply (V k); [now left | constructor | lia].
  - set (M := e :: m) in *. assert (NM : M <> []) by discriminate. cbn [map] in *. rewrite join_cons in L |- * by (destruct M; [congruence | discriminate]).
    rewrite !app_length in L. unfold pair_text at 1 in L. unfold pair_text at 1. cbn [fst snd] in *. rewrite !app_length in L. rewrite <- !app_assoc.
    change (List.length (lit ", ")) with 2%nat in L. change (List.length (lit " = ")) with 3%nat in L.
    rewrite (pa_one lim fuel deep k x (print_value x) _ sp); auto; [|apply (V k); [now left | constructor | lia]].
    change (lit ", ") with [44; 32] at 1. cbn [app]. change (skip_ws (44 :: ?t)) with (44 :: t). cbn iota.
    pose proof (IH NM (fun k x H => K k x (or_intror H)) (fun k x f r H => V k x f r (or_intror H)) fuel [32] (or_intror eq_refl) ltac:(lia)) as E.
    cbn [app] in E. now rewrite E.
Qed.

(** *** Flat entries build the table they list *)
Lemma alter_new k n m : ~ In k (map fst m) -> alter k (fun o => match o with None => Some n | Some _ => None end) m = Some (m ++ [(k, n)]).
Proof.
  induction m as [|[k' n'] m IH]; intros N; [reflexivity|]. cbn [map fst In] in N. cbn [alter].
  destruct (str_eqb k k') eqn:E; [apply str_eqb_eq in E; subst; tauto|]. rewrite IH by tauto. reflexivity.
Qed.
Definition val_nodes (m : list (str * toml_value)) : list (str * node) := map (fun e => (fst e, NVal (snd e))) m.
Lemma put_flat m : forall acc, NoDup (map fst acc ++ map fst m) ->
  put_entries (map (fun e => ([fst e], snd e)) m) acc = Some (acc ++ val_nodes m).
Proof.
  induction m as [|[k x] m IH]; intros acc N; cbn [map put_entries].
  - cbn. now rewrite app_nil_r.
  - cbn [fst snd removelast List.last]. unfold put_entry. cbn [descend Bool.eqb]. rewrite alter_new.
    + rewrite IH. * cbn [val_nodes map fst snd]. now rewrite <- app_assoc. * rewrite map_app. cbn [map fst]. rewrite <- app_assoc. exact N.
    + cbn [map fst] in N. apply NoDup_remove_2 in N. intros I. apply N, in_or_app. now left.
Qed.
Lemma of_val_nodes m : of_table (val_nodes m) = TvTab m.
Proof.
  unfold of_table, val_nodes. cbn [of_node]. f_equal. rewrite map_map. cbn. rewrite <- (map_id m) at 2. apply map_ext. now intros [k x].
Qed.

Lemma print_many x y l : print_value (TvArr (x :: y :: l)) = 91 :: flat_map item_text (x :: y :: l) ++ [10; 93].
Proof. reflexivity. Qed.
Lemma print_pairs e m : print_value (TvTab (e :: m)) = 123 :: 32 :: join_str (lit ", ") (map pair_text (e :: m)) ++ [32; 125].
Proof. reflexivity. Qed.
Lemma value_read t : forall n lim deep fuel rest, proper_toml t -> plain_doc n t -> (n + deep < lim)%nat -> ends_value rest ->
  (2 * List.length (print_value t) < fuel)%nat -> value_at lim fuel deep (print_value t ++ rest) = Some (t, rest).
Proof.
  induction t as [t F|l IH|m IH] using toml_ind'; intros n lim deep fuel rest P W D E L; (destruct fuel as [|fuel]; [lia|]).
  - inversion W; subst; try (cbn in F; tauto); inversion P; subst; cbn [print_value].
    + apply va_word; auto; destruct b; reflexivity.
    + apply va_word; auto using token_chars_int, token_int.
    + apply va_word; auto using token_chars_float, token_float.
    + apply va_string. apply string_read; auto using ends_not_quote.
  - inversion W as [| | | |n' ? Wl|]; subst. inversion P as [| | | | |? Pl|]; subst.
    assert (St : forall x, In x l -> starts (print_value x)) by (intros; eapply value_starts; eauto).
    assert (V : forall x f r, In x l -> ends_value r -> (2 * List.length (print_value x) < f)%nat -> value_at lim f (S deep) (print_value x ++ r) = Some (x, r)).
    { intros x f r I Er Lf. eapply IH; eauto. lia. }
    assert (Hd : (S deep < lim)%nat) by lia.
    destruct l as [|x [|y l]].
    3:{ rewrite print_many in *. set (M := x :: y :: l) in *. cbn [List.length] in L. rewrite app_length in L. cbn [app]. rewrite <- app_assoc. cbn [app].
        apply va_array; auto. apply items_read; auto. cbn [List.length] in L. lia. }
    all: cbn [print_value] in *.
    + change (lit "[]") with [91; 93]. cbn [app]. apply va_array; auto. cbn [List.length] in L. destruct fuel; [cbn in L; lia|]. apply ia_end.
    + rewrite <- !app_assoc. change (lit "[") with [91] in *. change (lit "]") with [93] in *. cbn [app] in *. cbn [List.length] in L. rewrite app_length in L. cbn [List.length] in L.
      apply va_array; auto. destruct fuel as [|fuel]; [lia|].
      etransitivity; [apply (ia_value lim fuel (S deep) (print_value x ++ 93 :: rest) (print_value x ++ 93 :: rest) x (93 :: rest))|].
      * apply skip_lines_id, start_stops, starts_app, St. now left.
      * apply starts_app, St. now left.
      * apply V; [now left | constructor | lia].
      * rewrite skip_lines_id; [reflexivity|]. cbn. repeat split; discriminate.
  - inversion W as [| | | | |n' ? Wl]; subst. inversion P as [| | | | | |? ND Pl]; subst. assert (Hd : (S deep < lim)%nat) by lia.
    destruct m as [|e m].
    + cbn [print_value]. change (lit "{}") with [123; 125]. cbn [app]. now apply va_empty_table.
    + rewrite print_pairs in *. set (M := e :: m) in *. assert (NM : M <> []) by discriminate. cbn [List.length] in L. rewrite app_length in L. cbn [List.length] in L.
      cbn [app]. rewrite <- app_assoc. cbn [app].
      assert (K : forall k x, In (k, x) M -> is_text k = true /\ starts (print_value x)).
      { intros k x I. destruct (Pl k x I). split; auto. eapply value_starts; eauto. }
      erewrite va_table; [rewrite of_val_nodes; reflexivity | auto | | apply (pairs_read lim (S deep) M rest) with (sp := []); auto | rewrite put_flat; [reflexivity | exact ND]].
      * unfold M. cbn [map]. destruct e as [k x]. destruct (K k x ltac:(now left)) as [T _].
        destruct (map pair_text m); cbn [join_str]; unfold pair_text; cbn [fst snd]; rewrite <- !app_assoc; apply starts_app, key_starts, T.
      * lia.
      * intros k x f r I Er Lf. eapply IH; eauto. -- apply Pl in I. tauto. -- lia.
      * lia.
Qed.
