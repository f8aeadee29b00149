(** Texts read alike (TomlSim), up to whole documents. *)
From Coq Require Import ZArith Bool String Lia.
From Coq Require Import List.
Import ListNotations.
From Verif.Model Require Import Text Num Flt Value Toml TomlText.
From Verif.Proofs Require Import Basics TomlLex TomlNum TomlProper TomlSim.
Local Open Scope Z_scope.

(** ** What is left is shorter *)
Lemma values_len lim : forall f deep,
  (forall s x r, value_at lim f deep s = Some (x, r) -> (List.length r <= List.length s)%nat) /\
  (forall s x r, items_at lim f deep s = Some (x, r) -> (List.length r <= List.length s)%nat) /\
  (forall s x r, pairs_at lim f deep s = Some (x, r) -> (List.length r <= List.length s)%nat).
Proof.
  induction f as [|f IH]; intros deep; [repeat split; discriminate|]. split; [|split]; intros s x r E.
  - rewrite value_at_eq in E. unfold value_step in E. destruct s as [|c t]; [discriminate E|].
    destruct ((c =? 34) || (c =? 39)); [destruct (string_value (c :: t)) as [[y u]|] eqn:Q; [|discriminate E]; injection E as <- <-; apply string_len in Q; ln|].
    destruct (c =? 91). { destruct (Nat.leb lim (S deep)); [discriminate E|]. destruct (items_at lim f (S deep) t) as [[l u]|] eqn:Q; [|discriminate E].
      injection E as <- <-. apply (proj1 (proj2 (IH (S deep)))) in Q. ln. }
    destruct (c =? 123).
    { destruct (Nat.leb lim (S deep)); [discriminate E|]. pose proof (ws_len t). destruct (skip_ws t) as [|d u]; [discriminate E|].
      destruct (d =? 125); [injection E as <- <-; ln|]. destruct (pairs_at lim f (S deep) (d :: u)) as [[l v]|] eqn:Q; [|discriminate E].
      destruct (put_entries l []); [|discriminate E]. injection E as <- <-. apply (proj2 (proj2 (IH (S deep)))) in Q. ln. }
    pose proof (token_end_len (c :: t)). destruct (token_value _); [|discriminate E]. injection E as <- <-. ln.
  - rewrite items_at_eq in E. unfold items_step in E. pose proof (lines_len (List.length s) s). destruct (skip_lines (List.length s) s) as [|c t]; [discriminate E|].
    destruct (c =? 93); [injection E as <- <-; ln|]. destruct (value_at lim f deep (c :: t)) as [[y u]|] eqn:Q; [|discriminate E]. apply (proj1 (IH deep)) in Q.
    pose proof (lines_len (List.length u) u). destruct (skip_lines (List.length u) u) as [|d v]; [discriminate E|].
    destruct (d =? 44); [|destruct (d =? 93); [injection E as <- <-; ln | discriminate E]].
    destruct (items_at lim f deep v) as [[l w]|] eqn:Q2; [|discriminate E]. injection E as <- <-. apply (proj1 (proj2 (IH deep))) in Q2. ln.
  - rewrite pairs_at_eq in E. unfold pairs_step in E. destruct (key_path (S (List.length s)) s) as [[p [|c t]]|] eqn:K; try discriminate E. apply key_path_len in K.
    destruct (c =? 61); [|discriminate E]. destruct (Nat.leb lim (List.length p)); [discriminate E|]. pose proof (ws_len t).
    destruct (value_at lim f deep (skip_ws t)) as [[y u]|] eqn:Q; [|discriminate E]. apply (proj1 (IH deep)) in Q. pose proof (ws_len u).
    destruct (skip_ws u) as [|d v]; [discriminate E|]. destruct (d =? 44); [|destruct (d =? 125); [injection E as <- <-; ln | discriminate E]].
    destruct (pairs_at lim f deep v) as [[l w]|] eqn:Q2; [|discriminate E]. injection E as <- <-. apply (proj2 (proj2 (IH deep))) in Q2. ln.
Qed.
Definition statement_step lim s : option (statement * str) :=
  match s with
  | [] => None
  | c :: t =>
    if c =? 91 then
      match t with
      | d :: u =>
        if d =? 91 then
          match key_path (S (@List.length char u)) u with
          | Some (p, e :: g :: r) => if (e =? 93) && (g =? 93) then if Nat.leb lim (List.length p) then None else Some (SHead true p, r) else None
          | _ => None
          end
        else
          match key_path (S (@List.length char t)) t with
          | Some (p, e :: r) => if e =? 93 then if Nat.leb lim (List.length p) then None else Some (SHead false p, r) else None
          | _ => None
          end
      | [] => None
      end
    else
      match key_path (S (@List.length char s)) s with
      | Some (p, d :: t) =>
        if d =? 61 then
          if Nat.leb lim (List.length p) then None else
          match value_at lim (2 * @List.length char t + 2) 0 (skip_ws t) with
          | Some (x, r) => Some (SEntry p x, r)
          | None => None
          end
        else None
      | _ => None
      end
  end.
Lemma statement_at_eq lim s : statement_at lim s = statement_step lim s.
Proof.
  unfold statement_at, statement_step. destruct s as [|c t]; [reflexivity|]. destruct (Z.eqb_spec c 91) as [->|N].
  - destruct t as [|d u]; [reflexivity|]. destruct (Z.eqb_spec d 91) as [->|N].
    + set (o := key_path (S (List.length u)) u). try change (key_path (S (Datatypes.length u)) u) with o. clearbody o.
      destruct o as [[p [|e v]]|]; [reflexivity | | reflexivity]. destruct v as [|g r].
      * lit6 e.
      * destruct (Z.eqb_spec e 93) as [->|Ne]; cbn [andb]; [|lit6 e; congruence]. destruct (Z.eqb_spec g 93) as [->|Ng]; [reflexivity | lit6 g; congruence].
    + set (o := key_path (S (List.length (d :: u))) (d :: u)). change (key_path (S (Datatypes.length (d :: u))) (d :: u)) with o. clearbody o.
      transitivity (match o with Some (p, 93 :: r) => if Nat.leb lim (List.length p) then None else Some (SHead false p, r) | _ => None end).
      * lit6 d. congruence.
      * destruct o as [[p [|e r]]|]; try reflexivity. destruct (Z.eqb_spec e 93) as [->|Ne]; [reflexivity | lit6 e; congruence].
  - set (o := key_path (S (List.length (c :: t))) (c :: t)). change (key_path (S (Datatypes.length (c :: t))) (c :: t)) with o. clearbody o.
    transitivity (match o with Some (p, 61 :: t) => if Nat.leb lim (List.length p) then None else
      match value_at lim (2 * List.length t + 2) 0 (skip_ws t) with Some (x, r) => Some (SEntry p x, r) | None => None end | _ => None end).
    + lit6 c. congruence.
    + destruct o as [[p [|e r]]|]; try reflexivity. destruct (Z.eqb_spec e 61) as [->|Ne]; [reflexivity | lit6 e; congruence].
Qed.
Lemma statement_len lim s x r : statement_at lim s = Some (x, r) -> (List.length r < List.length s)%nat.
Proof.
  rewrite statement_at_eq. unfold statement_step. destruct s as [|c t]; [discriminate|]. destruct (c =? 91).
  - destruct t as [|d u]; [discriminate|]. destruct (d =? 91).
    + destruct (key_path (S (List.length u)) u) as [[p [|e [|g v]]]|] eqn:K; try discriminate. apply key_path_len in K.
      destruct ((e =? 93) && (g =? 93)); [|discriminate]. destruct (Nat.leb lim (List.length p)); [discriminate|]. intros [= <- <-]. ln.
    + destruct (key_path (S (List.length (d :: u))) (d :: u)) as [[p [|e v]]|] eqn:K; try discriminate. apply key_path_len in K.
      destruct (e =? 93); [|discriminate]. destruct (Nat.leb lim (List.length p)); [discriminate|]. intros [= <- <-]. ln.
  - destruct (key_path (S (List.length (c :: t))) (c :: t)) as [[p [|e v]]|] eqn:K; try discriminate. apply key_path_len in K.
    destruct (e =? 61); [|discriminate]. destruct (Nat.leb lim (List.length p)); [discriminate|].
    destruct (value_at lim (2 * List.length v + 2) 0 (skip_ws v)) as [[y u]|] eqn:V; [|discriminate]. apply (proj1 (values_len lim _ _)) in V. pose proof (ws_len v).
    intros [= <- <-]. ln.
Qed.
Lemma line_end_eq s : line_end s =
  match skip_comment s with
  | [] => Some []
  | c :: t => if c =? 10 then Some t else if (c =? 13) && next_lf t then Some (tl t) else None
  end.
Proof.
  unfold line_end. destruct (skip_comment s) as [|c t]; [reflexivity|]. destruct (Z.eqb_spec c 10) as [->|N]; [reflexivity|].
  destruct (Z.eqb_spec c 13) as [->|N']; cbn [andb]; [|lit6 c; congruence]. destruct t as [|d t]; [reflexivity|]. cbn [next_lf tl].
  destruct (Z.eqb_spec d 10) as [->|Nd]; [reflexivity | lit6 d; congruence].
Qed.
Lemma line_end_len s r : line_end s = Some r -> (List.length r <= List.length s)%nat /\ (s <> [] -> (List.length r < List.length s)%nat).
Proof.
  rewrite line_end_eq. pose proof (comment_length s) as C. destruct (skip_comment s) as [|c t] eqn:E.
  - intros [= <-]. split; [ln|]. destruct s; [congruence | ln].
  - destruct (c =? 10); [intros [= <-]; split; intros; ln|]. destruct ((c =? 13) && next_lf t); [|discriminate]. intros [= <-]. destruct t; split; intros; ln.
Qed.

(** Enough fuel is enough. *)
Lemma statements_step lim f s : statements lim (S f) s =
  match skip_ws s with
  | [] => Some []
  | c :: t =>
    if (c =? 10) || (c =? 13) || (c =? 35) then
      match line_end (c :: t) with Some r => statements lim f r | None => None end
    else
      match statement_at lim (c :: t) with
      | None => None
      | Some (st, r) =>
        match line_end (skip_ws r) with
        | None => None
        | Some r' => match statements lim f r' with Some l => Some (st :: l) | None => None end
        end
      end
  end.
Proof. reflexivity. Qed.
Lemma statements_fuel lim n : forall s f f', (List.length s <= n)%nat -> (List.length s < f)%nat -> (List.length s < f')%nat -> statements lim f s = statements lim f' s.
Proof.
  induction n as [|n IH]; intros s f f' L F F'; (destruct f as [|f]; [lia|]); (destruct f' as [|f']; [lia|]); rewrite !statements_step.
  - destruct s; [reflexivity | ln].
  - pose proof (ws_len s) as W. destruct (skip_ws s) as [|c t]; [reflexivity|]. destruct ((c =? 10) || (c =? 13) || (c =? 35)).
    + destruct (line_end (c :: t)) as [r|] eqn:E; [|reflexivity]. apply line_end_len in E as [_ E]. specialize (E ltac:(discriminate)). apply IH; ln.
    + destruct (statement_at lim (c :: t)) as [[st r]|] eqn:E; [|reflexivity]. apply statement_len in E. pose proof (ws_len r) as W2.
      destruct (line_end (skip_ws r)) as [r'|] eqn:E2; [|reflexivity]. apply line_end_len in E2 as [E2 _]. rewrite (IH r' f f'); [reflexivity | ln..].
Qed.

Section Join.
Variable b : str.
Notation sim := (sim b).
Notation live := (live b).

Ltac hd_split q L := let H := fresh "H" in
  rewrite (sim_head b q _ _ ltac:(discriminate) ltac:(discriminate) L); match goal with |- context [hd_is q ?s] => destruct (hd_is q s) eqn:H end.
Lemma value_hd lim f deep (s : str) : s <> [] -> value_step lim f deep s =
    if hd_is 34 s || hd_is 39 s then match string_value s with Some (x, r) => Some (TvStr x, r) | None => None end
    else if hd_is 91 s then
      if Nat.leb lim (S deep) then None
      else match items_at lim f (S deep) (tl s) with Some (l, r) => Some (TvArr l, r) | None => None end
    else if hd_is 123 s then
      if Nat.leb lim (S deep) then None
      else if hd_is 125 (skip_ws (tl s)) then Some (TvTab [], tl (skip_ws (tl s)))
      else match pairs_at lim f (S deep) (skip_ws (tl s)) with
             | Some (l, r) => match put_entries l [] with Some m => Some (of_table m, r) | None => None end
             | None => None
             end
    else match token_value (fst (token_end s)) with Some x => Some (x, snd (token_end s)) | None => None end.
Proof.
  intros N. destruct s as [|c t]; [congruence|]. unfold value_step. cbn [hd_is tl]. destruct ((c =? 34) || (c =? 39)); [reflexivity|]. destruct (c =? 91); [reflexivity|].
  destruct (c =? 123); [|reflexivity]. destruct (Nat.leb lim (S deep)); [reflexivity|]. destruct (skip_ws t) as [|d u]; [now rewrite pairs_nil | reflexivity].
Qed.
Lemma items_hd lim f deep (s : str) : items_step lim f deep s =
  let s0 := skip_lines (@List.length char s) s in
    if hd_is 93 s0 then Some ([], tl s0) else
    match value_at lim f deep s0 with
    | None => None
    | Some (x, u) => let u0 := skip_lines (@List.length char u) u in
      if hd_is 44 u0 then match items_at lim f deep (tl u0) with Some (l, r') => Some (x :: l, r') | None => None end
      else if hd_is 93 u0 then Some ([x], tl u0) else None
    end.
Proof.
  unfold items_step. cbv zeta. destruct (skip_lines (List.length s) s) as [|c t]; [now rewrite value_nil|]. cbn [hd_is tl]. destruct (c =? 93); [reflexivity|].
  destruct (value_at lim f deep (c :: t)) as [[x u]|]; [|reflexivity]. destruct (skip_lines (List.length u) u) as [|d v]; reflexivity.
Qed.
Lemma pairs_hd lim f deep (s : str) : pairs_step lim f deep s =
  match key_path (S (@List.length char s)) s with
  | Some (p, s0) =>
    if hd_is 61 s0 then
      if Nat.leb lim (List.length p) then None else
      match value_at lim f deep (skip_ws (tl s0)) with
      | None => None
      | Some (x, u) => let u0 := skip_ws u in
        if hd_is 44 u0 then match pairs_at lim f deep (tl u0) with Some (l, r') => Some ((p, x) :: l, r') | None => None end
        else if hd_is 125 u0 then Some ([(p, x)], tl u0) else None
      end
    else None
  | None => None
  end.
Proof.
  unfold pairs_step. cbv zeta. destruct (key_path (S (List.length s)) s) as [[p [|c t]]|]; [reflexivity | | reflexivity]. cbn [hd_is tl]. destruct (c =? 61); [|reflexivity].
  destruct (Nat.leb lim (List.length p)); [reflexivity|]. destruct (value_at lim f deep (skip_ws t)) as [[x u]|]; [|reflexivity]. destruct (skip_ws u); reflexivity.
Qed.
Lemma value_feed lim f deep s t : feed s t -> value_at lim f deep s = None.
Proof. intros F. destruct f as [|f]; [reflexivity|]. rewrite value_at_eq. unfold value_step. destruct F as [->| ->]; cbn [Z.eqb Pos.eqb orb]; rewrite token_end_eq; cbn; [destruct t|]; reflexivity. Qed.
Lemma live_not_nil s s' : live s s' -> s <> [] -> (forall t, ~ feed s t) -> s' <> [].
Proof.
  intros L N F ->. destruct s as [|c t]; [congruence|]. destruct (sim_cases b _ _ _ (live_sim _ _ _ L)) as [(t1 & [=] & _)|[(u & u' & A & _)|(A & _)]]; destruct (F _ A).
Qed.
Lemma hd_len q s : hd_is q s = true -> List.length s = S (List.length (tl s)).
Proof. destruct s; [discriminate | reflexivity]. Qed.
Lemma values_sim lim : forall f deep,
  (forall s x r, value_at lim f deep s = Some (x, r) -> forall f' s', (2 * List.length s' <= f')%nat -> live s s' -> exists r', value_at lim f' deep s' = Some (x, r') /\ live r r') /\
  (forall s x r, items_at lim f deep s = Some (x, r) -> forall f' s', (2 * List.length s' < f')%nat -> live s s' -> exists r', items_at lim f' deep s' = Some (x, r') /\ live r r') /\
  (forall s x r, pairs_at lim f deep s = Some (x, r) -> forall f' s', (2 * List.length s' < f')%nat -> live s s' -> exists r', pairs_at lim f' deep s' = Some (x, r') /\ live r r').
Proof.
  induction f as [|f IH]; intros deep; [repeat split; discriminate|]. split; [|split]; intros s x r E f' s' Lf L.
  - assert (N : s <> []) by (intros ->; rewrite value_nil in E; discriminate E).
    assert (N' : s' <> []) by (apply (live_not_nil _ _ L N); intros t F; rewrite (value_feed lim (S f) deep _ _ F) in E; discriminate E).
    destruct f' as [|f']; [destruct s'; [congruence | ln]|]. rewrite value_at_eq, value_hd in * by assumption.
    rewrite (sim_head b 34 _ _ ltac:(discriminate) ltac:(discriminate) L), (sim_head b 39 _ _ ltac:(discriminate) ltac:(discriminate) L).
    destruct (hd_is 34 s || hd_is 39 s).
    { destruct (string_value s) as [[y u]|] eqn:Q; [|discriminate E]. injection E as <- <-.
      destruct (string_sim b _ _ (live_sim _ _ _ L) _ _ Q) as (r' & -> & Lr). eauto. }
    pose proof (sim_head b 91 _ _ ltac:(discriminate) ltac:(discriminate) L) as H91. rewrite H91. destruct (hd_is 91 s) eqn:H.
    { pose proof (tl_sim b 91 _ _ ltac:(discriminate) ltac:(discriminate) L H) as L1. apply hd_len in H91. destruct (Nat.leb lim (S deep)); [discriminate E|].
      match type of E with context [items_at ?z0 ?z1 ?z2 ?z3] => destruct (items_at z0 z1 z2 z3) as [[l u]|] eqn:Q end; [|discriminate E]. injection E as <- <-.
      destruct (proj1 (proj2 (IH (S deep))) _ _ _ Q f' (tl s') ltac:(ln) L1) as (r' & -> & Lr). eauto. }
    clear H91. pose proof (sim_head b 123 _ _ ltac:(discriminate) ltac:(discriminate) L) as H123. rewrite H123. destruct (hd_is 123 s) eqn:H2.
    { pose proof (tl_sim b 123 _ _ ltac:(discriminate) ltac:(discriminate) L H2) as L1. apply ws_sim in L1. apply hd_len in H123. destruct (Nat.leb lim (S deep)); [discriminate E|].
      rewrite (sim_head b 125 _ _ ltac:(discriminate) ltac:(discriminate) L1). destruct (hd_is 125 (skip_ws (tl s))) eqn:H3.
      - injection E as <- <-. pose proof (tl_sim b 125 _ _ ltac:(discriminate) ltac:(discriminate) L1 H3). eauto.
      - match type of E with context [pairs_at ?z0 ?z1 ?z2 ?z3] => destruct (pairs_at z0 z1 z2 z3) as [[l v]|] eqn:Q end; [|discriminate E]. pose proof (ws_len (tl s')).
        destruct (proj2 (proj2 (IH (S deep))) _ _ _ Q f' (skip_ws (tl s')) ltac:(ln) L1) as (r' & -> & Lr).
        destruct (put_entries l []) eqn:PE; [|discriminate E]. injection E as <- <-. eauto. }
    destruct (token_end_sim b _ _ L) as (r' & E' & Lr). rewrite E'. cbn [fst snd]. destruct (token_value (fst (token_end s))); [|discriminate E]. injection E as <- <-. eauto.
  - destruct f' as [|f']; [lia|]. rewrite items_at_eq, items_hd in *. cbv zeta in *.
    assert (Ne : skip_lines (List.length s) s <> []). { intros X. match type of E with context [hd_is 93 ?y] => replace y with (@nil Z) in E by (symmetry; exact X) end. rewrite value_nil in E. discriminate E. }
    pose proof (lines_sim b _ s s' _ (le_n _) (le_n _) L Ne) as L1. clear Ne. pose proof (lines_len (List.length s') s') as Ll.
    set (s0 := skip_lines (List.length s) s) in *. set (s0' := skip_lines (List.length s') s') in *.
    clearbody s0 s0'.
    rewrite (sim_head b 93 _ _ ltac:(discriminate) ltac:(discriminate) L1). destruct (hd_is 93 s0) eqn:H.
    { injection E as <- <-. pose proof (tl_sim b 93 _ _ ltac:(discriminate) ltac:(discriminate) L1 H). eauto. }
    match type of E with context [value_at ?z0 ?z1 ?z2 ?z3] => destruct (value_at z0 z1 z2 z3) as [[y u]|] eqn:Q end; [|discriminate E].
    destruct (proj1 (IH deep) _ _ _ Q f' s0' ltac:(ln) L1) as (u1 & Q' & Lu). rewrite Q'. apply (proj1 (values_len lim _ _)) in Q' as Lu1.
    assert (Ne : skip_lines (List.length u) u <> []). { intros X. match type of E with context [hd_is 44 ?y] => replace y with (@nil Z) in E by (symmetry; exact X) end. discriminate E. }
    pose proof (lines_sim b _ u u1 _ (le_n _) (le_n _) Lu Ne) as L2. clear Ne. pose proof (lines_len (List.length u1) u1) as Ll2.
    set (u0 := skip_lines (List.length u) u) in *. set (u0' := skip_lines (List.length u1) u1) in *.
    clearbody u0 u0'.
    pose proof (sim_head b 44 _ _ ltac:(discriminate) ltac:(discriminate) L2) as H44. rewrite H44, (sim_head b 93 _ _ ltac:(discriminate) ltac:(discriminate) L2).
    destruct (hd_is 44 u0) eqn:H2.
    { pose proof (tl_sim b 44 _ _ ltac:(discriminate) ltac:(discriminate) L2 H2) as L3. apply hd_len in H44. match type of E with context [items_at ?z0 ?z1 ?z2 ?z3] => destruct (items_at z0 z1 z2 z3) as [[l w]|] eqn:Q2 end; [|discriminate E]. injection E as <- <-.
      destruct (proj1 (proj2 (IH deep)) _ _ _ Q2 f' (tl u0') ltac:(ln) L3) as (r' & -> & Lr). eauto. }
    destruct (hd_is 93 u0) eqn:H3; [|discriminate E]. injection E as <- <-. pose proof (tl_sim b 93 _ _ ltac:(discriminate) ltac:(discriminate) L2 H3). eauto.
  - destruct f' as [|f']; [lia|]. rewrite pairs_at_eq, pairs_hd in *. cbv zeta in *.
    match type of E with context [key_path ?z0 ?z1] => destruct (key_path z0 z1) as [[p t]|] eqn:K end; [|discriminate E].
    destruct (key_path_sim b _ _ _ _ K (S (@List.length char s')) s' ltac:(ln) L) as (t0 & K' & L1). rewrite K'. apply key_path_len in K'.
    rewrite (sim_head b 61 _ _ ltac:(discriminate) ltac:(discriminate) L1). destruct (hd_is 61 t) eqn:H; [|discriminate E]. pose proof (tl_sim b 61 _ _ ltac:(discriminate) ltac:(discriminate) L1 H) as L2. apply ws_sim in L2.
    destruct (Nat.leb lim (List.length p)); [discriminate E|]. match type of E with context [value_at ?z0 ?z1 ?z2 ?z3] => destruct (value_at z0 z1 z2 z3) as [[y u]|] eqn:Q end; [|discriminate E].
    assert (Lt : (List.length (skip_ws (tl t0)) <= List.length t0)%nat) by (pose proof (ws_len (tl t0)); destruct t0; ln).
    destruct (proj1 (IH deep) _ _ _ Q f' (skip_ws (tl t0)) ltac:(ln) L2) as (u1 & Q' & Lu). rewrite Q'. apply (proj1 (values_len lim _ _)) in Q' as Lu1. pose proof (ws_sim b _ _ Lu) as Lw. pose proof (ws_len u1) as Lw1.
    pose proof (sim_head b 44 _ _ ltac:(discriminate) ltac:(discriminate) Lw) as H44. rewrite H44, (sim_head b 125 _ _ ltac:(discriminate) ltac:(discriminate) Lw).
    destruct (hd_is 44 (skip_ws u)) eqn:H2.
    { pose proof (tl_sim b 44 _ _ ltac:(discriminate) ltac:(discriminate) Lw H2) as L3. apply hd_len in H44. match type of E with context [pairs_at ?z0 ?z1 ?z2 ?z3] => destruct (pairs_at z0 z1 z2 z3) as [[l w]|] eqn:Q2 end; [|discriminate E]. injection E as <- <-.
      destruct (proj2 (proj2 (IH deep)) _ _ _ Q2 f' (tl (skip_ws u1)) ltac:(ln) L3) as (r' & -> & Lr). eauto. }
    destruct (hd_is 125 (skip_ws u)) eqn:H3; [|discriminate E]. injection E as <- <-. pose proof (tl_sim b 125 _ _ ltac:(discriminate) ltac:(discriminate) Lw H3). eauto.
Qed.
Lemma statement_hd lim (s : str) : statement_step lim s =
    if hd_is 91 s then
      if hd_is 91 (tl s) then
          match key_path (S (@List.length char (tl (tl s)))) (tl (tl s)) with
          | Some (p, r) => if hd_is 93 r && hd_is 93 (tl r) then if Nat.leb lim (List.length p) then None else Some (SHead true p, tl (tl r)) else None
          | None => None
          end
        else
          match key_path (S (@List.length char (tl s))) (tl s) with
          | Some (p, r) => if hd_is 93 r then if Nat.leb lim (List.length p) then None else Some (SHead false p, tl r) else None
          | None => None
          end
    else
      match key_path (S (@List.length char s)) s with
      | Some (p, t) =>
        if hd_is 61 t then
          if Nat.leb lim (List.length p) then None else
          match value_at lim (2 * @List.length char (tl t) + 2) 0 (skip_ws (tl t)) with
          | Some (x, r) => Some (SEntry p x, r)
          | None => None
          end
        else None
      | None => None
      end.
Proof.
  destruct s as [|c t]; [reflexivity|]. unfold statement_step. cbn [hd_is tl]. destruct (c =? 91).
  - destruct t as [|d u]; [reflexivity|]. cbn [hd_is tl]. destruct (d =? 91).
    + destruct (key_path (S (List.length u)) u) as [[p [|e [|g v]]]|]; try reflexivity. cbn [hd_is tl]. now rewrite andb_false_r.
    + destruct (key_path (S (List.length (d :: u))) (d :: u)) as [[p [|e v]]|]; reflexivity.
  - destruct (key_path (S (List.length (c :: t))) (c :: t)) as [[p [|e v]]|]; reflexivity.
Qed.
Lemma statement_sim lim s s' x r : statement_at lim s = Some (x, r) -> live s s' -> exists r', statement_at lim s' = Some (x, r') /\ live r r'.
Proof.
  rewrite !statement_at_eq, !statement_hd. intros E L. rewrite (sim_head b 91 _ _ ltac:(discriminate) ltac:(discriminate) L). destruct (hd_is 91 s) eqn:H.
  - pose proof (tl_sim b 91 _ _ ltac:(discriminate) ltac:(discriminate) L H) as L1. rewrite (sim_head b 91 _ _ ltac:(discriminate) ltac:(discriminate) L1). destruct (hd_is 91 (tl s)) eqn:H1.
    + pose proof (tl_sim b 91 _ _ ltac:(discriminate) ltac:(discriminate) L1 H1) as L2. destruct (key_path (S (@List.length char (tl (tl s)))) (tl (tl s))) as [[p v]|] eqn:K; [|discriminate E].
      destruct (key_path_sim b _ _ _ _ K (S (@List.length char (tl (tl s')))) (tl (tl s')) ltac:(ln) L2) as (t3 & K' & L3). rewrite K'.
      rewrite (sim_head b 93 _ _ ltac:(discriminate) ltac:(discriminate) L3). destruct (hd_is 93 v) eqn:H2; [|discriminate E]. pose proof (tl_sim b 93 _ _ ltac:(discriminate) ltac:(discriminate) L3 H2) as L4.
      rewrite (sim_head b 93 _ _ ltac:(discriminate) ltac:(discriminate) L4). destruct (hd_is 93 (tl v)) eqn:H3; [|discriminate E]. pose proof (tl_sim b 93 _ _ ltac:(discriminate) ltac:(discriminate) L4 H3) as L5.
      cbn [andb] in *. destruct (Nat.leb lim (List.length p)); [discriminate E|]. injection E as <- <-. eauto.
    + destruct (key_path (S (@List.length char (tl s))) (tl s)) as [[p v]|] eqn:K; [|discriminate E].
      destruct (key_path_sim b _ _ _ _ K (S (@List.length char (tl s'))) (tl s') ltac:(ln) L1) as (t3 & K' & L3). rewrite K'.
      rewrite (sim_head b 93 _ _ ltac:(discriminate) ltac:(discriminate) L3). destruct (hd_is 93 v) eqn:H2; [|discriminate E]. pose proof (tl_sim b 93 _ _ ltac:(discriminate) ltac:(discriminate) L3 H2) as L4.
      destruct (Nat.leb lim (List.length p)); [discriminate E|]. injection E as <- <-. eauto.
  - match type of E with context [key_path ?z0 ?z1] => destruct (key_path z0 z1) as [[p v]|] eqn:K end; [|discriminate E].
    destruct (key_path_sim b _ _ _ _ K (S (@List.length char s')) s' ltac:(ln) L) as (t3 & K' & L3). rewrite K'.
    rewrite (sim_head b 61 _ _ ltac:(discriminate) ltac:(discriminate) L3). destruct (hd_is 61 v) eqn:H2; [|discriminate E]. pose proof (tl_sim b 61 _ _ ltac:(discriminate) ltac:(discriminate) L3 H2) as L4.
    destruct (Nat.leb lim (List.length p)) eqn:Lp; [discriminate E|]. match type of E with context [value_at ?z0 ?z1 ?z2 ?z3] => destruct (value_at z0 z1 z2 z3) as [[y u]|] eqn:V end; [|discriminate E]. injection E as <- <-.
    pose proof (ws_len (tl t3)). destruct (proj1 (values_sim lim _ _) _ _ _ V (2 * @List.length char (tl t3) + 2)%nat (skip_ws (tl t3)) ltac:(ln) (ws_sim _ _ _ L4)) as (r' & V' & Lr). rewrite V'. eauto.
Qed.
Lemma line_end_feed s t : feed s t -> line_end s = Some t.
Proof. intros [->| ->]; reflexivity. Qed.
(** After a line end the texts are alike again, or the second has one more
    line. *)
Lemma line_end_sim s s' r : line_end s = Some r -> live s s' -> exists r', line_end s' = Some r' /\ (sim r r' \/ (r = [] /\ feed b r')).
Proof.
  rewrite !line_end_eq. intros E L. apply comment_sim in L. assert (F : forall s t, feed s t -> match s with [] => Some [] | c :: t => if c =? 10 then Some t else if (c =? 13) && next_lf t then Some (tl t) else None end = Some t)
    by (intros s0 t0 [->| ->]; reflexivity).
  destruct (skip_comment s) as [|c t].
  - apply live_nil in L as [-> En]. injection E as <-. destruct En as [->|(u & Fu)]; [exists []; split; [reflexivity | left; constructor]|]. exists u. split; [exact (F _ _ Fu) | now right].
  - destruct (sim_cases b _ _ _ (live_sim _ _ _ L)) as [(t1 & E1 & N & NX & L1)|[(u & u' & A & B & S1)|(A & E1 & B)]].
    + exfalso. apply Z.eqb_neq in N. rewrite N in E. destruct (Z.eqb_spec c 13) as [->|]; [|discriminate E]. destruct (NX eq_refl) as [Y _]. rewrite Y in E. discriminate E.
    + assert (Q : Some r = Some u) by (etransitivity; [symmetry; exact E | exact (F _ _ A)]). injection Q as ->. exists u'. split; [exact (F _ _ B) | now left].
    + assert (Q : Some r = Some []) by (etransitivity; [symmetry; exact E | exact (F _ _ A)]). injection Q as ->. rewrite E1. exists []. split; [reflexivity | left; rewrite B; constructor].
Qed.
Lemma stms_feed lim s t : feed s t -> statements lim (S (List.length s)) s = statements lim (S (List.length t)) t.
Proof. intros F. rewrite statements_step. destruct F as [->| ->]; cbn -[statements]; [reflexivity|]. apply (statements_fuel lim (List.length t)); ln. Qed.
Lemma statements_sim lim f : forall s l s', statements lim f s = Some l -> (sim s s' \/ (s = [] /\ feed b s')) -> forall f', (List.length s' < f')%nat ->
  statements lim f' s' = option_map (app l) (statements lim (S (List.length b)) b).
Proof.
  induction f as [|f IH]; intros s l s' E H f' Lf; [discriminate E|].
  assert (Id : forall o : option (list statement), option_map (app []) o = o) by (intros [?|]; reflexivity).
  assert (Bb : s = [] -> s' = b \/ feed b s' -> statements lim f' s' = option_map (app l) (statements lim (S (List.length b)) b)).
  { intros -> D. cbn in E. injection E as <-. rewrite Id. destruct D as [->|F]; [|rewrite (stms_feed lim _ _ F)]; apply (statements_fuel lim (List.length s')) || apply (statements_fuel lim (List.length b)); lia. }
  destruct H as [H|[-> H]]; [|apply Bb; auto]. destruct s as [|c0 s]; [apply Bb; auto; left; now apply sim_nil|]. clear Bb.
  destruct f' as [|f']; [lia|]. apply sim_live in H. apply ws_sim in H. pose proof (ws_len s') as W. rewrite statements_step in E.
  assert (Ws : statements lim (S f') s' = statements lim (S f') (skip_ws s')).
  { rewrite !statements_step. assert (I : skip_ws (skip_ws s') = skip_ws s'); [|now rewrite I]. clear. unfold skip_ws. induction s' as [|c t J]; [reflexivity|]. cbn [drop_while]. destruct (is_ws c) eqn:Q; [exact J|]. cbn [drop_while]. now rewrite Q. }
  destruct (skip_ws (c0 :: s)) as [|c t] eqn:Ec.
  { injection E as <-. apply live_nil in H as [Hb _]. rewrite Ws, Hb, Id. apply (statements_fuel lim (List.length b)); try lia. rewrite Hb in W. ln. }
  destruct (sim_cases b _ _ _ (live_sim _ _ _ H)) as [(t1 & E1 & N & NX & L1)|[(u & u' & A & B & S1)|(A & E1 & B)]].
  - rewrite (statements_step lim f' s'). rewrite E1 in *. destruct ((c =? 10) || (c =? 13) || (c =? 35)).
    + destruct (line_end (c :: t)) as [r|] eqn:El; [|discriminate E]. destruct (line_end_sim _ _ _ El H) as (r' & E' & S'). rewrite E'.
      apply IH with (s := r); auto. apply line_end_len in E' as [_ E']. specialize (E' ltac:(discriminate)). ln.
    + destruct (statement_at lim (c :: t)) as [[st r]|] eqn:Est; [|discriminate E]. destruct (statement_sim _ _ _ _ _ Est H) as (r1 & E2 & L2). rewrite E2.
      destruct (line_end (skip_ws r)) as [r2|] eqn:El; [|discriminate E]. destruct (line_end_sim _ _ _ El (ws_sim _ _ _ L2)) as (r3 & E3 & S3). rewrite E3.
      destruct (statements lim f r2) as [l2|] eqn:E4; [|discriminate E]. injection E as <-.
      rewrite (IH r2 l2 r3 E4 S3 f'); [destruct (statements lim (S (List.length b)) b); reflexivity|].
      apply line_end_len in E3 as [E3 _]. apply statement_len in E2. pose proof (ws_len r1). ln.
  - rewrite Ws. assert (K : forall f s t, feed s t -> match s with [] => Some [] | c :: t => if (c =? 10) || (c =? 13) || (c =? 35) then match line_end (c :: t) with Some r => statements lim f r | None => None end
      else match statement_at lim (c :: t) with None => None | Some (st, r) => match line_end (skip_ws r) with None => None | Some r' => match statements lim f r' with Some l => Some (st :: l) | None => None end end end end = statements lim f t)
      by (intros f0 s0 t0 [->| ->]; reflexivity).
    pose proof (K f _ _ A) as K1. assert (K2 : statements lim (S f') (skip_ws s') = statements lim f' u') by (rewrite statements_step; replace (skip_ws (skip_ws s')) with (skip_ws s') by (destruct B as [->| ->]; reflexivity); exact (K f' _ _ B)).
    rewrite K2. apply (IH u l u'); [etransitivity; [symmetry; exact K1 | exact E] | auto |]. assert (List.length u' < List.length (skip_ws s'))%nat by (destruct B as [->| ->]; ln). ln.
  - rewrite Ws, E1, B. destruct A as [A|A]; injection A as -> ->; cbn in E; (destruct f; [discriminate E|]); cbn in E; injection E as <-; reflexivity.
Qed.
End Join.
