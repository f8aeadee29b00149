(** Two texts that are read alike: line ends written in either way, and a text
    that goes on. *)
From Coq Require Import ZArith Bool String Lia.
From Coq Require Import List.
Import ListNotations.
From Verif.Model Require Import Text Num Flt Value Toml TomlText.
From Verif.Proofs Require Import Basics TomlLex TomlNum TomlProper.
Local Open Scope Z_scope.

Section Sim.
Variable b : str.

Definition next_lf (t : str) : bool := match t with x :: _ => x =? 10 | [] => false end.
(** A line end in front of a text. *)
Definition feed (s t : str) : Prop := s = 10 :: t \/ s = 13 :: 10 :: t.
Definition ends (s : str) : Prop := s = [] \/ exists t, feed s t.
(** The second text is the first with [b] behind it; line ends may be written
    in the other way, and the last one may be missing when nothing follows.  A
    text that goes on ends a line there. *)
Inductive sim : str -> str -> Prop :=
| SimEnd : sim [] b
| SimDrop s : b = [] -> feed s [] -> sim s []
| SimChar c t t' : c <> 10 -> (c = 13 -> next_lf t = false /\ next_lf t' = false) -> sim t t' -> (t = [] -> ends t') -> sim (c :: t) (c :: t')
| SimLine s s' t t' : feed s t -> feed s' t' -> sim t t' -> sim s s'.
Definition live (s s' : str) : Prop := sim s s' /\ (s = [] -> ends s').

Lemma feed_cons c t u : feed (c :: t) u -> c = 10 \/ c = 13.
Proof. intros [[= -> ->]|[= -> ->]]; auto. Qed.
Lemma sim_cons c t s' : sim (c :: t) s' -> c <> 10 -> c <> 13 -> exists t', s' = c :: t' /\ live t t'.
Proof.
  intros H N N'. inversion H as [|s B F|c0 t0 t1 X1 X2 X3 X4|s s1 t0 t1 F1 F2 F3]; subst; [apply feed_cons in F; tauto | | apply feed_cons in F1; tauto].
  eexists; split; [reflexivity|]. split; auto.
Qed.
(** How two non-empty texts can begin. *)
Lemma sim_cases c t s' : sim (c :: t) s' ->
  (exists t', s' = c :: t' /\ c <> 10 /\ (c = 13 -> next_lf t = false /\ next_lf t' = false) /\ live t t')
  \/ (exists u u', feed (c :: t) u /\ feed s' u' /\ sim u u')
  \/ (feed (c :: t) [] /\ s' = [] /\ b = []).
Proof.
  intros H. inversion H as [|s B F|c0 t0 t1 X1 X2 X3 X4|s s1 t0 t1 F1 F2 F3]; subst; [right; right; auto | left | right; left; eauto].
  eexists; split; [reflexivity|]. repeat split; auto; now apply X2.
Qed.
Lemma live_sim s s' : live s s' -> sim s s'.
Proof. now intros [H _]. Qed.
Lemma sim_live c t s' : sim (c :: t) s' -> live (c :: t) s'.
Proof. intros H. split; [exact H | discriminate]. Qed.
Lemma sim_nil s' : sim [] s' -> s' = b.
Proof. intros H. inversion H as [|s B F|c0 t0 t1 X1 X2 X3 X4|s s1 t0 t1 F1 F2 F3]; subst; [reflexivity | destruct F; discriminate | destruct F1; discriminate]. Qed.
Lemma live_nil s' : live [] s' -> s' = b /\ ends s'.
Proof. intros [H N]. split; [now apply sim_nil | auto]. Qed.
Lemma ends_case (P : str -> Prop) s : ends s -> P [] -> (forall t, P (10 :: t)) -> (forall t, P (13 :: 10 :: t)) -> P s.
Proof. intros [->|(t & [->| ->])]; auto. Qed.

(** ** Characters *)
Lemma drop_ends f s : f 10 = false -> f 13 = false -> ends s -> drop_while f s = s.
Proof. intros F1 F2 E. apply (ends_case (fun s => drop_while f s = s) s E); [reflexivity | |]; intros; cbn [drop_while]; now rewrite ?F1, ?F2. Qed.
Lemma feed_ends s t : feed s t -> ends s.
Proof. right. eauto. Qed.
Lemma nil_ends : ends [].
Proof. now left. Qed.
Local Hint Resolve feed_ends nil_ends : core.
Lemma drop_sim f s s' : f 10 = false -> f 13 = false -> live s s' -> live (drop_while f s) (drop_while f s').
Proof.
  intros F1 F2. revert s'. induction s as [|c s IH]; intros s' H.
  - rewrite (drop_ends f s' F1 F2); [exact H | now apply live_nil].
  - destruct (sim_cases _ _ _ (live_sim _ _ H)) as [(t' & -> & N & Q & L)|[(u & u' & A & B & S)|(A & -> & B)]].
    + cbn [drop_while]. destruct (f c); auto.
    + rewrite !drop_ends; eauto.
    + rewrite !drop_ends; eauto.
Qed.
Lemma span_ends f s : f 10 = false -> f 13 = false -> ends s -> span f s = ([], s).
Proof. intros F1 F2 E. apply (ends_case (fun s => span f s = ([], s)) s E); [reflexivity | |]; intros; cbn [span]; now rewrite ?F1, ?F2. Qed.
Lemma span_sim f s s' : f 10 = false -> f 13 = false -> live s s' -> exists r', span f s' = (fst (span f s), r') /\ live (snd (span f s)) r'.
Proof.
  intros F1 F2. revert s'. induction s as [|c s IH]; intros s' H.
  - rewrite (span_ends f s' F1 F2); [eexists; split; [reflexivity | exact H] | now apply live_nil].
  - destruct (sim_cases _ _ _ (live_sim _ _ H)) as [(t' & -> & N & Q & L)|[(u & u' & A & B & S)|(A & -> & B)]].
    + cbn [span]. destruct (f c); [|eexists; split; [reflexivity | exact H]].
      destruct (IH _ L) as (r' & E' & L'). rewrite E'. destruct (span f s) as [x y]. cbn [fst snd] in *. eauto.
    + rewrite !span_ends by eauto. eexists; split; [reflexivity | exact H].
    + rewrite !span_ends by eauto. eexists; split; [reflexivity | exact H].
Qed.
Lemma skip_comment_eq c t : skip_comment (c :: t) = if c =? 35 then drop_while plain_char t else c :: t.
Proof. destruct c as [|p|p]; try reflexivity. do 6 (destruct p as [p|p|]; try reflexivity). Qed.
Lemma comment_ends s : ends s -> skip_comment s = s.
Proof. intros E. apply (ends_case (fun s => skip_comment s = s) s E); reflexivity. Qed.
Lemma comment_sim s s' : live s s' -> live (skip_comment s) (skip_comment s').
Proof.
  intros H. destruct s as [|c t]; [rewrite !comment_ends; auto; now apply live_nil|].
  destruct (sim_cases _ _ _ (live_sim _ _ H)) as [(t' & -> & N & Q & L)|[(u & u' & A & B & S)|(A & -> & B)]]; [|rewrite !comment_ends; eauto..].
  rewrite !skip_comment_eq. destruct (c =? 35); [now apply drop_sim | exact H].
Qed.
(** ** Strings *)
Lemma hex_not c x : hex_val c = Some x -> c <> 10 /\ c <> 13.
Proof. intros H. split; intros ->; discriminate H. Qed.
Lemma hex_all_not l x : hex_all l = Some x -> forall c, In c l -> c <> 10 /\ c <> 13.
Proof.
  unfold hex_all. generalize (Some 0). induction l as [|a l IH]; intros o H c I; [destruct I|]. cbn [fold_left] in H.
  destruct I as [<-|I].
  - destruct o as [o|]; [destruct (hex_val a) eqn:E; [now apply hex_not in E|]|]; exfalso; clear IH; induction l; cbn [fold_left] in H; try discriminate H; auto.
  - eapply IH; eauto.
Qed.
Lemma code_not l x : code_point l = Some x -> forall c, In c l -> c <> 10 /\ c <> 13.
Proof. unfold code_point. destruct (hex_all l) eqn:E; [|discriminate]. intros _. eapply hex_all_not; eauto. Qed.
Lemma simple_not c x : simple_escape c = Some x -> c <> 10 /\ c <> 13.
Proof. intros H. split; intros ->; discriminate H. Qed.

Lemma push_some c r x u : push c r = Some (x, u) -> exists y, r = Some (y, u) /\ x = c :: y.
Proof. destruct r as [[y v]|]; cbn; [intros [= <- <-]; eauto | discriminate]. Qed.
Lemma push_opt_some c r x u : push_opt c r = Some (x, u) -> exists k y, c = Some k /\ r = Some (y, u) /\ x = k :: y.
Proof. destruct c as [k|]; cbn; [|discriminate]. intros H. destruct (push_some _ _ _ _ H) as (y & -> & ->). eauto. Qed.

Definition follows (f : str -> option (str * str)) (s s' : str) : Prop :=
  forall x r, f s = Some (x, r) -> exists r', f s' = Some (x, r') /\ live r r'.

Ltac peel H N := let t := fresh "t" in let L := fresh "L" in
  destruct (sim_cons _ _ _ H (proj1 N) (proj2 N)) as (t & -> & L); clear H; destruct L as [H ?].

Lemma esc_other {A} (F : char -> char -> char -> char -> str -> A) (G : char -> char -> char -> char -> char -> char -> char -> char -> str -> A)
  (H : char -> str -> A) (N : A) (x : char) (t : str) : x <> 117 -> x <> 85 ->
  (match x :: t with
   | 117 :: a :: b :: c :: d :: t' => F a b c d t'
   | 85 :: a :: b :: c :: d :: e :: f :: g :: h :: t' => G a b c d e f g h t'
   | x :: t' => H x t'
   | [] => N
   end) = H x t.
Proof.
  intros N1 N2. destruct x as [|p|p]; try reflexivity. do 7 (destruct p as [p|p|]; try reflexivity); congruence.
Qed.
Lemma basic_sim : forall n s s', (List.length s <= n)%nat -> sim s s' -> follows basic_string s s'.
Proof.
  induction n as [|n IH]; intros s s' L H x r E; (destruct s as [|c t]; [discriminate E|]); cbn [List.length] in L; [lia|].
  assert (N : c <> 10) by (intros ->; discriminate E). assert (N' : c <> 13) by (intros ->; discriminate E). destruct (sim_cons _ _ _ H N N') as (t1 & -> & L1).
  cbn [basic_string] in E |- *. destruct (c =? 34); [injection E as <- <-; eauto|]. destruct (c =? 92).
  - destruct L1 as [S1 _]. revert E.
    match goal with |- _ -> ?goal => apply (escape_split (fun o => o = Some (x, r) -> goal) (fun a b c d t' => push_opt (code_point [a; b; c; d]) (basic_string t'))
      (fun a b c d e f g h t' => push_opt (code_point [a; b; c; d; e; f; g; h]) (basic_string t'))
      (fun x t' => push_opt (simple_escape x) (basic_string t')) None) end.
    + intros a b0 c0 d t' -> E. destruct (push_opt_some _ _ _ _ E) as (k & y & K & B & ->). pose proof (code_not _ _ K) as Q. cbn [In] in Q.
      assert (X : 117 <> 10 /\ 117 <> 13) by (split; discriminate). peel S1 X.
      peel S1 (id (Q a ltac:(auto))). peel S1 (id (Q b0 ltac:(auto))). peel S1 (id (Q c0 ltac:(auto 6))). peel S1 (id (Q d ltac:(auto 8))).
      destruct (IH t' _ ltac:(cbn [List.length] in L; lia) S1 _ _ B) as (r' & E' & Lr). exists r'. split; [|exact Lr]. cbn. rewrite K, E'. reflexivity.
    + intros a b0 c0 d e f g h t' -> E. destruct (push_opt_some _ _ _ _ E) as (k & y & K & B & ->). pose proof (code_not _ _ K) as Q. cbn [In] in Q.
      assert (X : 85 <> 10 /\ 85 <> 13) by (split; discriminate). peel S1 X.
      peel S1 (id (Q a ltac:(tauto))). peel S1 (id (Q b0 ltac:(tauto))). peel S1 (id (Q c0 ltac:(tauto))). peel S1 (id (Q d ltac:(tauto))).
      peel S1 (id (Q e ltac:(tauto))). peel S1 (id (Q f ltac:(tauto))). peel S1 (id (Q g ltac:(tauto))). peel S1 (id (Q h ltac:(tauto))).
      destruct (IH t' _ ltac:(cbn [List.length] in L; lia) S1 _ _ B) as (r' & E' & Lr). exists r'. split; [|exact Lr]. cbn. rewrite K, E'. reflexivity.
    + intros a t' -> E. destruct (push_opt_some _ _ _ _ E) as (k & y & K & B & ->). pose proof (simple_not _ _ K) as [Q Q'].
      peel S1 (conj Q Q'). destruct (IH t' _ ltac:(cbn [List.length] in L; lia) S1 _ _ B) as (r' & E' & Lr). exists r'. split; [|exact Lr].
      assert (A : a <> 117 /\ a <> 85) by (split; intros ->; discriminate K). destruct A as [A1 A2].
      etransitivity; [apply (esc_other (fun a b c d t' => push_opt (code_point [a; b; c; d]) (basic_string t'))
        (fun a b c d e f g h t' => push_opt (code_point [a; b; c; d; e; f; g; h]) (basic_string t'))
        (fun x t' => push_opt (simple_escape x) (basic_string t')) None); assumption|]. cbv beta. rewrite K, E'. reflexivity.
    + discriminate.
  - destruct (plain_char c); [|discriminate E]. destruct (push_some _ _ _ _ E) as (y & B & ->).
    destruct (IH t _ ltac:(lia) (live_sim _ _ L1) _ _ B) as (r' & E' & Lr). exists r'. split; [|exact Lr]. now rewrite E'.
Qed.
Lemma literal_sim s : forall s', sim s s' -> follows literal_string s s'.
Proof.
  induction s as [|c t IH]; intros s' H x r E; [discriminate E|]. assert (N : c <> 10) by (intros ->; discriminate E). assert (N' : c <> 13) by (intros ->; discriminate E).
  destruct (sim_cons _ _ _ H N N') as (t1 & -> & L1). cbn [literal_string] in E |- *. destruct (c =? 39); [injection E as <- <-; eauto|].
  destruct (plain_char c); [|discriminate E]. destruct (push_some _ _ _ _ E) as (y & B & ->).
  destruct (IH _ (live_sim _ _ L1) _ _ B) as (r' & E' & Lr). exists r'. split; [|exact Lr]. now rewrite E'.
Qed.
(** The head of the second text. *)
Definition hd_is (q : char) (s : str) : bool := match s with c :: _ => c =? q | [] => false end.
Lemma hd_ends q s : q <> 10 -> q <> 13 -> ends s -> hd_is q s = false.
Proof. intros N1 N2 E. apply (ends_case (fun s => hd_is q s = false) s E); [reflexivity | |]; intros; cbn [hd_is]; now apply Z.eqb_neq; congruence. Qed.
Lemma sim_head q s s' : q <> 10 -> q <> 13 -> live s s' -> hd_is q s' = hd_is q s.
Proof.
  intros N1 N2 H. destruct s as [|c t]; [rewrite !hd_ends; auto; now apply live_nil|].
  destruct (sim_cases _ _ _ (live_sim _ _ H)) as [(t' & -> & N & Q & L)|[(u & u' & A & B & S)|(A & -> & B)]]; [reflexivity | rewrite !hd_ends; eauto..].
Qed.
Lemma hd_true q s : hd_is q s = true -> s = q :: tl s.
Proof. destruct s as [|c t]; [discriminate|]. cbn [hd_is tl]. intros H. apply Z.eqb_eq in H. congruence. Qed.
Lemma tl_sim q s s' : q <> 10 -> q <> 13 -> live s s' -> hd_is q s = true -> live (tl s) (tl s').
Proof. intros N1 N2 L H. rewrite (hd_true _ _ H) in L. destruct (sim_cons _ _ _ (live_sim _ _ L) N1 N2) as (t' & -> & L'). exact L'. Qed.
Lemma closing_eq q s : closing q s = if hd_is q s && hd_is q (tl s) then
    (if hd_is q (tl (tl s)) then (if hd_is q (tl (tl (tl s))) then Some ([q; q], tl (tl (tl (tl s)))) else Some ([q], tl (tl (tl s)))) else Some ([], tl (tl s)))
  else None.
Proof.
  destruct s as [|a [|b0 t]]; [reflexivity | cbn [hd_is tl closing]; now rewrite andb_false_r |]. cbn [hd_is tl closing].
  destruct ((a =? q) && (b0 =? q)); [|reflexivity]. destruct t as [|c t]; [reflexivity|]. cbn [hd_is tl]. destruct (c =? q); [|reflexivity].
  destruct t as [|d t]; [reflexivity|]. cbn [hd_is tl]. destruct (d =? q); reflexivity.
Qed.
Lemma closing_sim q s s' : q <> 10 -> q <> 13 -> live s s' ->
  match closing q s with
  | Some (x, r) => exists r', closing q s' = Some (x, r') /\ live r r'
  | None => closing q s' = None
  end.
Proof.
  intros N1 N2 L. rewrite !closing_eq, (sim_head q _ _ N1 N2 L). destruct (hd_is q s) eqn:H1; [|reflexivity]. pose proof (tl_sim q _ _ N1 N2 L H1) as L1. cbn [andb].
  rewrite (sim_head q _ _ N1 N2 L1). destruct (hd_is q (tl s)) eqn:H2; [|reflexivity]. pose proof (tl_sim q _ _ N1 N2 L1 H2) as L2.
  rewrite (sim_head q _ _ N1 N2 L2). destruct (hd_is q (tl (tl s))) eqn:H3; [|eauto]. pose proof (tl_sim q _ _ N1 N2 L2 H3) as L3.
  rewrite (sim_head q _ _ N1 N2 L3). destruct (hd_is q (tl (tl (tl s)))) eqn:H4; [|eauto]. pose proof (tl_sim q _ _ N1 N2 L3 H4) as L4. eauto.
Qed.

Definition ml_other (t : str) (x : char) (t' : str) : option (str * str) :=
  match simple_escape x with
  | Some y => push y (ml_basic JNo t')
  | None => if is_ws x || (x =? 10) || (x =? 13) then ml_basic JNeed t else None
  end.
Definition ml_esc (t : str) : option (str * str) :=
  match t with
  | 117 :: a :: b :: c :: d :: t' => push_opt (code_point [a; b; c; d]) (ml_basic JNo t')
  | 85 :: a :: b :: c :: d :: e :: f :: g :: h :: t' => push_opt (code_point [a; b; c; d; e; f; g; h]) (ml_basic JNo t')
  | x :: t' => ml_other t x t'
  | [] => None
  end.
Definition ml_main (c : char) (t : str) : option (str * str) :=
  if c =? 34 then match closing 34 t with Some r => Some r | None => push 34 (ml_basic JNo t) end
  else if c =? 92 then ml_esc t
  else if c =? 10 then push 10 (ml_basic JNo t)
  else if (c =? 13) && next_lf t then ml_basic JNo t
  else if plain_char c then push c (ml_basic JNo t) else None.
Lemma ml_no c t : ml_basic JNo (c :: t) = ml_main c t.
Proof. reflexivity. Qed.
Lemma ml_skip c t : ml_basic JSkip (c :: t) = if is_ws c || (c =? 10) || ((c =? 13) && next_lf t) then ml_basic JSkip t else ml_main c t.
Proof. reflexivity. Qed.
Lemma ml_need c t : ml_basic JNeed (c :: t) = if is_ws c then ml_basic JNeed t else if c =? 10 then ml_basic JSkip t else if (c =? 13) && next_lf t then ml_basic JNeed t else None.
Proof. reflexivity. Qed.
Lemma ml_sim : forall n s j s', (List.length s <= n)%nat -> sim s s' -> follows (ml_basic j) s s'.
Proof.
  induction n as [|n IH]; intros s j s' L H x r E; (destruct s as [|c t]; [destruct j; discriminate E|]); cbn [List.length] in L; [lia|].
  destruct (sim_cases _ _ _ H) as [(t1 & -> & N & NX & L1)|[(u & u' & A & B & S1)|(A & -> & B)]].
  2:{ assert (LF : forall j s t, feed s t -> ml_basic j s = ml_basic j (10 :: t)) by (intros j' s0 t0 [->| ->]; [reflexivity | destruct j'; reflexivity]).
    rewrite (LF j _ _ A) in E. rewrite (LF j _ _ B). assert (R : forall j', follows (ml_basic j') u u') by (intros; apply IH; auto; destruct A as [A|A]; injection A as -> ->; cbn [List.length] in L; lia). clear IH LF.
    destruct j.
      - rewrite ml_no in *. unfold ml_main in *. cbn [Z.eqb Pos.eqb] in *. destruct (push_some _ _ _ _ E) as (y & K & ->). destruct (R _ _ _ K) as (r' & E' & Lr). rewrite E'. exists r'. split; [reflexivity | exact Lr].
      - rewrite ml_need in *. cbn in *. exact (R _ _ _ E).
      - rewrite ml_skip in *. cbn in *. exact (R _ _ _ E). }
  2:{ exfalso. destruct A as [A|A]; injection A as -> ->; destruct j; discriminate E. }
  assert (N' : c <> 13).
  { intros ->. destruct (NX eq_refl) as [X _]. destruct j; [rewrite ml_no in E | rewrite ml_need in E | rewrite ml_skip in E]; unfold ml_main in E; cbn [Z.eqb Pos.eqb is_ws orb andb] in E; rewrite X in E; discriminate E. }
  apply Z.eqb_neq in N' as N13. clear NX.
  assert (R : forall j', follows (ml_basic j') t t1) by (intros; apply IH; [lia | now apply live_sim]).
  assert (Main : ml_main c t = Some (x, r) -> exists r', ml_main c t1 = Some (x, r') /\ live r r').
  { clear E. unfold ml_main. rewrite N13. cbn [andb]. destruct (c =? 34).
    { intros E. pose proof (closing_sim 34 t t1 ltac:(discriminate) ltac:(discriminate) L1) as C. destruct (closing 34 t) as [[y u]|].
      - injection E as -> ->. destruct C as (r' & -> & Lr). eauto.
      - rewrite C. destruct (push_some _ _ _ _ E) as (y & B & ->). destruct (R _ _ _ B) as (r' & E' & Lr). rewrite E'. exists r'. split; [reflexivity | exact Lr]. }
    destruct (c =? 92).
    { destruct L1 as [S1 _]. unfold ml_esc.
      match goal with |- _ -> ?goal => apply (escape_split (fun o => o = Some (x, r) -> goal) (fun a b c d t' => push_opt (code_point [a; b; c; d]) (ml_basic JNo t'))
        (fun a b c d e f g h t' => push_opt (code_point [a; b; c; d; e; f; g; h]) (ml_basic JNo t')) (ml_other t) None) end; [| | |discriminate].
      + intros a b0 c0 d t' -> E. destruct (push_opt_some _ _ _ _ E) as (k & y & K & B & ->). pose proof (code_not _ _ K) as Q. cbn [In] in Q.
        assert (X : 117 <> 10 /\ 117 <> 13) by (split; discriminate). clear R H. peel S1 X.
        peel S1 (id (Q a ltac:(tauto))). peel S1 (id (Q b0 ltac:(tauto))). peel S1 (id (Q c0 ltac:(tauto))). peel S1 (id (Q d ltac:(tauto))).
        destruct (IH t' JNo _ ltac:(cbn [List.length] in L; lia) S1 _ _ B) as (r' & E' & Lr). exists r'. split; [|exact Lr]. rewrite K, E'. reflexivity.
      + intros a b0 c0 d e f g h t' -> E. destruct (push_opt_some _ _ _ _ E) as (k & y & K & B & ->). pose proof (code_not _ _ K) as Q. cbn [In] in Q.
        assert (X : 85 <> 10 /\ 85 <> 13) by (split; discriminate). clear R H. peel S1 X.
        peel S1 (id (Q a ltac:(tauto))). peel S1 (id (Q b0 ltac:(tauto))). peel S1 (id (Q c0 ltac:(tauto))). peel S1 (id (Q d ltac:(tauto))).
        peel S1 (id (Q e ltac:(tauto))). peel S1 (id (Q f ltac:(tauto))). peel S1 (id (Q g ltac:(tauto))). peel S1 (id (Q h ltac:(tauto))).
        destruct (IH t' JNo _ ltac:(cbn [List.length] in L; lia) S1 _ _ B) as (r' & E' & Lr). exists r'. split; [|exact Lr]. rewrite K, E'. reflexivity.
      + intros a t' Et E. unfold ml_other in E. destruct (simple_escape a) as [k|] eqn:K.
        * subst t. destruct (push_some _ _ _ _ E) as (y & B & ->). pose proof (simple_not _ _ K) as [Q Q'].
          destruct (sim_cons _ _ _ S1 Q Q') as (t2 & -> & L2).
          destruct (IH t' JNo _ ltac:(cbn [List.length] in L; lia) (live_sim _ _ L2) _ _ B) as (r' & E' & Lr). exists r'. split; [|exact Lr].
          assert (A : a <> 117 /\ a <> 85) by (split; intros ->; discriminate K). destruct A as [A1 A2].
          etransitivity; [apply (esc_other (fun a b c d t' => push_opt (code_point [a; b; c; d]) (ml_basic JNo t'))
            (fun a b c d e f g h t' => push_opt (code_point [a; b; c; d; e; f; g; h]) (ml_basic JNo t')) (ml_other (a :: t2)) None); assumption|].
          unfold ml_other. rewrite K, E'. reflexivity.
        * destruct (is_ws a || (a =? 10) || (a =? 13)) eqn:W; [|discriminate E]. destruct (R _ _ _ E) as (r' & E' & Lr). exists r'. split; [|exact Lr].
          assert (exists a1 t2, t1 = a1 :: t2 /\ is_ws a1 || (a1 =? 10) || (a1 =? 13) = true) as (a1 & t2 & -> & W1).
          { subst t. destruct (sim_cases _ _ _ S1) as [(v & -> & _)|[(v & v' & _ & Fv & _)|(Fv & -> & _)]]; [eauto | |].
            - destruct Fv as [->| ->]; eexists; eexists; (split; [reflexivity|]); reflexivity.
            - exfalso. destruct Fv as [Fv|Fv]; injection Fv as -> ->; discriminate E. }
          assert (A : a1 <> 117 /\ a1 <> 85 /\ simple_escape a1 = None).
          { unfold is_ws in W1. assert (a1 = 32 \/ a1 = 9 \/ a1 = 10 \/ a1 = 13) as D by lia.
            repeat (destruct D as [->|D]; [repeat split; discriminate|]). subst. repeat split; discriminate. }
          destruct A as (A1 & A2 & A3).
          etransitivity; [apply (esc_other (fun a b c d t' => push_opt (code_point [a; b; c; d]) (ml_basic JNo t'))
            (fun a b c d e f g h t' => push_opt (code_point [a; b; c; d; e; f; g; h]) (ml_basic JNo t')) (ml_other (a1 :: t2)) None); assumption|].
          unfold ml_other. rewrite A3, W1. exact E'. }
    destruct (Z.eqb_spec c 10); [congruence|].
    destruct (plain_char c); [|discriminate]. intros E. destruct (push_some _ _ _ _ E) as (y & B & ->). destruct (R _ _ _ B) as (r' & E' & Lr). rewrite E'. exists r'. split; [reflexivity | exact Lr]. }
  destruct j; [rewrite ml_no in *; auto | rewrite ml_need in * | rewrite ml_skip in *]; rewrite N13 in *; cbn [andb] in *.
  - destruct (is_ws c); [now apply R|]. destruct (c =? 10); [now apply R | discriminate E].
  - destruct (is_ws c || (c =? 10) || false); [now apply R | auto].
Qed.
Lemma mll_sim n : forall s s', (List.length s <= n)%nat -> sim s s' -> follows ml_literal s s'.
Proof.
  induction n as [|n IH]; intros s s' L H x r E; (destruct s as [|c t]; [discriminate E|]); cbn [List.length] in L; [lia|].
  destruct (sim_cases _ _ _ H) as [(t1 & -> & N & NX & L1)|[(u & u' & A & B & S1)|(A & -> & B)]].
  2:{ assert (LF : forall s t, feed s t -> ml_literal s = ml_literal (10 :: t)) by (intros s0 t0 [->| ->]; reflexivity).
    rewrite (LF _ _ A) in E. rewrite (LF _ _ B). cbn [ml_literal Z.eqb Pos.eqb] in E |- *. destruct (push_some _ _ _ _ E) as (y & K & ->).
    assert (Lu : (List.length u <= n)%nat) by (destruct A as [A|A]; injection A as -> ->; cbn [List.length] in L; lia).
    destruct (IH _ _ Lu S1 _ _ K) as (r' & E' & Lr). exists r'. split; [|exact Lr]. now rewrite E'. }
  2:{ exfalso. destruct A as [A|A]; injection A as -> ->; discriminate E. }
  assert (N' : c <> 13).
  { intros ->. destruct (NX eq_refl) as [X _]. unfold next_lf in X. cbn [ml_literal Z.eqb Pos.eqb andb] in E. rewrite X in E. discriminate E. }
  apply Z.eqb_neq in N' as N13. clear NX. cbn [ml_literal] in E |- *. rewrite N13 in *. cbn [andb] in *.
  pose proof (IH t t1 ltac:(lia) (live_sim _ _ L1)) as R. destruct (c =? 39).
  { pose proof (closing_sim 39 t t1 ltac:(discriminate) ltac:(discriminate) L1) as C. destruct (closing 39 t) as [[y u]|].
    - injection E as -> ->. destruct C as (r' & -> & Lr). eauto.
    - rewrite C. destruct (push_some _ _ _ _ E) as (y & B & ->). destruct (R _ _ B) as (r' & E' & Lr). rewrite E'. exists r'. split; [reflexivity | exact Lr]. }
  destruct (c =? 10) eqn:X; [lia|]. destruct (plain_char c); [|discriminate E].
  destruct (push_some _ _ _ _ E) as (y & B & ->). destruct (R _ _ B) as (r' & E' & Lr). rewrite E'. exists r'. split; [reflexivity | exact Lr].
Qed.
Lemma trim_eq c t : trim_newline (c :: t) = if c =? 10 then t else if (c =? 13) && next_lf t then tl t else c :: t.
Proof.
  destruct c as [|p|p]; try reflexivity. do 4 (destruct p as [p|p|]; try reflexivity).
  destruct t as [|d t]; [reflexivity|]. destruct d as [|p|p]; try reflexivity. do 4 (destruct p as [p|p|]; try reflexivity).
Qed.
Lemma trim_sim s s' : live s s' -> sim (trim_newline s) (trim_newline s') \/ trim_newline s = [].
Proof.
  intros H. destruct s as [|c t]; [now right|]. destruct (sim_cases _ _ _ (live_sim _ _ H)) as [(t1 & -> & N & NX & L1)|[(u & u' & A & B & S1)|(A & -> & B)]].
  - left. rewrite !trim_eq. apply Z.eqb_neq in N. rewrite N. destruct (Z.eqb_spec c 13) as [->|]; [|now apply live_sim]. destruct (NX eq_refl) as [-> ->]. now apply live_sim.
  - left. assert (T : forall s t, feed s t -> trim_newline s = t) by (intros s0 t0 [->| ->]; reflexivity). now rewrite (T _ _ A), (T _ _ B).
  - right. now destruct A as [->| ->].
Qed.
Lemma string_eq s : string_value s =
  match s with
  | c :: t =>
    if (c =? 34) || (c =? 39) then
      match t with
      | d :: e :: u => if (d =? c) && (e =? c) then (if c =? 34 then ml_basic JNo (trim_newline u) else ml_literal (trim_newline u))
                       else (if c =? 34 then basic_string t else literal_string t)
      | _ => if c =? 34 then basic_string t else literal_string t
      end
    else None
  | [] => None
  end.
Proof.
  destruct s as [|c t]; [reflexivity|]. destruct c as [|p|p]; try reflexivity.
  do 6 (destruct p as [p|p|]; try reflexivity); cbn [Z.eqb Pos.eqb orb].
  - destruct t as [|d t]; [reflexivity|]. destruct d as [|p|p]; try (destruct t; reflexivity). do 6 (destruct p as [p|p|]; try (destruct t; reflexivity)).
    destruct t as [|d t]; [reflexivity|]. destruct d as [|p|p]; try reflexivity. do 6 (destruct p as [p|p|]; try reflexivity).
  - destruct t as [|d t]; [reflexivity|]. destruct d as [|p|p]; try (destruct t; reflexivity). do 6 (destruct p as [p|p|]; try (destruct t; reflexivity)).
    destruct t as [|d t]; [reflexivity|]. destruct d as [|p|p]; try reflexivity. do 6 (destruct p as [p|p|]; try reflexivity).
Qed.
Definition q3 (c : char) (t : str) : bool := match t with d :: e :: _ => (d =? c) && (e =? c) | _ => false end.
Lemma q3_eq c t : q3 c t = hd_is c t && hd_is c (tl t).
Proof. destruct t as [|d [|e t]]; [reflexivity | cbn; now rewrite andb_false_r | reflexivity]. Qed.
Lemma q3_sim c t t1 : c <> 10 -> c <> 13 -> live t t1 -> q3 c t1 = q3 c t.
Proof.
  intros N1 N2 L. rewrite !q3_eq, (sim_head c _ _ N1 N2 L). destruct (hd_is c t) eqn:H; [|reflexivity]. cbn [andb]. apply (sim_head c _ _ N1 N2). now apply (tl_sim c).
Qed.
Lemma string_q3 c t : string_value (c :: t) =
  if (c =? 34) || (c =? 39) then
    if q3 c t then (if c =? 34 then ml_basic JNo (trim_newline (tl (tl t))) else ml_literal (trim_newline (tl (tl t))))
    else (if c =? 34 then basic_string t else literal_string t)
  else None.
Proof. rewrite string_eq. destruct ((c =? 34) || (c =? 39)); [|reflexivity]. destruct t as [|d [|e u]]; reflexivity. Qed.
Lemma string_sim s s' : sim s s' -> follows string_value s s'.
Proof.
  intros H x r E. destruct s as [|c t]; [discriminate E|]. rewrite string_q3 in E. destruct ((c =? 34) || (c =? 39)) eqn:Q; [|discriminate E].
  assert (N : c <> 10 /\ c <> 13) by lia. destruct N as [N N']. destruct (sim_cons _ _ _ H N N') as (t1 & -> & L). rewrite string_q3, Q.
  rewrite (q3_sim c t t1 N N' L). destruct (q3 c t) eqn:Q3.
  - destruct t as [|d [|e u]]; try discriminate Q3. cbn [q3] in Q3. assert (d = c /\ e = c) as [-> ->] by lia.
    destruct (sim_cons _ _ _ (live_sim _ _ L) N N') as (t2 & -> & L2). destruct (sim_cons _ _ _ (live_sim _ _ L2) N N') as (t3 & -> & L3). cbn [tl] in *.
    apply trim_sim in L3. destruct L3 as [L3|L3]; [|rewrite L3 in E; destruct (c =? 34); discriminate E].
    destruct (c =? 34); [exact (ml_sim _ _ JNo _ (le_n _) L3 _ _ E) | exact (mll_sim _ _ _ (le_n _) L3 _ _ E)].
  - apply live_sim in L. destruct (c =? 34); [exact (basic_sim _ _ _ (le_n _) L _ _ E) | exact (literal_sim _ _ L _ _ E)].
Qed.

(** ** Keys and tokens *)
Lemma key_eq c t : simple_key (c :: t) = if c =? 34 then basic_string t else if c =? 39 then literal_string t
  else match span bare_char (c :: t) with ([], _) => None | r => Some r end.
Proof. destruct c as [|p|p]; try reflexivity. do 6 (destruct p as [p|p|]; try reflexivity). Qed.
Lemma simple_key_sim s s' : sim s s' -> follows simple_key s s'.
Proof.
  intros H x r E. destruct s as [|c t]; [discriminate E|]. assert (N : c <> 10) by (intros ->; discriminate E). assert (N' : c <> 13) by (intros ->; discriminate E).
  destruct (sim_cons _ _ _ H N N') as (t1 & -> & L). rewrite key_eq in *. destruct (c =? 34); [exact (basic_sim _ _ _ (le_n _) (live_sim _ _ L) _ _ E)|].
  destruct (c =? 39); [exact (literal_sim _ _ (live_sim _ _ L) _ _ E)|].
  destruct (span_sim bare_char (c :: t) (c :: t1) eq_refl eq_refl (sim_live _ _ _ H)) as (r' & E' & L'). rewrite E'.
  destruct (span bare_char (c :: t)) as [y u]. cbn [fst snd] in *. destruct y; [discriminate E|]. injection E as <- <-. eauto.
Qed.
Lemma dot_eq {A} (F : str -> A) (G : A) (s : str) : (match s with 46 :: t => F t | _ => G end) = match s with c :: t => if c =? 46 then F t else G | [] => G end.
Proof. destruct s as [|c t]; [reflexivity|]. destruct c as [|p|p]; try reflexivity. do 6 (destruct p as [p|p|]; try reflexivity). Qed.
Lemma ws_sim s s' : live s s' -> live (skip_ws s) (skip_ws s').
Proof. apply drop_sim; reflexivity. Qed.
Lemma key_path_step f s : key_path (S f) s =
  match simple_key (skip_ws s) with
  | None => None
  | Some (k, t) => match skip_ws t with
                   | c :: t' => if c =? 46 then match key_path f t' with Some (p, r) => Some (k :: p, r) | None => None end else Some ([k], c :: t')
                   | [] => Some ([k], [])
                   end
  end.
Proof.
  cbn [key_path]. destruct (simple_key (skip_ws s)) as [[k t]|]; [|reflexivity]. destruct (skip_ws t) as [|c u]; [reflexivity|].
  destruct c as [|p|p]; try reflexivity. do 6 (destruct p as [p|p|]; try reflexivity).
Qed.
Lemma token_end_eq s : token_end s =
  let a := fst (span token_char s) in let r := snd (span token_char s) in
  match r with
  | c :: d :: _ =>
    if (c =? 32) && (digit_char d && match read_date a with Some (_, []) => true | _ => false end)
    then (a ++ 32 :: fst (span token_char (tl r)), snd (span token_char (tl r))) else (a, r)
  | _ => (a, r)
  end.
Proof.
  unfold token_end. destruct (span token_char s) as [a r]. cbn [fst snd]. cbv zeta. destruct r as [|c [|d u]]; [reflexivity | |].
  - destruct c as [|p|p]; try reflexivity. do 6 (destruct p as [p|p|]; try reflexivity).
  - destruct (Z.eqb_spec c 32) as [->|N]; cbn [andb].
    + destruct (digit_char d && _); [|reflexivity]. cbn [tl]. destruct (span token_char (d :: u)). reflexivity.
    + destruct c as [|p|p]; try reflexivity. do 6 (destruct p as [p|p|]; try reflexivity). congruence.
Qed.
Lemma token_end_sim s s' : live s s' -> exists r', token_end s' = (fst (token_end s), r') /\ live (snd (token_end s)) r'.
Proof.
  intros L. rewrite !token_end_eq. cbv zeta. destruct (span_sim token_char s s' eq_refl eq_refl L) as (r' & E' & L'). rewrite E'.
  destruct (span token_char s) as [a r]. cbn [fst snd] in *.
  set (z := match read_date a with Some (_, []) => true | _ => false end).
  assert (K : forall r : str, (match r with c :: d :: _ => if (c =? 32) && (digit_char d && z) then (a ++ 32 :: fst (span token_char (tl r)), snd (span token_char (tl r))) else (a, r) | _ => (a, r) end)
    = (if hd_is 32 r && (match tl r with d :: _ => digit_char d | [] => false end && z) then (a ++ 32 :: fst (span token_char (tl r)), snd (span token_char (tl r))) else (a, r))) by (clear; intros r; destruct r as [|c [|d r]]; cbn; rewrite ?andb_false_r; reflexivity).
  rewrite !K, (sim_head 32 _ _ ltac:(discriminate) ltac:(discriminate) L'). destruct (hd_is 32 r) eqn:H; cbn [andb]; [|eauto]. pose proof (tl_sim 32 _ _ ltac:(discriminate) ltac:(discriminate) L' H) as L1.
  assert (D : match tl r' with d :: _ => digit_char d | [] => false end = match tl r with d :: _ => digit_char d | [] => false end).
  { assert (X : forall s, ends s -> match s with d :: _ => digit_char d | [] => false end = false) by (intros s0 X; apply (ends_case (fun s => match s with d :: _ => digit_char d | [] => false end = false) s0 X); reflexivity).
    destruct (tl r) as [|c t]; [apply X; now apply live_nil|].
    destruct (sim_cases _ _ _ (live_sim _ _ L1)) as [(t1 & -> & _)|[(u & u' & A & B & S1)|(A & -> & B)]]; [reflexivity | |].
    - rewrite (X (tl r')) by eauto. symmetry. apply (X (c :: t)). eauto.
    - symmetry. apply (X (c :: t)). eauto. }
  rewrite D. destruct (match tl r with d :: _ => digit_char d | [] => false end && z); [|eauto].
  destruct (span_sim token_char (tl r) (tl r') eq_refl eq_refl L1) as (r2 & E2 & L3). rewrite E2. cbn [fst snd]. eauto.
Qed.
Lemma lines_step f s : skip_lines (S f) s =
  match skip_comment (skip_ws s) with
  | c :: t => if c =? 10 then skip_lines f t else if (c =? 13) && next_lf t then skip_lines f (tl t) else c :: t
  | [] => []
  end.
Proof.
  cbn [skip_lines]. destruct (skip_comment (skip_ws s)) as [|c t]; [reflexivity|]. destruct c as [|p|p]; try reflexivity.
  do 4 (destruct p as [p|p|]; try reflexivity). destruct t as [|d t]; [reflexivity|].
  destruct d as [|p|p]; try reflexivity. do 4 (destruct p as [p|p|]; try reflexivity).
Qed.
Lemma lines_nil n : skip_lines n [] = [].
Proof. destruct n; reflexivity. Qed.
Lemma drop_length {A} (f : A -> bool) s : (List.length (drop_while f s) <= List.length s)%nat.
Proof. induction s as [|c s IH]; cbn; [lia|]. destruct (f c); cbn; lia. Qed.
Lemma comment_length s : (List.length (skip_comment s) <= List.length s)%nat.
Proof. destruct s as [|c t]; [reflexivity|]. rewrite skip_comment_eq. destruct (c =? 35); [|lia]. pose proof (drop_length plain_char t). cbn [List.length]. lia. Qed.
End Sim.

(** ** What is left is shorter *)
Ltac ln := unfold str, char in *; cbn [List.length fst snd tl] in *; lia.
Lemma span_len f s : (List.length (snd (span f s)) <= List.length s)%nat /\ (fst (span f s) <> [] -> (List.length (snd (span f s)) < List.length s)%nat).
Proof.
  induction s as [|c s [IH1 IH2]]; cbn [span]; [split; [ln | intros H; destruct H; reflexivity]|].
  destruct (f c); [|split; [ln | intros H; destruct H; reflexivity]]. destruct (span f s) as [x y]. cbn [fst snd] in *. split; intros; ln.
Qed.
Lemma basic_len : forall n s x r, (List.length s <= n)%nat -> basic_string s = Some (x, r) -> (List.length r < List.length s)%nat.
Proof.
  induction n as [|n IH]; intros s x r L E; (destruct s as [|c t]; [discriminate E|]); [ln|]. cbn [basic_string] in E.
  destruct (c =? 34); [injection E as <- <-; ln|]. destruct (c =? 92).
  - revert E. apply (escape_split (fun o => o = Some (x, r) -> (List.length r < List.length (c :: t))%nat) (fun a b c d t' => push_opt (code_point [a; b; c; d]) (basic_string t'))
      (fun a b c d e f g h t' => push_opt (code_point [a; b; c; d; e; f; g; h]) (basic_string t'))
      (fun x t' => push_opt (simple_escape x) (basic_string t')) None); [| | |discriminate]; intros; subst;
      match goal with H : push_opt _ _ = _ |- _ => destruct (push_opt_some _ _ _ _ H) as (k & y & K & B & ->) end; apply IH in B; ln.
  - destruct (plain_char c); [|discriminate E]. destruct (push_some _ _ _ _ E) as (y & B & ->). apply IH in B; ln.
Qed.
Lemma literal_len s : forall x r, literal_string s = Some (x, r) -> (List.length r < List.length s)%nat.
Proof.
  induction s as [|c t IH]; intros x r E; [discriminate E|]. cbn [literal_string] in E. destruct (c =? 39); [injection E as <- <-; ln|].
  destruct (plain_char c); [|discriminate E]. destruct (push_some _ _ _ _ E) as (y & B & ->). apply IH in B; ln.
Qed.
Lemma closing_len q s x r : closing q s = Some (x, r) -> (List.length r < List.length s)%nat.
Proof.
  destruct s as [|a [|a2 t]]; try discriminate. cbn [closing]. destruct ((a =? q) && (a2 =? q)); [|discriminate].
  destruct t as [|c t]; [intros [= <- <-]; ln|]. destruct (c =? q); [|intros [= <- <-]; ln].
  destruct t as [|d t]; [intros [= <- <-]; ln|]. destruct (d =? q); intros [= <- <-]; ln.
Qed.
Lemma ml_len : forall n s j x r, (List.length s <= n)%nat -> ml_basic j s = Some (x, r) -> (List.length r < List.length s)%nat.
Proof.
  induction n as [|n IH]; intros s j x r L E; (destruct s as [|c t]; [destruct j; discriminate E|]); [ln|].
  assert (R : forall j' y, ml_basic j' t = Some (y, r) -> (List.length r < List.length (c :: t))%nat) by (intros j' y B; apply IH in B; ln).
  assert (Main : ml_main c t = Some (x, r) -> (List.length r < List.length (c :: t))%nat).
  { unfold ml_main. destruct (c =? 34).
    { destruct (closing 34 t) as [[y u]|] eqn:C; [intros [= -> ->]; apply closing_len in C; ln|].
      intros B. destruct (push_some _ _ _ _ B) as (y & B' & _). eauto. }
    destruct (c =? 92).
    { unfold ml_esc. apply (escape_split (fun o => o = Some (x, r) -> (List.length r < List.length (c :: t))%nat) (fun a b c d t' => push_opt (code_point [a; b; c; d]) (ml_basic JNo t'))
        (fun a b c d e f g h t' => push_opt (code_point [a; b; c; d; e; f; g; h]) (ml_basic JNo t')) (ml_other t) None); [| | |discriminate].
      - intros; subst. match goal with H : push_opt _ _ = _ |- _ => destruct (push_opt_some _ _ _ _ H) as (k & y & K & B & ->) end. apply IH in B; ln.
      - intros; subst. match goal with H : push_opt _ _ = _ |- _ => destruct (push_opt_some _ _ _ _ H) as (k & y & K & B & ->) end. apply IH in B; ln.
      - intros a t' Et H. unfold ml_other in H. destruct (simple_escape a).
        + destruct (push_some _ _ _ _ H) as (y & B & _). subst. apply IH in B; ln.
        + destruct (is_ws a || (a =? 10) || (a =? 13)); [eauto | discriminate H]. }
    destruct (c =? 10); [intros H; destruct (push_some _ _ _ _ H) as (y & B & _); eauto|]. destruct ((c =? 13) && next_lf t); [eauto|].
    destruct (plain_char c); [|discriminate]. intros H; destruct (push_some _ _ _ _ H) as (y & B & _); eauto. }
  destruct j; [rewrite ml_no in E; auto | rewrite ml_need in E | rewrite ml_skip in E].
  - destruct (is_ws c); [eauto|]. destruct (c =? 10); [eauto|]. destruct ((c =? 13) && next_lf t); [eauto | discriminate E].
  - destruct (is_ws c || (c =? 10) || _); eauto.
Qed.
Lemma mll_len s : forall x r, ml_literal s = Some (x, r) -> (List.length r < List.length s)%nat.
Proof.
  induction s as [|c t IH]; intros x r E; [discriminate E|]. cbn [ml_literal] in E.
  assert (R : forall y, ml_literal t = Some (y, r) -> (List.length r < List.length (c :: t))%nat) by (intros y B; apply IH in B; ln).
  destruct (c =? 39).
  { destruct (closing 39 t) as [[y u]|] eqn:C; [injection E as -> ->; apply closing_len in C; ln|]. destruct (push_some _ _ _ _ E) as (y & B' & _). eauto. }
  destruct (c =? 10); [destruct (push_some _ _ _ _ E) as (y & B & _); eauto|]. destruct ((c =? 13) && _); [eauto|].
  destruct (plain_char c); [|discriminate E]. destruct (push_some _ _ _ _ E) as (y & B & _); eauto.
Qed.
Lemma trim_len s : (List.length (trim_newline s) <= List.length s)%nat.
Proof. destruct s as [|c t]; [apply le_n|]. rewrite trim_eq. destruct (c =? 10); [ln|]. destruct ((c =? 13) && _); [destruct t; ln | ln]. Qed.
Lemma string_len s x r : string_value s = Some (x, r) -> (List.length r < List.length s)%nat.
Proof.
  destruct s as [|c t]; [discriminate|]. rewrite string_q3. destruct ((c =? 34) || (c =? 39)); [|discriminate]. destruct (q3 c t).
  - pose proof (trim_len (tl (tl t))) as T. assert (T2 : (List.length (tl (tl t)) <= List.length t)%nat) by (destruct t as [|? [|? ?]]; ln).
    destruct (c =? 34); intros E; [apply (ml_len _ _ _ _ _ (le_n _)) in E | apply mll_len in E]; ln.
  - destruct (c =? 34); intros E; [apply (basic_len _ _ _ _ (le_n _)) in E | apply literal_len in E]; ln.
Qed.
Lemma key_len s x r : simple_key s = Some (x, r) -> (List.length r < List.length s)%nat.
Proof.
  destruct s as [|c t]; [discriminate|]. rewrite key_eq. destruct (c =? 34); [intros E; apply (basic_len _ _ _ _ (le_n _)) in E; ln|].
  destruct (c =? 39); [intros E; apply literal_len in E; ln|]. pose proof (proj2 (span_len bare_char (c :: t))) as H.
  destruct (span bare_char (c :: t)) as [y u]. cbn [fst snd] in H. destruct y; [discriminate|]. intros [= <- <-]. apply H. discriminate.
Qed.
Lemma ws_len s : (List.length (skip_ws s) <= List.length s)%nat.
Proof. apply drop_length. Qed.
Lemma key_path_len f : forall s p r, key_path f s = Some (p, r) -> (List.length r < List.length s)%nat.
Proof.
  induction f as [|f IH]; intros s p r E; [discriminate E|]. rewrite key_path_step in E. destruct (simple_key (skip_ws s)) as [[k t]|] eqn:K; [|discriminate E].
  apply key_len in K. pose proof (ws_len s). pose proof (ws_len t). destruct (skip_ws t) as [|c u]; [injection E as <- <-; ln|].
  destruct (c =? 46); [|injection E as <- <-; ln]. destruct (key_path f u) as [[q v]|] eqn:Q; [|discriminate E]. injection E as <- <-. apply IH in Q. ln.
Qed.
Lemma token_end_len s : (List.length (snd (token_end s)) <= List.length s)%nat.
Proof.
  rewrite token_end_eq. cbv zeta. pose proof (proj1 (span_len token_char s)) as H. destruct (span token_char s) as [a r]. cbn [fst snd] in *.
  destruct r as [|c [|d u]]; [ln | ln|]. destruct ((c =? 32) && _); [|ln]. cbn [tl snd]. pose proof (proj1 (span_len token_char (d :: u))). ln.
Qed.
Lemma lines_len n : forall s, (List.length (skip_lines n s) <= List.length s)%nat.
Proof.
  induction n as [|n IH]; intros s; [cbn; lia|]. rewrite lines_step. pose proof (comment_length (skip_ws s)). pose proof (ws_len s).
  destruct (skip_comment (skip_ws s)) as [|c t]; [ln|]. destruct (c =? 10); [pose proof (IH t); ln|].
  destruct ((c =? 13) && next_lf t); [|ln]. pose proof (IH (tl t)). destruct t; ln.
Qed.

Section Sim2.
Variable b : str.
Notation sim := (sim b).
Notation live := (live b).
Lemma key_path_sim f : forall s p r, key_path f s = Some (p, r) -> forall f' s', (List.length s' < f')%nat -> live s s' ->
  exists r', key_path f' s' = Some (p, r') /\ live r r'.
Proof.
  induction f as [|f IH]; intros s p r E f' s' Lf L; [discriminate E|]. destruct f' as [|f']; [lia|]. rewrite key_path_step in *.
  destruct (simple_key (skip_ws s)) as [[k t]|] eqn:K; [|discriminate E].
  destruct (simple_key_sim b _ _ (live_sim _ _ _ (ws_sim b _ _ L)) _ _ K) as (t1 & K' & L1). rewrite K'. apply ws_sim in L1.
  assert (X : forall f (s : str), match s with c :: t' => if c =? 46 then match key_path f t' with Some (p, r) => Some (k :: p, r) | None => None end else Some ([k], c :: t') | [] => Some ([k], []) end
    = if hd_is 46 s then match key_path f (tl s) with Some (p, r) => Some (k :: p, r) | None => None end else Some ([k], s)) by (intros f0 [|c u]; reflexivity).
  rewrite X in E. rewrite X, (sim_head b 46 _ _ ltac:(discriminate) ltac:(discriminate) L1). destruct (hd_is 46 (skip_ws t)) eqn:H; [|injection E as <- <-; eauto].
  pose proof (tl_sim b 46 _ _ ltac:(discriminate) ltac:(discriminate) L1 H) as L2. destruct (key_path f (tl (skip_ws t))) as [[q v]|] eqn:K2; [|discriminate E]. injection E as <- <-.
  assert (Len : (List.length (tl (skip_ws t1)) < f')%nat).
  { apply key_len in K'. pose proof (ws_len s'). pose proof (ws_len t1). destruct (skip_ws t1); ln. }
  destruct (IH _ _ _ K2 f' _ Len L2) as (r' & -> & Lr). eauto.
Qed.
Lemma lines_sim n : forall s s' n', (List.length s <= n)%nat -> (List.length s' <= n')%nat -> live s s' -> skip_lines n s <> [] -> live (skip_lines n s) (skip_lines n' s').
Proof.
  induction n as [|n IH]; intros s s' n' L1 L2 L Ne.
  - destruct s; [|cbn in L1; lia]. cbn in Ne. congruence.
  - rewrite lines_step in *. pose proof (comment_sim b _ _ (ws_sim b _ _ L)) as Lu.
    assert (Len : (List.length (skip_comment (skip_ws s)) <= S n)%nat) by (pose proof (comment_length (skip_ws s)); pose proof (ws_len s); ln).
    assert (Len' : (List.length (skip_comment (skip_ws s')) <= n')%nat) by (pose proof (comment_length (skip_ws s')); pose proof (ws_len s'); ln).
    assert (Q : forall s t n, feed s t -> (match s with c :: t => if c =? 10 then skip_lines n t else if (c =? 13) && next_lf t then skip_lines n (tl t) else c :: t | [] => [] end) = skip_lines n t) by (intros s0 t0 n0 [->| ->]; reflexivity).
    assert (F : forall s t, feed s t -> (List.length t < List.length s)%nat) by (intros s0 t0 [->| ->]; ln).
    destruct n' as [|n'].
    { exfalso. destruct (skip_comment (skip_ws s')); [|ln]. destruct (skip_comment (skip_ws s)) as [|c t]; [congruence|].
      destruct (sim_cases b _ _ _ (live_sim _ _ _ Lu)) as [(t1 & [=] & _)|[(u & u' & A & B & S1)|(A & _ & B)]]; [destruct B; discriminate|].
      apply Ne. etransitivity; [exact (Q _ _ n A) | apply lines_nil]. }
    rewrite lines_step. destruct (skip_comment (skip_ws s)) as [|c t]; [congruence|].
    destruct (sim_cases b _ _ _ (live_sim _ _ _ Lu)) as [(t1 & E1 & N & NX & S1)|[(u & u' & A & B & S1)|(A & E1 & B)]].
    + rewrite E1 in *. apply Z.eqb_neq in N. rewrite N. destruct (Z.eqb_spec c 13) as [->|]; cbn [andb]; [|exact Lu]. destruct (NX eq_refl) as [-> ->]. exact Lu.
    + assert (EA := Q _ _ n A). assert (NE : skip_lines n u <> []) by (intros X; apply Ne; etransitivity; [exact EA | exact X]). clear Ne.
      match goal with |- live ?x _ => replace x with (skip_lines n u) by (symmetry; exact EA) end. assert (EB := Q _ _ n' B). match goal with |- live _ ?y => replace y with (skip_lines n' u') by (symmetry; exact EB) end.
      apply F in A, B. apply IH; auto; [ln | ln |]. split; auto. intros ->. destruct (NE (lines_nil n)).
    + destruct Ne. etransitivity; [exact (Q _ _ n A) | apply lines_nil].
Qed.
End Sim2.

(** Cases on a literal character. *)
Ltac lit6 c := destruct c as [|?p|?p]; try reflexivity; do 7 (try match goal with p : positive |- _ => destruct p as [p|p|]; try reflexivity end).
Definition value_step lim f deep s : option (toml_value * str) :=
  match s with
  | [] => None
  | c :: t =>
    if (c =? 34) || (c =? 39) then match string_value s with Some (x, r) => Some (TvStr x, r) | None => None end
    else if c =? 91 then
      if Nat.leb lim (S deep) then None
      else match items_at lim f (S deep) t with Some (l, r) => Some (TvArr l, r) | None => None end
    else if c =? 123 then
      if Nat.leb lim (S deep) then None
      else match skip_ws t with
           | d :: r => if d =? 125 then Some (TvTab [], r) else
             match pairs_at lim f (S deep) (d :: r) with
             | Some (l, r) => match put_entries l [] with Some m => Some (of_table m, r) | None => None end
             | None => None
             end
           | [] => None
           end
    else match token_value (fst (token_end s)) with Some x => Some (x, snd (token_end s)) | None => None end
  end.
Lemma pairs_nil lim f deep : pairs_at lim f deep [] = None.
Proof. destruct f; reflexivity. Qed.
Lemma value_at_eq lim f deep s : value_at lim (S f) deep s = value_step lim f deep s.
Proof.
  cbn [value_at]. unfold value_step. destruct s as [|c t]; [reflexivity|]. destruct ((c =? 34) || (c =? 39)); [reflexivity|]. destruct (c =? 91); [reflexivity|].
  destruct (c =? 123).
  - destruct (Nat.leb lim (S deep)); [reflexivity|]. destruct (skip_ws t) as [|d u]; [rewrite pairs_nil; reflexivity|]. lit6 d.
  - destruct (token_end (c :: t)) as [a r]. reflexivity.
Qed.
Definition items_step lim f deep s : option (list toml_value * str) :=
  match skip_lines (List.length s) s with
  | [] => None
  | c :: t =>
    if c =? 93 then Some ([], t) else
    match value_at lim f deep (c :: t) with
    | None => None
    | Some (x, u) =>
      match skip_lines (List.length u) u with
      | d :: r => if d =? 44 then match items_at lim f deep r with Some (l, r') => Some (x :: l, r') | None => None end
                  else if d =? 93 then Some ([x], r) else None
      | [] => None
      end
    end
  end.
Lemma value_nil lim f deep : value_at lim f deep [] = None.
Proof. destruct f; reflexivity. Qed.
Lemma items_at_eq lim f deep s : items_at lim (S f) deep s = items_step lim f deep s.
Proof.
  cbn [items_at]. unfold items_step. destruct (skip_lines (List.length s) s) as [|c t]; [now rewrite value_nil|].
  assert (X : forall c t, match value_at lim f deep (c :: t) with
    | None => None
    | Some (x, u) =>
      match skip_lines (List.length u) u with
      | 44 :: r => match items_at lim f deep r with Some (l, r') => Some (x :: l, r') | None => None end
      | 93 :: r => Some ([x], r)
      | _ => None
      end
    end = match value_at lim f deep (c :: t) with
    | None => None
    | Some (x, u) =>
      match skip_lines (List.length u) u with
      | d :: r => if d =? 44 then match items_at lim f deep r with Some (l, r') => Some (x :: l, r') | None => None end
                  else if d =? 93 then Some ([x], r) else None
      | [] => None
      end
    end).
  { intros c0 t0. destruct (value_at lim f deep (c0 :: t0)) as [[x u]|]; [|reflexivity].
    destruct (skip_lines (List.length u) u) as [|d r]; [reflexivity|]. lit6 d. }
  specialize (X c t). destruct (Z.eqb_spec c 93) as [->|N]; [reflexivity|]. etransitivity; [|exact X]. clear X.
  lit6 c. congruence.
Qed.
Definition pairs_step lim f deep s : option (list (list str * toml_value) * str) :=
  match key_path (S (List.length s)) s with
  | Some (p, c :: t) =>
    if c =? 61 then
      if Nat.leb lim (List.length p) then None else
      match value_at lim f deep (skip_ws t) with
      | None => None
      | Some (x, u) =>
        match skip_ws u with
        | d :: r => if d =? 44 then match pairs_at lim f deep r with Some (l, r') => Some ((p, x) :: l, r') | None => None end
                    else if d =? 125 then Some ([(p, x)], r) else None
        | [] => None
        end
      end
    else None
  | _ => None
  end.
Lemma pairs_at_eq lim f deep s : pairs_at lim (S f) deep s = pairs_step lim f deep s.
Proof.
  cbn [pairs_at]. unfold pairs_step. set (o := key_path (S (List.length s)) s). clearbody o.
  destruct o as [[p [|c t]]|]; try reflexivity.
  destruct (Z.eqb_spec c 61) as [->|N]; [|lit6 c; congruence]. destruct (Nat.leb lim (List.length p)); [reflexivity|].
  destruct (value_at lim f deep (skip_ws t)) as [[x u]|]; [|reflexivity].
  destruct (skip_ws u) as [|d r]; [reflexivity|]. lit6 d.
Qed.
