(** Arrays of tables (C134). *)
From Coq Require Import ZArith Bool String Lia.
From Coq Require Import List.
Import ListNotations.
From Verif.Model Require Import Text Num Flt Value Serde Visitor Layers Toml TomlText.
From Verif.Spec Require Import Spec Numerals TomlSpec TomlTextSpec TomlGrammar TomlArrays.
From Verif.Proofs Require Import Basics TomlProofs TomlLex TomlNum TomlValues TomlDoc TomlProper TomlSim TomlJoin TomlFrame TomlHand TomlWords TomlKinds TomlTables TomlRead TomlReadValues TomlReadDoc TomlMeaning.
Local Open Scope Z_scope.

(** ** The tables built by elements *)
Fixpoint tower (q : list str) (ms : list (list (str * node))) : list (str * node) :=
  match q with
  | [] => []
  | [k] => [(k, NArr ms)]
  | k :: q' => [(k, NTab true false (tower q' ms))]
  end.
Definition pre (p : list str) (s : statement) : statement := match s with SHead b h => SHead b (p ++ h) | SEntry _ _ => s end.

Lemma alter_one k f n : alter k f [(k, n)] = match f (Some n) with Some n' => Some [(k, n')] | None => None end.
Proof. cbn [alter]. now rewrite str_eqb_refl. Qed.
Lemma on_last_snoc {A} (f : A -> option A) l x : on_last f (l ++ [x]) = option_map (fun y => l ++ [y]) (f x).
Proof.
  induction l as [|a l IH]; cbn [app on_last]; [destruct (f x); reflexivity|]. destruct (l ++ [x]) eqn:E; [destruct l; discriminate E|]. rewrite IH. destruct (f x); reflexivity.
Qed.
Lemma section_first q es : q <> [] -> put_section true q es [] = option_map (fun t => tower q [t]) (put_entries es []).
Proof.
  unfold put_section. destruct q as [|k q]; [congruence|]. intros _. revert k. induction q as [|k' q IH]; intros k.
  - cbn [removelast List.last descend alter tower]. destruct (put_entries es []); reflexivity.
  - change (removelast (k :: k' :: q)) with (k :: removelast (k' :: q)). change (List.last (k :: k' :: q) []) with (List.last (k' :: q) (@nil Z)). cbn [descend alter]. rewrite IH.
    destruct (put_entries es []); reflexivity.
Qed.
Lemma section_next q es ms : q <> [] -> put_section true q es (tower q ms) = option_map (fun t => tower q (ms ++ [t])) (put_entries es []).
Proof.
  unfold put_section. destruct q as [|k q]; [congruence|]. intros _. revert k. induction q as [|k' q IH]; intros k.
  - cbn [removelast List.last descend tower]. rewrite alter_one. destruct (put_entries es []); reflexivity.
  - change (removelast (k :: k' :: q)) with (k :: removelast (k' :: q)). change (List.last (k :: k' :: q) []) with (List.last (k' :: q) (@nil Z)). cbn [descend].
    change (tower (k :: k' :: q) ms) with [(k, NTab true false (tower (k' :: q) ms))]. rewrite alter_one. cbn [andb]. rewrite IH. destruct (put_entries es []); reflexivity.
Qed.
Lemma removelast_app' {A} (q h : list A) : h <> [] -> removelast (q ++ h) = q ++ removelast h.
Proof. intros N. now apply removelast_app. Qed.
Lemma last_app {A} (q h : list A) d : h <> [] -> List.last (q ++ h) d = List.last h d.
Proof. intros N. induction q as [|x q IH]; [reflexivity|]. cbn [app]. rewrite <- IH. cbn [List.last]. destruct (q ++ h) eqn:E; [|reflexivity]. apply app_eq_nil in E as [_ E]. congruence. Qed.
Lemma section_inside q h b es ms m : q <> [] -> h <> [] ->
  put_section b (q ++ h) es (tower q (ms ++ [m])) = option_map (fun m' => tower q (ms ++ [m'])) (put_section b h es m).
Proof.
  intros Nq Nh. unfold put_section. rewrite removelast_app', last_app by exact Nh. set (F := fun (_ : bool) m => alter _ _ m). clearbody F. destruct q as [|k q]; [congruence|]. clear Nq. revert k. induction q as [|k' q IH]; intros k.
  - cbn [app descend tower]. rewrite alter_one, on_last_snoc. destruct (descend false (removelast h) false F m); reflexivity.
  - change ((k :: k' :: q) ++ removelast h) with (k :: (k' :: q) ++ removelast h). cbn [descend].
    change (tower (k :: k' :: q) (ms ++ [m])) with [(k, NTab true false (tower (k' :: q) (ms ++ [m])))]. rewrite alter_one. cbn [andb]. rewrite IH. destruct (descend false (removelast h) false F m); reflexivity.
Qed.
Lemma before_pre q l : entries_before (map (pre q) l) = (fst (entries_before l), map (pre q) (snd (entries_before l))).
Proof.
  induction l as [|[b p|p t] l IH]; [reflexivity|reflexivity|]. cbn [map pre entries_before]. rewrite IH. destruct (entries_before l). reflexivity.
Qed.
Definition heads_some (l : list statement) : Prop := forall b h, In (SHead b h) l -> h <> [].
Lemma before_heads l : heads_some l -> heads_some (snd (entries_before l)).
Proof. intros H b h J. destruct (before_rest l) as (l1 & E & _). apply (H b). rewrite E. apply in_or_app. now right. Qed.
Lemma run_inside q ms : q <> [] -> forall f l m, heads_some l -> run_sections f (map (pre q) l) (tower q (ms ++ [m])) = option_map (fun m' => tower q (ms ++ [m'])) (run_sections f l m).
Proof.
  intros Nq. induction f as [|f IH]; intros l m H; [reflexivity|]. destruct l as [|[b h|p t] l]; [reflexivity| |reflexivity].
  cbn [map pre run_sections]. rewrite before_pre. assert (H' : heads_some l) by (intros b' h' J; apply (H b'); now right). pose proof (before_heads l H') as H2. destruct (entries_before l) as [es r]. cbn [fst snd] in *.
  rewrite section_inside; [|exact Nq | apply (H b); now left]. destruct (put_section b h es m) as [m'|]; [|reflexivity]. cbn [option_map]. apply IH. exact H2.
Qed.
Definition elem (q : list str) (L : list statement) : list statement := SHead true q :: map (pre q) L.
Lemma elem_run q L m : q <> [] -> heads_some L -> run_root L = Some m -> forall f, (List.length (elem q L) < f)%nat ->
  run_sections f (elem q L) [] = Some (tower q [m]) /\ forall ms, run_sections f (elem q L) (tower q ms) = Some (tower q (ms ++ [m])).
Proof.
  intros Nq H R f Lf. destruct f as [|f]; [lia|]. unfold elem in *. cbn [run_sections List.length] in *. rewrite before_pre. unfold run_root in R. pose proof (before_heads L H) as H2. pose proof (before_short L) as Sh. destruct (entries_before L) as [es r]. cbn [fst snd] in *. rewrite map_length in Lf.
  assert (Rf : forall m0, put_entries es [] = Some m0 -> run_sections f r m0 = Some m).
  { intros m0 E. rewrite E in R. rewrite <- R. apply (run_fuel (List.length r)); lia. }
  destruct (put_entries es []) as [m0|] eqn:E; [|discriminate R]. specialize (Rf m0 eq_refl). split.
  - rewrite section_first, E by exact Nq. cbn [option_map]. pose proof (run_inside q [] Nq f r m0 H2) as X. rewrite Rf in X. exact X.
  - intros ms. rewrite section_next, E by exact Nq. cbn [option_map]. rewrite (run_inside q ms Nq f r m0 H2), Rf. reflexivity.
Qed.
Lemma elem_head q L : fst (entries_before (elem q L)) = [].
Proof. reflexivity. Qed.
Definition elems (q : list str) (Ls : list (list statement)) : list statement := flat_map (elem q) Ls.
Lemma elems_head q Ls : fst (entries_before (elems q Ls)) = [].
Proof. destruct Ls; reflexivity. Qed.
Lemma elems_run q Ls ms : q <> [] -> (forall L, In L Ls -> heads_some L) -> Forall2 (fun L m => run_root L = Some m) Ls ms -> forall f, (List.length (elems q Ls) < f)%nat ->
  (forall ms0, run_sections f (elems q Ls) (tower q ms0) = Some (tower q (ms0 ++ ms))) /\ (Ls <> [] -> run_sections f (elems q Ls) [] = Some (tower q ms)).
Proof.
  intros Nq H F. induction F as [|L m Ls ms R F IH]; intros f Lf.
  - split; [|congruence]. intros ms0. destruct f; [cbn in Lf; lia|]. cbn [elems flat_map run_sections]. now rewrite app_nil_r.
  - cbn [elems flat_map] in *. fold (elems q Ls) in *. rewrite app_length in Lf. destruct (elem_run q L m Nq (H L ltac:(now left)) R f) as [E1 E2]; [lia|].
    destruct (IH (fun L J => H L (or_intror J)) f) as [I1 _]; [lia|]. split.
    + intros ms0. rewrite sections_app by (auto using elems_head; rewrite app_length; lia). rewrite E2, I1, <- app_assoc. reflexivity.
    + intros _. rewrite sections_app by (auto using elems_head; rewrite app_length; lia). rewrite E1, I1. reflexivity.
Qed.
Lemma elems_root q Ls ms : q <> [] -> Ls <> [] -> (forall L, In L Ls -> heads_some L) -> Forall2 (fun L m => run_root L = Some m) Ls ms -> run_root (elems q Ls) = Some (tower q ms).
Proof.
  intros Nq Nl H F. unfold run_root. rewrite elems_head. cbn [put_entries].
  assert (E : snd (entries_before (elems q Ls)) = elems q Ls) by (destruct Ls; reflexivity). rewrite E.
  apply (proj2 (elems_run q Ls ms Nq H F (S (List.length (elems q Ls))) ltac:(lia)) Nl).
Qed.

(** ** What such tables hold *)
Lemma tower_at q ms : q <> [] -> at_path (shown (NTab false false (tower q ms))) q (VArr (map (fun m => shown (NTab false false m)) ms)).
Proof.
  assert (G : forall i d, q <> [] -> at_path (shown (NTab i d (tower q ms))) q (VArr (map (fun m => shown (NTab false false m)) ms))); [|auto].
  induction q as [|k q IH]; intros i d N; [congruence|]. destruct q as [|k' q].
  - apply (AtKey _ k (shown (NArr ms))); [apply shown_holds; eexists; split; [now left | reflexivity]|].
    replace (VArr (map (fun m => shown (NTab false false m)) ms)) with (shown (NArr ms)); [constructor|]. unfold shown. cbn [of_node doc_value]. now rewrite map_map.
  - apply (AtKey _ k (shown (NTab true false (tower (k' :: q) ms)))); [apply shown_holds; eexists; split; [now left | reflexivity]|]. apply IH. discriminate.
Qed.
Lemma tower_only q ms : forall i d p y, q <> [] -> at_path (shown (NTab i d (tower q ms))) p y -> begins p q.
Proof.
  induction q as [|k q IH]; intros i d p y N A; [congruence|]. destruct p as [|k0 p]; [now exists (k :: q)|].
  inversion A as [|? ? z ? ? H A']; subst. apply shown_holds in H as (n & J & ->). destruct q as [|k' q].
  - destruct J as [[= -> <-]|[]]. destruct p as [|k1 p]; [now exists []|]. inversion A' as [|? ? z ? ? (m & E & _) _]; subst. discriminate E.
  - destruct J as [[= -> <-]|[]]. destruct (IH true false p y ltac:(discriminate) A') as (r & E). exists r. cbn [app]. now rewrite E.
Qed.
Lemma tower_keys q ms : q <> [] -> keys (tower q ms) = [hd [] q].
Proof. destruct q as [|k [|k' q]]; [congruence | reflexivity | reflexivity]. Qed.
Definition proper_root (m : list (str * node)) : Prop := proper_toml (TvTab (table_entries m)).
Lemma proper_split m n : proper_root (m ++ n) -> proper_root m /\ proper_root n.
Proof.
  unfold proper_root, table_entries. rewrite map_app. intros H. inversion H as [| | | | | |? N P]; subst. rewrite map_app in N.
  assert (G : forall a b : list str, NoDup (a ++ b) -> NoDup a /\ NoDup b).
  { clear. induction a as [|x a IH]; intros b N; [split; [constructor | exact N]|]. cbn [app] in N. inversion N as [|? ? N1 N2]; subst. destruct (IH b N2). split; [|assumption]. constructor; [|assumption]. intros J. apply N1, in_or_app. now left. }
  destruct (G _ _ N). split; (apply PtTab; [assumption|]); intros k x J; apply P; apply in_or_app; auto.
Qed.
Lemma proper_tower q ms m : q <> [] -> proper_root (tower q ms) -> In m ms -> proper_root m.
Proof.
  unfold proper_root, table_entries. induction q as [|k q IH]; intros N P J; [congruence|]. destruct q as [|k' q].
  - cbn [tower map fst snd of_node] in P. inversion P as [| | | | | |? _ Q]; subst. destruct (Q k _ ltac:(now left)) as [_ A]. inversion A as [| | | | |? B|]; subst. apply (B (TvTab (map (fun e => (fst e, of_node (snd e))) m))). apply in_map_iff. eauto.
  - change (tower (k :: k' :: q) ms) with [(k, NTab true false (tower (k' :: q) ms))] in P. cbn [map fst snd of_node] in P. inversion P as [| | | | | |? _ Q]; subst. destruct (Q k _ ltac:(now left)) as [_ A]. apply IH; [discriminate | exact A | exact J].
Qed.
Lemma at_both m n p y : at_path (shown (NTab false false (m ++ n))) p y -> p = [] \/ at_path (shown (NTab false false m)) p y \/ at_path (shown (NTab false false n)) p y.
Proof.
  intros A. destruct p as [|k p]; [now left|]. right. inversion A as [|? ? z ? ? H A']; subst. apply shown_holds in H as (x & J & ->). apply in_app_or in J as [J|J]; [left | right]; apply (AtKey _ k (shown x)); auto; apply shown_holds; eauto.
Qed.
Lemma at_left m n p y : p <> [] -> at_path (shown (NTab false false m)) p y -> at_path (shown (NTab false false (m ++ n))) p y.
Proof.
  intros N A. destruct p as [|k p]; [congruence|]. inversion A as [|? ? z ? ? H A']; subst. apply shown_holds in H as (x & J & ->). apply (AtKey _ k (shown x)); auto. apply shown_holds. exists x. split; auto. apply in_or_app. now left.
Qed.
Lemma at_right m n p y : p <> [] -> at_path (shown (NTab false false n)) p y -> at_path (shown (NTab false false (m ++ n))) p y.
Proof.
  intros N A. destruct p as [|k p]; [congruence|]. inversion A as [|? ? z ? ? H A']; subst. apply shown_holds in H as (x & J & ->). apply (AtKey _ k (shown x)); auto. apply shown_holds. exists x. split; auto. apply in_or_app. now right.
Qed.

(** ** Sameness *)
Section DocInd.
  Variable P : doc -> Prop.
  Hypothesis HD : forall l ts gs, (forall q ds d, In (q, ds) gs -> In d ds -> P d) -> P (Doc l ts gs).
  Definition all_docs (l : list doc) : Prop := forall d, In d l -> P d.
  Definition all_groups (gs : list (list str * list doc)) : Prop := forall q ds d, In (q, ds) gs -> In d ds -> P d.
  Lemma docs_nil : all_docs []. Proof. intros d []. Qed.
  Lemma docs_cons x l : P x -> all_docs l -> all_docs (x :: l). Proof. intros H1 H2 d [<-|J]; auto. Qed.
  Lemma groups_nil : all_groups []. Proof. intros q ds d []. Qed.
  Lemma groups_cons g gs : all_docs (snd g) -> all_groups gs -> all_groups (g :: gs). Proof. intros H1 H2 q ds d [->|J] K; [exact (H1 d K) | exact (H2 q ds d J K)]. Qed.
  Fixpoint doc_ind' (d : doc) : P d :=
    match d with
    | Doc l ts gs => HD l ts gs
        ((fix gos (gs : list (list str * list doc)) : all_groups gs :=
            match gs with
            | [] => groups_nil
            | (q, ds) :: gs' => groups_cons (q, ds) gs'
                ((fix go (l : list doc) : all_docs l := match l with [] => docs_nil | x :: l' => docs_cons x l' (doc_ind' x) (go l') end) ds)
                (gos gs')
            end) gs)
    end.
End DocInd.
Lemma says_equiv d : forall v v', says d v -> vequiv v v' -> says d v'.
Proof.
  induction d as [l ts gs IH] using doc_ind'. intros v v' H V. inversion H as [? ? ? ? H1 H2 H3 H4]; subst. apply Says.
  - intros p x J. destruct (H1 p x J) as (y & A & E). destruct (at_equiv _ _ _ _ V A) as (y' & A' & E'). exists y'. split; [exact A' | eapply vequiv_trans; eauto].
  - intros h J. destruct (H2 h J) as (m & A). destruct (at_equiv _ _ _ _ V A) as (y & A' & E). inversion E as [? Sc|?|]; subst; [destruct Sc | eauto].
  - rewrite Forall_forall in *. intros [q ds] J. destruct (H3 _ J) as (xs & A & F). cbn [fst snd] in *. destruct (at_equiv _ _ _ _ V A) as (y & A' & E). inversion E as [? Sc|? ys F2|]; subst; [destruct Sc|]. exists ys. split; [exact A'|].
    assert (G : forall d, In d ds -> forall v v', says d v -> vequiv v v' -> says d v') by (intros d Jd; exact (IH q ds d J Jd)). clear - F F2 G. revert ys F2. induction F as [|d x ds xs S F IHF]; intros ys F2; inversion F2; subst; constructor; [eapply G; eauto; now left|]. apply IHF; auto. intros; eapply G; eauto. now right.
  - intros q y A. destruct (at_equiv _ _ _ _ (vequiv_sym _ _ V) A) as (y' & A' & _). eauto.
Qed.

(** ** Reading *)
Lemma element_read lim p s : element_text lim p s -> stms lim s = Some [SHead true p] /\ ends_line s /\ p <> [].
Proof.
  intros H. inversion H as [p0 t w e P Lp B T]; subst. split; [|split; [rewrite !app_assoc; apply ends_after; auto using tail_ends_line, tail_some | exact (proj2 (path_len _ _ P))]].
  unfold stms. rewrite statements_step, skip_blank by exact B. change (skip_ws ([91; 91] ++ t ++ [93; 93] ++ e)) with (91 :: 91 :: t ++ [93; 93] ++ e). cbn [Z.eqb Pos.eqb orb].
  rewrite statement_at_eq. unfold statement_step. cbn [Z.eqb Pos.eqb].
  pose proof (path_read_ws p t ([93; 93] ++ e) _ P (after_close _) (or_introl eq_refl)) as Kp. unfold str, char in *. rewrite Kp. cbn [app]. cbn [Z.eqb Pos.eqb andb].
  replace (Nat.leb lim (List.length p)) with false by (symmetry; apply Nat.leb_gt; lia).
  rewrite <- (app_nil_r e) at 1. rewrite tail_end by exact T. rewrite !app_length. cbn [List.length app]. destruct (List.length w + _)%nat eqn:Z; [ln | reflexivity].
Qed.
Scheme doc_text_ind2 := Induction for doc_text Sort Prop
with groups_text_ind2 := Induction for groups_text Sort Prop
with elements_text_ind2 := Induction for elements_text Sort Prop.
Combined Scheme doc_texts_ind from doc_text_ind2, groups_text_ind2, elements_text_ind2.

Lemma pre_pre p q l : map (pre p) (map (pre q) l) = map (pre (p ++ q)) l.
Proof. rewrite map_map. apply map_ext. intros [b h|]; cbn; [now rewrite app_assoc | reflexivity]. Qed.
Lemma pre_elem p q L : map (pre p) (elem q L) = elem (p ++ q) L.
Proof. unfold elem. cbn [map pre]. now rewrite pre_pre. Qed.
Lemma pre_elems p q Ls : map (pre p) (elems q Ls) = elems (p ++ q) Ls.
Proof. unfold elems. induction Ls as [|L Ls IH]; [reflexivity|]. cbn [flat_map]. now rewrite map_app, pre_elem, IH. Qed.
Definition move (p : list str) (t : list str * list (list str * toml_value)) : list str * list (list str * toml_value) := (p ++ fst t, snd t).
Lemma tables_moved p ts : forall tt, map plain_table tt = map (fun t => (p ++ fst t, snd t)) ts -> exists tt0, tt = map (move p) tt0 /\ map plain_table tt0 = ts.
Proof.
  induction ts as [|[h es] ts IH]; intros [|[h' es'] tt] E; try discriminate E; [exists []; auto|]. cbn [map plain_table fst snd] in E. injection E as -> <- E. destruct (IH tt E) as (tt0 & -> & <-).
  exists ((h, es') :: tt0). auto.
Qed.
Lemma stm_moved p tt : stm_tables (map (move p) tt) = map (pre p) (stm_tables tt).
Proof.
  unfold stm_tables. induction tt as [|[h es] tt IH]; [reflexivity|]. cbn [map flat_map move fst snd pre app]. rewrite map_app, IH. do 2 f_equal. symmetry. rewrite map_map. apply map_ext. intros [a b]. reflexivity.
Qed.
Lemma ents_pre p tl : map (pre p) (map ent tl) = map ent tl.
Proof. rewrite map_map. apply map_ext. intros [a b]. reflexivity. Qed.
Definition doc_heads (d : doc) : list str := match d with Doc l ts gs => map (hd []) (paths_of l) ++ map (hd []) (map fst ts) ++ map (fun g => hd [] (fst g)) gs end.
Definition group_says (m : list (str * node)) (g : list str * list doc) : Prop :=
  exists xs, at_path (shown (NTab false false m)) (fst g) (VArr xs) /\ Forall2 says (snd g) xs.

Section Read.
Context (W : str -> value -> Prop) (lim : nat) (Wok : forall s v, word s -> W s v -> exists t, token_value s = Some t /\ doc_value t = v).

Lemma texts_read :
  (forall p d s, doc_text W lim p d s -> exists L, stms lim s = Some (map (pre p) L) /\ ends_line s /\ heads_some L /\
     (clear d -> exists m, run_root L = Some m /\ (proper_root m -> says d (shown (NTab false false m))))) /\
  (forall p gs s, groups_text W lim p gs s -> exists L, stms lim s = Some (map (pre p) L) /\ ends_line s /\ heads_some L /\ fst (entries_before L) = [] /\ (forall q ds, In (q, ds) gs -> q <> []) /\
     ((forall q ds d, In (q, ds) gs -> In d ds -> clear d) -> NoDup (map (fun g => hd [] (fst g)) gs) ->
      exists m, run_root L = Some m /\ keys m = map (fun g => hd [] (fst g)) gs /\
        (proper_root m -> Forall (group_says m) gs /\ forall q y, at_path (shown (NTab false false m)) q y -> q = [] \/ exists g, In g gs /\ begins q (fst g)))) /\
  (forall p ds s, elements_text W lim p ds s -> exists Ls, stms lim s = Some (elems p Ls) /\ ends_line s /\ (forall L, In L Ls -> heads_some L) /\ List.length Ls = List.length ds /\
     ((forall d, In d ds -> clear d) -> exists ms, Forall2 (fun L m => run_root L = Some m) Ls ms /\ ((forall m, In m ms -> proper_root m) -> Forall2 (fun d m => says d (shown (NTab false false m))) ds ms))).
Proof.
  apply doc_texts_ind.
  - intros p l ts gs a b c Ha Hb Nts Hc (Lc & Sc & Ec & Hsc & Bc & Nq & Rc).
    destruct (settings_read W lim Wok l a Ha) as (tl & El & Sl & Enl & Pl). destruct (tables_read W lim Wok _ b Hb) as (tt' & Et & St & Ent & Nt).
    destruct (tables_moved p ts tt' Et) as (tt & -> & Ett). clear Et. rewrite stm_moved in St.
    assert (Ntt : forall h es, In (h, es) tt -> h <> [] /\ ppaths es).
    { intros h es J. split; [|apply (Nt (p ++ h) es); apply in_map_iff; exists (h, es); auto]. apply (Nts (h, map plain_pair es)). rewrite <- Ett. apply in_map_iff. exists (h, es). auto. }
    exists ((map ent tl ++ stm_tables tt) ++ Lc). split; [|split; [|split]].
    + rewrite (stms_app lim a _ _ Enl Sl), (stms_app lim b _ _ Ent St), Sc. cbn [option_map]. now rewrite !map_app, ents_pre, app_assoc.
    + repeat apply ends_app; auto.
    + intros b0 h J. apply in_app_or in J as [J|J]; [|exact (Hsc b0 h J)]. apply in_app_or in J as [J|J].
      * apply in_map_iff in J as ([x t] & E & _). discriminate E.
      * unfold stm_tables in J. apply in_flat_map in J as ([h0 es] & J & K). cbn [fst snd] in K. destruct K as [[= <- <-]|K]; [exact (proj1 (Ntt _ _ J))|]. apply in_map_iff in K as ([x t] & E & _). discriminate E.
    + intros C. subst l ts. inversion C as [? ? ? C1 C2 C3 C4 C5]; subst.

      destruct (document_ok tl tt (clear_spec tl tt Pl Ntt C1 C2) (fun h es J => proj1 (Ntt h es J))) as (m0 & m1 & E0 & E1 & I).
      assert (R1 : run_root (map ent tl ++ stm_tables tt) = Some m1) by (rewrite (root_tables lim), E0; exact E1).
      destruct (Rc C5 C3) as (m2 & R2 & K2 & S2).
      assert (D : forall x, In x (keys m1) -> ~ In x (keys m2)).
      { intros x J1 J2. rewrite K2 in J2. apply in_map_iff in J2 as (g & <- & Jg). apply (root_keys _ _ R1) in J1.
        destruct (run_tables_sections lim tt) as (_ & B1 & B2).
        assert (B : entries_before (map ent tl ++ stm_tables tt) = (tl, stm_tables tt)).
        { clear - B1 B2. induction tl as [|[q t] tl IH]; cbn [map app entries_before ent fst snd]; [now rewrite (surjective_pairing (entries_before _)), B1, B2|]. now rewrite IH. }
        rewrite B in J1. cbn [fst snd] in J1. destruct J1 as [(q & t & J & E)|(b0 & q & J & E)].
        - apply (C4 g q Jg); [left; unfold paths_of; rewrite map_map; apply in_map_iff; exists (q, t); auto|]. destruct q; exact E.
        - unfold stm_tables in J. apply in_flat_map in J as ([h0 es] & J & K). cbn [fst snd] in K. destruct K as [[= <- <-]|K]; [|apply in_map_iff in K as ([x t] & E' & _); discriminate E'].
          apply (C4 g h0 Jg); [right; rewrite heads_plain; apply in_map_iff; exists (h0, es); auto|]. destruct h0; exact E. }
      exists (m1 ++ m2). split; [apply root_app_head; auto|]. intros Pr. apply proper_split in Pr as [P1 P2]. destruct (S2 P2) as [G2 O2].
      destruct (holds_document tl tt m1 _ P1 (document_inv tl tt m0 m1 Pl Ntt E0 E1) (vequiv_refl _)) as (H1 & H2 & H3).
      change (doc_value (TvTab (table_entries m1))) with (shown (NTab false false m1)) in *.
      apply Says.
      * intros q x J. destruct (H1 q x J) as (y & A & E). exists y. split; [|exact E]. apply at_left; [|exact A]. apply all_in in J as (h & es & x0 & t & J & Jx & -> & _).
        assert (x0 <> []) by (destruct J as [[= <- <-]|J]; [eapply Pl; eauto | eapply (proj2 (Ntt _ _ J)); eauto]). destruct h; [assumption | discriminate].
      * intros h J. destruct (H2 h J) as (m & A). exists m. apply at_left; [|exact A]. rewrite heads_plain in J. apply in_map_iff in J as ([h0 es] & <- & J). exact (proj1 (Ntt _ _ J)).
      * rewrite Forall_forall in *. intros [q ds] J. destruct (G2 _ J) as (xs & A & F). exists xs. split; [apply at_right; [exact (Nq _ _ J) | exact A] | exact F].
      * intros q y A. apply at_both in A as [->|[A|A]]; [now left| |].
        -- destruct (H3 q y A) as [E|[E|E]]; auto.
        -- destruct (O2 q y A) as [E|E]; auto.
  - intros p. exists []. split; [reflexivity|]. split; [now left|]. split; [intros b h []|]. split; [reflexivity|]. split; [intros q ds []|]. intros _ _. exists []. split; [reflexivity|]. split; [reflexivity|]. intros _. split; [constructor|]. intros q y A. left. destruct q as [|k q]; [reflexivity|].
    inversion A as [|? ? z ? ? H A']; subst. apply shown_holds in H as (n & [] & _).
  - intros p q ds gs s t Nq Nds He (Ls & Se & Ee & Hse & Le & Re) Hg (L & Sg & Eg & Hsg & Bg & Ng & Rg).
    exists (elems q Ls ++ L). split; [|split; [|split; [|split; [|split]]]].
    + rewrite (stms_app lim s _ _ Ee Se), Sg. cbn [option_map]. now rewrite map_app, pre_elems.
    + now apply ends_app.
    + intros b h J. apply in_app_or in J as [J|J]; [|exact (Hsg b h J)]. unfold elems in J. apply in_flat_map in J as (L0 & J0 & [[= <- <-]|J]); [exact Nq|]. apply in_map_iff in J as ([b' h'|x y] & E & J); [|discriminate E].
      injection E as _ <-. destruct q; [congruence | discriminate].
    + destruct Ls as [|L0 Ls]; [destruct ds; [congruence | discriminate Le] | reflexivity].
    + intros q0 ds0 [[= <- <-]|J]; eauto.
    + intros C ND. cbn [map fst] in ND. inversion ND as [|? ? N1 N2]; subst. destruct (Re (fun d J => C q ds d (or_introl eq_refl) J)) as (ms & Fm & Sm). destruct (Rg (fun q0 ds0 d J K => C q0 ds0 d (or_intror J) K) N2) as (m2 & R2 & K2 & S2).
      assert (Nl : Ls <> []) by (destruct Ls; [destruct ds; [congruence | discriminate Le] | discriminate]).
      pose proof (elems_root q Ls ms Nq Nl Hse Fm) as R1. exists (tower q ms ++ m2). split; [|split].
      * apply root_app_head; auto. intros x. rewrite (tower_keys q ms Nq), K2. intros [<-|[]]. exact N1.
      * unfold keys in *. rewrite map_app. change (map fst (tower q ms)) with (keys (tower q ms)). rewrite (tower_keys q ms Nq), K2. reflexivity.
      * intros Pr. apply proper_split in Pr as [P1 P2]. destruct (S2 P2) as [G2 O2]. split.
        -- constructor.
           ++ exists (map (fun m => shown (NTab false false m)) ms). cbn [fst snd]. split; [apply at_left; [exact Nq | now apply tower_at]|].
              pose proof (Sm (fun m J => proper_tower q ms m Nq P1 J)) as F. clear - F. induction F; cbn [map]; constructor; auto.
           ++ rewrite Forall_forall in *. intros [q0 ds0] J. destruct (G2 _ J) as (xs & A & F). exists xs. split; [apply at_right; [exact (Ng _ _ J) | exact A] | exact F].
        -- intros q0 y A. apply at_both in A as [->|[A|A]]; [now left| |].
           ++ right. exists (q, ds). split; [now left|]. cbn [fst]. exact (tower_only q ms _ _ _ _ Nq A).
           ++ destruct (O2 q0 y A) as [E|(g & J & B)]; [now left|]. right. exists g. split; [now right | exact B].
  - intros p. exists []. split; [reflexivity|]. split; [now left|]. split; [intros L []|]. split; [reflexivity|]. intros _. exists []. split; constructor.
  - intros p h d s ds t Hh Hd (L & Sd & Ed & Hsd & Rd) He (Ls & Se & Ee & Hse & Le & Re). destruct (element_read lim p h Hh) as (Sh & Eh & Np).
    exists (L :: Ls). split; [|split; [|split; [|split]]].
    + rewrite (stms_app lim h _ _ Eh Sh), (stms_app lim s _ _ Ed Sd), Se. cbn [option_map elems flat_map]. reflexivity.
    + repeat apply ends_app; auto.
    + intros L0 [<-|J]; auto.
    + cbn [List.length]. congruence.
    + intros C. destruct (Rd (C d ltac:(now left))) as (m & R & S). destruct (Re (fun d J => C d (or_intror J))) as (ms & F & Sm). exists (m :: ms). split; [now constructor|].
      intros Pr. constructor; [apply S; apply Pr; now left|]. apply Sm. intros m' J. apply Pr. now right.
Qed.
Lemma arrays_load r d s : doc_text W lim [] d s -> is_text s = true -> clear d ->
  exists v, toml_from_str (toml_codec r (toml_text lim)) s = Ok v /\ wf v /\ says d v.
Proof.
  intros H T C. destruct (proj1 texts_read [] d s H) as (L & St & _ & _ & R). destruct (R C) as (m & Rm & S).
  assert (Em : map (pre []) L = L) by (rewrite <- (map_id L) at 2; apply map_ext; intros []; reflexivity). rewrite Em in St.
  assert (Rt : doc_root lim s = Some m).
  { unfold doc_root. rewrite unmark_eq. destruct s as [|c u]; [rewrite St; exact Rm|]. destruct (Z.eqb_spec c 65279) as [->|Nc]; [rewrite mark_fails in St; discriminate St|]. rewrite St. exact Rm. }
  destruct (load_root r lim s m T Rt) as (v & E & V & Wf). exists v. split; auto. split; auto.
  assert (Q : ts_parse (toml_text lim) s = Ok (TvTab (table_entries m))) by (apply crate_parse; eauto).
  apply (says_equiv d (shown (NTab false false m))); [apply S; exact (proj1 (toml_text_tables lim s _ Q)) | exact V].
Qed.
End Read.

(** ** Refusals *)
Lemma root_then l1 l2 : fst (entries_before l2) = [] -> run_root (l1 ++ l2) = match run_root l1 with Some m => run_sections (S (List.length l2)) l2 m | None => None end.
Proof.
  intros H. unfold run_root. destruct (before_app_head l1 l2 H) as [A B]. rewrite A, B. destruct (put_entries (fst (entries_before l1)) []) as [r1|]; [|reflexivity].
  rewrite sections_app by (auto; lia). rewrite (run_fuel (List.length (snd (entries_before l1))) _ _ _ (S (List.length (snd (entries_before l1))))) by (rewrite ?app_length; lia).
  destruct (run_sections _ _ r1) as [m|]; [|reflexivity]. apply (run_fuel (List.length l2)); rewrite ?app_length; lia.
Qed.
Lemma alter_none k f m n : mget k m = Some n -> f (Some n) = None -> alter k f m = None.
Proof.
  intros G F. induction m as [|[k' x] m IH]; [discriminate G|]. cbn [mget alter] in *. destruct (str_eqb_spec k k') as [<-|N]; [injection G as ->; now rewrite F | now rewrite IH].
Qed.
Lemma keys_get (m : list (str * node)) k : In k (keys m) -> exists n, mget k m = Some n.
Proof.
  unfold keys. induction m as [|[k' x] m IH]; [intros []|]. cbn [map fst mget]. destruct (str_eqb_spec k k') as [->|N]; [eauto|]. intros [E|J]; [congruence | auto].
Qed.
Lemma refused r lim s l1 l2 : stms lim s = Some (l1 ++ l2) -> fst (entries_before l2) = [] -> (forall m, run_root l1 = Some m -> run_sections (S (List.length l2)) l2 m = None) ->
  forall v, toml_from_str (toml_codec r (toml_text lim)) s <> Ok v.
Proof.
  intros St H F v E. destruct (load_iff r lim s v E) as (m & _ & R & _). unfold doc_root in R. rewrite unmark_eq in R.
  assert (Rs : run_root (l1 ++ l2) = Some m).
  { destruct s as [|c u]; [rewrite St in R; exact R|]. destruct (Z.eqb_spec c 65279) as [->|Nc]; [rewrite mark_fails in St; discriminate St|]. now rewrite St in R. }
  rewrite (root_then l1 l2 H) in Rs. destruct (run_root l1) as [m1|]; [|discriminate Rs]. rewrite (F m1 eq_refl) in Rs. discriminate Rs.
Qed.
Section Refuse.
Context (W : str -> value -> Prop) (lim : nat) (Wok : forall s v, word s -> W s v -> exists t, token_value s = Some t /\ doc_value t = v).
Lemma array_refused r l ts s k h rest : TomlGrammar.document_text W lim l ts s -> element_text lim [k] h -> In k (map (hd []) (paths_of l ++ map fst ts)) ->
  forall v, toml_from_str (toml_codec r (toml_text lim)) (s ++ h ++ rest) <> Ok v.
Proof.
  intros (a & b & Ha & Hb & ->) He K v E. destruct (settings_read W lim Wok l a Ha) as (tl & El & Sl & Enl & Pl). destruct (tables_read W lim Wok ts b Hb) as (tt & Et & St & Ent & Nt). destruct (element_read lim [k] h He) as (Sh & Eh & _).
  destruct (stms lim rest) as [lr|] eqn:Sr.
  - assert (St2 : stms lim ((a ++ b) ++ h ++ rest) = Some ((map ent tl ++ stm_tables tt) ++ SHead true [k] :: lr)).
    { rewrite (stms_app lim (a ++ b) _ (map ent tl ++ stm_tables tt)); [|now apply ends_app | now rewrite (stms_app lim a _ _ Enl Sl), St]. now rewrite (stms_app lim h _ _ Eh Sh), Sr. }
    revert E. apply (refused r lim _ _ _ St2 eq_refl). intros m R.
    assert (Km : In k (keys m)).
    { apply (root_keys _ _ R). destruct (run_tables_sections lim tt) as (_ & B1 & B2).
      assert (B : entries_before (map ent tl ++ stm_tables tt) = (tl, stm_tables tt)).
      { clear - B1 B2. induction tl as [|[q t] tl IH]; cbn [map app entries_before ent fst snd]; [now rewrite (surjective_pairing (entries_before _)), B1, B2|]. now rewrite IH. }
      rewrite B. cbn [fst snd]. subst l ts. apply in_map_iff in K as (p & <- & K). apply in_app_or in K as [K|K].
      - left. unfold paths_of in K. rewrite map_map in K. apply in_map_iff in K as ([q t] & <- & J). exists q, t. split; [exact J|]. now destruct q.
      - right. rewrite heads_plain in K. apply in_map_iff in K as ([q es] & <- & J). exists false, q. split; [|now destruct q]. unfold stm_tables. apply in_flat_map. exists (q, es). split; [exact J | now left]. }
    destruct (keys_get m k Km) as (n & G). cbn [run_sections]. destruct (entries_before lr) as [es r']. unfold put_section. cbn [removelast List.last descend].
    rewrite (alter_none k _ m n G); [reflexivity|]. rewrite (root_tables lim) in R. destruct (put_entries tl []) as [m0|] eqn:E0; [|discriminate R].
    pose proof (th_arr _ _ (document_inv tl tt m0 m Pl Nt E0 R) [k]) as NA. rewrite kat_cons, G in NA. destruct n; [reflexivity | reflexivity | destruct (NA eq_refl)].
  - destruct (load_iff r lim _ v E) as (m & _ & R & _). unfold doc_root in R. rewrite unmark_eq in R.
    assert (St2 : stms lim ((a ++ b) ++ h ++ rest) = None).
    { rewrite (stms_app lim (a ++ b) _ (map ent tl ++ stm_tables tt)); [|now apply ends_app | now rewrite (stms_app lim a _ _ Enl Sl), St]. now rewrite (stms_app lim h _ _ Eh Sh), Sr. }
    destruct ((a ++ b) ++ h ++ rest) as [|c u] eqn:Es; [rewrite St2 in R; discriminate R|]. destruct (Z.eqb_spec c 65279) as [->|Nc]; [|rewrite St2 in R; discriminate R].
    assert (X : stms lim ((a ++ b) ++ h) = Some ((map ent tl ++ stm_tables tt) ++ [SHead true [k]])).
    { rewrite (stms_app lim (a ++ b) _ (map ent tl ++ stm_tables tt)); [|now apply ends_app | now rewrite (stms_app lim a _ _ Enl Sl), St]. now rewrite Sh. }
    rewrite app_assoc in Es. destruct ((a ++ b) ++ h) as [|c' u'] eqn:Eab; [|injection Es as -> _; rewrite mark_fails in X; discriminate X].
    apply app_eq_nil in Eab as [_ ->]. destruct (element_read lim [k] [] He) as (X2 & _). discriminate X2.
Qed.
(** After an array of tables a header with its path alone is refused. *)
Lemma table_refused r l ts gs s k ds h rest : doc_text W lim [] (Doc l ts gs) s -> clear (Doc l ts gs) -> In ([k], ds) gs -> header_text lim [k] h ->
  forall v, toml_from_str (toml_codec r (toml_text lim)) (s ++ h ++ rest) <> Ok v.
Proof.
  intros D C J Hh v E. destruct (proj1 (texts_read W lim Wok) [] _ s D) as (L & St & En & _ & R). destruct (R C) as (m & Rm & S).
  assert (Em : map (pre []) L = L) by (rewrite <- (map_id L) at 2; apply map_ext; intros []; reflexivity). rewrite Em in St.
  destruct (header_read W lim Wok [k] h Hh) as (Sh & Eh & _).
  destruct (load_iff r lim _ v E) as (mm & T & Rr & _).
  assert (X : stms lim (s ++ h) = Some (L ++ [SHead false [k]])) by (now rewrite (stms_app lim s _ _ En St), Sh).
  assert (Hd : unmark (s ++ h ++ rest) = s ++ h ++ rest).
  { rewrite unmark_eq. rewrite app_assoc. destruct (s ++ h) as [|c u] eqn:Es.
    - apply app_eq_nil in Es as [_ ->]. destruct (header_read W lim Wok [k] [] Hh) as (X2 & _). discriminate X2.
    - cbn [app]. destruct (Z.eqb_spec c 65279) as [->|Nc]; [rewrite mark_fails in X; discriminate X | reflexivity]. }
  assert (St2 : stms lim (s ++ h ++ rest) = option_map (fun lr => L ++ SHead false [k] :: lr) (stms lim rest)).
  { rewrite (stms_app lim s _ _ En St), (stms_app lim h _ _ Eh Sh). destruct (stms lim rest); reflexivity. }
  unfold doc_root in Rr. rewrite Hd, St2 in Rr. destruct (stms lim rest) as [lr|] eqn:Sr; cbn [option_map] in Rr; [|discriminate Rr].
  rewrite (root_then L (SHead false [k] :: lr) eq_refl), Rm in Rr. cbn [run_sections] in Rr. destruct (entries_before lr) as [es r'].
  unfold put_section in Rr. cbn [removelast List.last descend] in Rr.
  assert (Km : exists n, In (k, n) m /\ exists xs, shown n = VArr xs).
  { assert (P : proper_root m).
    { assert (Q : ts_parse (toml_text lim) s = Ok (TvTab (table_entries m))).
      { apply crate_parse. rewrite is_text_app in T. apply andb_true_iff in T as [T _]. split; [exact T|]. exists m. split; [|reflexivity]. unfold doc_root. rewrite unmark_eq.
        destruct s as [|c u]; [rewrite St; exact Rm|]. destruct (Z.eqb_spec c 65279) as [->|Nc]; [rewrite mark_fails in St; discriminate St|]. rewrite St. exact Rm. }
      exact (proj1 (toml_text_tables lim s _ Q)). }
    specialize (S P). inversion S as [? ? ? ? _ _ G _]; subst. rewrite Forall_forall in G. destruct (G _ J) as (xs & A & _). cbn [fst] in A. inversion A as [|? ? z ? ? Hz A']; subst. apply shown_holds in Hz as (n & Jn & ->). inversion A' as [v0 E1 E2|]; subst. eauto. }
  destruct Km as (n & Jn & xs & Sn).
  assert (NDm : NoDup (map fst m)).
  { assert (Q : ts_parse (toml_text lim) s = Ok (TvTab (table_entries m))).
    { apply crate_parse. rewrite is_text_app in T. apply andb_true_iff in T as [T _]. split; [exact T|]. exists m. split; [|reflexivity]. unfold doc_root. rewrite unmark_eq.
      destruct s as [|c u]; [rewrite St; exact Rm|]. destruct (Z.eqb_spec c 65279) as [->|Nc]; [rewrite mark_fails in St; discriminate St|]. rewrite St. exact Rm. }
    pose proof (proj1 (toml_text_tables lim s _ Q)) as P. inversion P as [| | | | | |? N _]; subst. unfold table_entries in N. rewrite map_map in N. exact N. }
  rewrite (alter_none k _ m n (node_in k m n NDm Jn)) in Rr; [discriminate Rr|]. destruct n as [t|i d m'|l0]; [reflexivity | | reflexivity]. unfold shown in Sn. cbn [of_node doc_value] in Sn. discriminate Sn.
Qed.
End Refuse.
