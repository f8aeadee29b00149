(** Tables under construction, seen as what stands at each path (C130, C131). *)
From Coq Require Import ZArith Bool String Lia.
From Coq Require Import List.
Import ListNotations.
From Verif.Model Require Import Text Num Flt Value Toml TomlText.
From Verif.Spec Require Import Spec TomlTextSpec TomlGrammar.
From Verif.Proofs Require Import Basics TomlValues TomlDoc TomlFrame.

Inductive kind := KVal (t : toml_value) | KTab (imp dot : bool) | KArr.
Definition kind_of (n : node) : kind := match n with NVal t => KVal t | NTab i d _ => KTab i d | NArr _ => KArr end.
Fixpoint nkat (n : node) (p : list str) {struct p} : option kind :=
  match p with
  | [] => Some (kind_of n)
  | k :: p' => match n with NTab _ _ m => match mget k m with Some n' => nkat n' p' | None => None end | _ => None end
  end.
Definition kat (m : list (str * node)) (p : list str) : option kind := nkat (NTab false false m) p.

Lemma kat_cons m k p : kat m (k :: p) = match mget k m with Some n => nkat n p | None => None end.
Proof. reflexivity. Qed.
Lemma nkat_tab i d m k p : nkat (NTab i d m) (k :: p) = kat m (k :: p).
Proof. reflexivity. Qed.
Lemma kat_nil k p : kat [] (k :: p) = None.
Proof. reflexivity. Qed.
Lemma nkat_app p : forall n q, q <> [] -> nkat n (p ++ q) <> None -> exists i d, nkat n p = Some (KTab i d).
Proof.
  induction p as [|k p IH]; intros n q Q H.
  - destruct q as [|x q]; [congruence|]. destruct n; cbn in *; try congruence. eauto.
  - destruct n as [t|i d m|l]; cbn [app nkat] in *; try congruence. destruct (mget k m) as [n'|]; [|congruence]. eauto.
Qed.
Lemma kat_app m p q : q <> [] -> kat m (p ++ q) <> None -> exists i d, kat m p = Some (KTab i d).
Proof. apply nkat_app. Qed.
Lemma kat_app_none m p q : kat m p = None -> kat m (p ++ q) = None.
Proof.
  intros E. destruct q as [|x q]; [now rewrite app_nil_r|]. destruct (kat m (p ++ x :: q)) eqn:K; [|reflexivity].
  destruct (kat_app m p (x :: q)) as (i & d & H); congruence.
Qed.

Fixpoint sub (p : list str) (m : list (str * node)) : list (str * node) :=
  match p with
  | [] => m
  | k :: p' => match mget k m with Some (NTab _ _ m') => sub p' m' | _ => [] end
  end.
Lemma sub_kat p : forall m q, q <> [] -> kat (sub p m) q = kat m (p ++ q).
Proof.
  induction p as [|k p IH]; intros m q Q; [reflexivity|]. cbn [sub app]. rewrite kat_cons. destruct (mget k m) as [[t|i d m'|l]|].
  - destruct q as [|x q]; [congruence|]. destruct p; reflexivity.
  - rewrite IH by auto. destruct (p ++ q) as [|x r] eqn:E; [destruct p; [cbn in E; congruence | discriminate E]|]. reflexivity.
  - destruct q as [|x q]; [congruence|]. destruct p; reflexivity.
  - destruct q as [|x q]; [congruence|]. reflexivity.
Qed.

Lemma alter_mget k f m : match alter k f m with
  | Some m' => (exists n, f (mget k m) = Some n /\ mget k m' = Some n) /\ (forall k', k' <> k -> mget k' m' = mget k' m)
  | None => f (mget k m) = None
  end.
Proof.
  induction m as [|[k0 n0] m IH]; cbn [alter mget].
  - destruct (f None) as [n|]; [|reflexivity]. cbn [mget]. rewrite str_eqb_refl. split; [eauto|]. intros k' N. cbn [mget]. destruct (str_eqb k' k) eqn:E; [apply str_eqb_eq in E; congruence | reflexivity].
  - destruct (str_eqb k k0) eqn:E.
    + apply str_eqb_eq in E. subst k0. destruct (f (Some n0)) as [n|]; [|reflexivity]. cbn [mget]. rewrite str_eqb_refl. split; [eauto|].
      intros k' N. cbn [mget]. destruct (str_eqb k' k) eqn:E; [apply str_eqb_eq in E; congruence | reflexivity].
    + destruct (alter k f m) as [m'|]; [|exact IH]. destruct IH as [IH1 IH2]. cbn [mget]. rewrite E. split; [exact IH1|].
      intros k' N. cbn [mget]. destruct (str_eqb k' k0); auto.
Qed.

(** ** Going down *)
Definition passable (dotted : bool) (o : option kind) : Prop := match o with None => True | Some (KTab i _) => dotted = true -> i = true | Some _ => False end.
Definition flag (dotted isdot : bool) (p : list str) (m : list (str * node)) : bool :=
  match p with [] => isdot | _ => match kat m p with Some (KTab _ d) => d | _ => dotted end end.
(** What stands where after the table at p was replaced by m2. *)
Record grafted (dotted : bool) (p : list str) (m m2 m' : list (str * node)) : Prop := {
  gr_in : forall q, q <> [] -> kat m' (p ++ q) = kat m2 q;
  gr_on : forall q r, q <> [] -> p = q ++ r -> kat m' q = Some (match kat m q with Some k => k | None => KTab true dotted end);
  gr_out : forall q, (forall r, p <> q ++ r) -> (forall r, q <> p ++ r) -> kat m' q = kat m q
}.
Definition all_passable (dotted : bool) (p : list str) (m : list (str * node)) : Prop := forall q r, q <> [] -> p = q ++ r -> passable dotted (kat m q).
Definition no_arrays (m : list (str * node)) : Prop := forall q, kat m q <> Some KArr.

Lemma passable_dec dotted o : {passable dotted o} + {~ passable dotted o}.
Proof. destruct o as [[t|i d|]|]; cbn; auto. destruct dotted, i; auto; right; intros H; specialize (H eq_refl); discriminate. Qed.

Lemma graft_cons dotted k p m m' m1 m2 n i d : (mget k m = None /\ m1 = [] /\ i = true /\ d = dotted \/ mget k m = Some (NTab i d m1)) ->
  grafted dotted p m1 m2 n -> mget k m' = Some (NTab i d n) -> (forall k', k' <> k -> mget k' m' = mget k' m) -> grafted dotted (k :: p) m m2 m'.
Proof.
  intros O G H1 H2. constructor.
  - intros q Q. cbn [app]. rewrite kat_cons, H1. destruct (p ++ q) as [|x r] eqn:E; [destruct p; [cbn in E; congruence | discriminate E]|]. rewrite nkat_tab, <- E. now apply G.
  - intros q r Q E. destruct q as [|x q]; [congruence|]. injection E as <- E. rewrite !kat_cons, H1. destruct q as [|y q].
    + cbn [nkat kind_of]. destruct O as [(-> & _ & -> & ->)| ->]; reflexivity.
    + rewrite nkat_tab. rewrite (gr_on _ _ _ _ _ G (y :: q) r) by (auto; discriminate). destruct O as [(-> & -> & -> & ->)| ->]; reflexivity.
  - intros q N1 N2. destruct q as [|x q]; [destruct (N1 (k :: p)); reflexivity|]. rewrite !kat_cons. destruct (list_eq_dec Z.eq_dec x k) as [->|Nk].
    + rewrite H1. destruct q as [|y q]; [destruct (N1 p); reflexivity|]. rewrite nkat_tab. rewrite (gr_out _ _ _ _ _ G).
      * destruct O as [(-> & -> & _)| ->]; reflexivity.
      * intros r E. apply (N1 r). cbn. now rewrite E.
      * intros r E. apply (N2 r). cbn. now rewrite E.
    + now rewrite H2.
Qed.

Lemma descend_kat dotted f p : forall isdot m, no_arrays m ->
  (forall m2, all_passable dotted p m -> f (flag dotted isdot p m) (sub p m) = Some m2 -> exists m', descend dotted p isdot f m = Some m' /\ grafted dotted p m m2 m') /\
  (forall m', descend dotted p isdot f m = Some m' -> all_passable dotted p m /\ exists m2, f (flag dotted isdot p m) (sub p m) = Some m2 /\ grafted dotted p m m2 m').
Proof.
  induction p as [|k p IH]; intros isdot m NA.
  - cbn [descend flag sub].
    assert (G : forall m2, grafted dotted [] m m2 m2).
    { intros m2. constructor; [reflexivity | |].
      - intros q r Q E. destruct q; [congruence | discriminate E].
      - intros q _ N. destruct (N q). reflexivity. }
    split; [intros m2 _ E; eauto|]. intros m' E. split; [|eauto]. intros q r Q E'. destruct q; [congruence | discriminate E'].
  - set (g := fun o => match o with
      | None => option_map (NTab true dotted) (descend dotted p dotted f [])
      | Some (NTab imp dot m') => if dotted && negb imp then None else option_map (NTab imp dot) (descend dotted p dot f m')
      | Some (NArr l) => option_map NArr (on_last (descend dotted p false f) l)
      | Some (NVal _) => None
      end). change (descend dotted (k :: p) isdot f m) with (alter k g m).
    assert (FL : forall i d m1, mget k m = Some (NTab i d m1) -> flag dotted isdot (k :: p) m = flag dotted d p m1).
    { intros i d m1 E. cbn [flag]. rewrite kat_cons, E. destruct p; [reflexivity|]. now rewrite nkat_tab. }
    assert (FN : mget k m = None -> flag dotted isdot (k :: p) m = flag dotted dotted p []).
    { intros E. cbn [flag]. rewrite kat_cons, E. destruct p; reflexivity. }
    assert (NN : no_arrays []) by (intros [|x q]; [discriminate | rewrite kat_nil; discriminate]).
    pose proof (alter_mget k g m) as A. split.
    + intros m2 AP E. destruct (mget k m) as [[t|i d m1|l]|] eqn:K.
      * specialize (AP [k] p ltac:(discriminate) eq_refl). rewrite kat_cons, K in AP. destruct AP.
      * assert (NA1 : no_arrays m1). { intros q. destruct q as [|x q]; [discriminate|]. specialize (NA (k :: x :: q)). now rewrite kat_cons, K, nkat_tab in NA. }
        assert (AP1 : all_passable dotted p m1).
        { intros q r Q Ep. specialize (AP (k :: q) r ltac:(discriminate) ltac:(cbn; now rewrite Ep)). rewrite kat_cons, K in AP. destruct q; [congruence|]. now rewrite nkat_tab in AP. }
        destruct (proj1 (IH d m1 NA1) m2 AP1) as (n & Dn & G). { rewrite <- (FL i d m1 eq_refl). cbn [sub] in E. now rewrite K in E. }
        assert (Pi : dotted = true -> i = true). { specialize (AP [k] p ltac:(discriminate) eq_refl). now rewrite kat_cons, K in AP. }
        assert (Gk : g (Some (NTab i d m1)) = Some (NTab i d n)). { cbn [g]. replace (dotted && negb i) with false by (destruct dotted; [rewrite Pi by reflexivity|]; reflexivity). now rewrite Dn. }
        destruct (alter k g m) as [m'|]; [|congruence]. destruct A as [(n' & E1 & E2) A2]. rewrite Gk in E1. injection E1 as <-. exists m'. split; auto.
        eapply graft_cons; eauto.
      * destruct (NA [k]). now rewrite kat_cons, K.
      * assert (AP1 : all_passable dotted p []). { intros q r Q Ep. destruct q; [congruence|]. now rewrite kat_nil. }
        destruct (proj1 (IH dotted [] NN) m2 AP1) as (n & Dn & G). { rewrite <- FN by reflexivity. cbn [sub] in E. rewrite K in E. destruct p as [|x p]; cbn [sub mget]; exact E. }
        assert (Gk : g None = Some (NTab true dotted n)) by (cbn [g]; now rewrite Dn).
        destruct (alter k g m) as [m'|]; [|congruence]. destruct A as [(n' & E1 & E2) A2]. rewrite Gk in E1. injection E1 as <-. exists m'. split; auto.
        eapply graft_cons with (m1 := []); eauto.
    + intros m' Em. rewrite Em in A. destruct A as [(n' & E1 & E2) A2]. destruct (mget k m) as [[t|i d m1|l]|] eqn:K; cbn [g] in E1.
      * discriminate E1.
      * assert (NA1 : no_arrays m1). { intros q. destruct q as [|x q]; [discriminate|]. specialize (NA (k :: x :: q)). now rewrite kat_cons, K, nkat_tab in NA. }
        destruct (dotted && negb i) eqn:Di; [discriminate E1|]. destruct (descend dotted p d f m1) as [n|] eqn:Dn; [|discriminate E1]. injection E1 as <-.
        destruct (proj2 (IH d m1 NA1) n Dn) as (AP1 & m2 & F2 & G). split.
        { intros q r Q Ep. destruct q as [|x q]; [congruence|]. injection Ep as <- Ep. rewrite kat_cons, K. destruct q as [|y q].
          - cbn. intros ->. destruct i; [reflexivity | discriminate Di].
          - rewrite nkat_tab. apply (AP1 _ r); [discriminate | exact Ep]. }
        exists m2. split; [rewrite (FL i d m1 eq_refl); cbn [sub]; now rewrite K|]. eapply graft_cons; eauto.
      * destruct (NA [k]). now rewrite kat_cons, K.
      * destruct (descend dotted p dotted f []) as [n|] eqn:Dn; [|discriminate E1]. injection E1 as <-.
        destruct (proj2 (IH dotted [] NN) n Dn) as (AP1 & m2 & F2 & G). split.
        { intros q r Q Ep. destruct q as [|x q]; [congruence|]. injection Ep as <- Ep. now rewrite kat_cons, K. }
        exists m2. split; [rewrite FN by reflexivity; cbn [sub]; rewrite K; destruct p; exact F2|]. eapply graft_cons with (m1 := []); eauto.
Qed.

(** ** One entry *)
Definition entry_fits (m : list (str * node)) (d : list str) (k : str) : Prop :=
  all_passable true d m /\ (d <> [] -> kat m d = None \/ exists i, kat m d = Some (KTab i true)) /\ kat m (d ++ [k]) = None.
Record entered (m : list (str * node)) (p : list str) (t : toml_value) (m' : list (str * node)) : Prop := {
  en_at : kat m' p = Some (KVal t);
  en_on : forall q r, q <> [] -> r <> [] -> p = q ++ r -> kat m' q = Some (match kat m q with Some k => k | None => KTab true true end);
  en_out : forall q, (forall r, p <> q ++ r) -> kat m' q = kat m q
}.
Lemma removelast_snoc {A} (d : list A) k : removelast (d ++ [k]) = d.
Proof. apply removelast_last. Qed.
Lemma snoc_split {A} (d : list A) k q r : d ++ [k] = q ++ r -> r <> [] -> exists r', d = q ++ r' /\ r = r' ++ [k].
Proof.
  intros E R. destruct (exists_last R) as (r' & x & ->). rewrite app_assoc in E. apply app_inj_tail in E as [-> ->]. eauto.
Qed.
Lemma In_dec_prefix (p q : list str) : (exists r, q = p ++ r) \/ ~ (exists r, q = p ++ r).
Proof.
  revert q. induction p as [|x p IH]; intros q; [left; exists q; reflexivity|]. destruct q as [|y q]; [right; intros (r & E); discriminate E|].
  destruct (list_eq_dec Z.eq_dec x y) as [->|N]; [|right; intros (r & E); injection E as E _; congruence].
  destruct (IH q) as [(r & ->)|Nq]; [left; exists r; reflexivity | right; intros (r & E); injection E as ->; eauto].
Qed.
Lemma put_entry_kat d k t m : no_arrays m ->
  (entry_fits m d k -> exists m', put_entry d k t m = Some m' /\ entered m (d ++ [k]) t m') /\
  (forall m', put_entry d k t m = Some m' -> entry_fits m d k /\ entered m (d ++ [k]) t m').
Proof.
  intros NA. unfold put_entry. set (f := fun isdot m => if Bool.eqb isdot (match d with [] => true | _ => false end) then None
                    else alter k (fun o => match o with None => Some (NVal t) | Some _ => None end) m).
  destruct (descend_kat true f d false m NA) as [D1 D2].
  assert (Sk : kat m (d ++ [k]) = kat (sub d m) [k]) by (symmetry; now apply sub_kat).
  assert (Al : match alter k (fun o => match o with None => Some (NVal t) | Some _ => None end) (sub d m) with
    | Some m2 => kat m (d ++ [k]) = None /\ mget k m2 = Some (NVal t) /\ (forall k', k' <> k -> mget k' m2 = mget k' (sub d m))
    | None => kat m (d ++ [k]) <> None end).
  { pose proof (alter_mget k (fun o => match o with None => Some (NVal t) | Some _ => None end) (sub d m)) as A.
    rewrite Sk, kat_cons. destruct (mget k (sub d m)) as [n|]; destruct (alter k _ (sub d m)) as [m2|].
    - destruct A as [(n' & A & _) _]. discriminate A.
    - cbn. discriminate.
    - destruct A as [(n' & A & A2) A3]. injection A as <-. auto.
    - discriminate A. }
  assert (Rs : forall m2 m', alter k (fun o => match o with None => Some (NVal t) | Some _ => None end) (sub d m) = Some m2 -> grafted true d m m2 m' -> entered m (d ++ [k]) t m').
  { intros m2 m' E G. rewrite E in Al. destruct Al as (A1 & A2 & A3). constructor.
    - rewrite (gr_in _ _ _ _ _ G) by discriminate. now rewrite kat_cons, A2.
    - intros q r Q R Ep. destruct (snoc_split _ _ _ _ Ep R) as (r' & Ed & _). now apply (gr_on _ _ _ _ _ G q r').
    - intros q N. destruct (In_dec_prefix d q) as [(r & ->)|Np].
      + destruct r as [|x r]; [destruct (N [k]); now rewrite app_nil_r|]. rewrite (gr_in _ _ _ _ _ G) by discriminate.
        rewrite kat_cons. destruct (list_eq_dec Z.eq_dec x k) as [->|Nx].
        * rewrite A2. destruct r as [|y r]; [destruct (N []); now rewrite app_nil_r|]. cbn [nkat]. symmetry. change (d ++ k :: y :: r) with (d ++ [k] ++ y :: r). rewrite app_assoc. now apply kat_app_none.
        * rewrite A3 by auto. rewrite <- (sub_kat d m (x :: r)) by discriminate. now rewrite kat_cons.
      + apply (gr_out _ _ _ _ _ G).
        * intros r Ed. apply (N (r ++ [k])). now rewrite app_assoc, <- Ed.
        * intros r Er. apply Np. eauto. }
  split.
  - intros (P & L & Nn). destruct (alter k _ (sub d m)) as [m2|] eqn:E2; [|congruence].
    destruct (D1 m2 P) as (m' & Em & G).
    { unfold f. assert (Fl : Bool.eqb (flag true false d m) (match d with [] => true | _ => false end) = false).
      { destruct d as [|x d]; [reflexivity|]. unfold flag. destruct (L ltac:(discriminate)) as [->|(i & ->)]; reflexivity. }
      rewrite Fl. exact E2. }
    exists m'. split; auto. eapply Rs; eauto.
  - intros m' Em. destruct (D2 m' Em) as (P & m2 & F2 & G). unfold f in F2. destruct (Bool.eqb (flag true false d m) _) eqn:Fl; [discriminate F2|].
    split; [|eapply Rs; eauto]. split; auto. rewrite F2 in Al. split; [|tauto]. intros Nd. destruct d as [|x d]; [congruence|]. unfold flag in Fl.
    pose proof (P (x :: d) [] ltac:(discriminate) ltac:(now rewrite app_nil_r)) as Pd. destruct (kat m (x :: d)) as [[u|i b|]|]; [destruct Pd | | destruct Pd | now left]. right. destruct b; [eauto | discriminate Fl].
Qed.

(** ** All entries of a table *)
Definition ppaths (l : list (list str * toml_value)) : Prop := forall p t, In (p, t) l -> p <> [].
Definition all_apart {A} (l : list (list str * A)) : Prop := ForallOrdPairs (fun a b => apart (fst a) (fst b)) l.
Definition on_way (l : list (list str * toml_value)) (q : list str) : Prop := exists p t, In (p, t) l /\ begins q p.
Lemma on_way_dec l q : on_way l q \/ ~ on_way l q.
Proof.
  induction l as [|[p t] l [IH|IH]]; [right; intros (p & t & [] & _) | left; destruct IH as (p' & t' & I & B); exists p', t'; split; [now right | auto]|].
  destruct (In_dec_prefix q p) as [H|H]; [left; exists p, t; split; [now left | exact H]|]. right. intros (p' & t' & [[= <- <-]|I] & B); [auto|]. apply IH. exists p', t'. auto.
Qed.
Record filled (l : list (list str * toml_value)) (m m' : list (str * node)) : Prop := {
  fi_at : forall p t, In (p, t) l -> kat m' p = Some (KVal t);
  fi_on : forall p t q r, In (p, t) l -> q <> [] -> r <> [] -> p = q ++ r -> kat m' q = Some (KTab true true);
  fi_out : forall q, ~ on_way l q -> kat m' q = kat m q
}.
Definition open_way (m : list (str * node)) (p : list str) : Prop :=
  kat m p = None /\ forall q r, q <> [] -> r <> [] -> p = q ++ r -> kat m q = None \/ kat m q = Some (KTab true true).
Lemma open_fits m d k : open_way m (d ++ [k]) -> entry_fits m d k.
Proof.
  intros [O1 O2]. split; [|split; [|exact O1]].
  - intros q r Q ->. destruct (O2 q (r ++ [k]) Q) as [->| ->]; [destruct r; discriminate | now rewrite app_assoc | exact I | cbn; auto].
  - intros D. destruct (O2 d [k] D ltac:(discriminate) eq_refl) as [->| ->]; eauto.
Qed.
Lemma entered_arrays m p t m' : no_arrays m -> entered m p t m' -> no_arrays m'.
Proof.
  intros NA E q. destruct q as [|x q]; [discriminate|]. destruct (In_dec_prefix (x :: q) p) as [(r & ->)|N].
  - destruct r as [|y r].
    + rewrite app_nil_r in E. rewrite (en_at _ _ _ _ E). discriminate.
    + rewrite (en_on _ _ _ _ E (x :: q) (y :: r)) by (auto; discriminate). specialize (NA (x :: q)). destruct (kat m (x :: q)); congruence.
  - rewrite (en_out _ _ _ _ E); [apply NA|]. intros r ->. apply N. exists r. reflexivity.
Qed.
Lemma entries_ok l : forall m, no_arrays m -> ppaths l -> all_apart l -> (forall p t, In (p, t) l -> open_way m p) ->
  exists m', put_entries l m = Some m' /\ filled l m m' /\ no_arrays m'.
Proof.
  induction l as [|[p t] l IH]; intros m NA PP AA O.
  - exists m. split; [reflexivity|]. split; auto. constructor; [intros p t [] | intros p t q r [] | reflexivity].
  - destruct (exists_last (PP p t ltac:(now left))) as (d & k & ->). cbn [put_entries]. rewrite removelast_last, last_last.
    destruct (put_entry_kat d k t m NA) as [E1 _]. destruct (E1 (open_fits _ _ _ (O _ _ ltac:(now left)))) as (m1 & -> & E).
    pose proof (entered_arrays _ _ _ _ NA E) as NA1. inversion AA as [|? ? A1 A2]; subst. rewrite Forall_forall in A1.
    destruct (IH m1) as (m' & -> & F & NA2); auto.
    { intros p' t' I. apply (PP p' t'). now right. }
    { intros p' t' I. destruct (O p' t' ltac:(now right)) as [O1 O2]. destruct (A1 _ I) as [B1 B2]. cbn [fst] in B1, B2. split.
      - rewrite (en_out _ _ _ _ E); auto. intros r Er. apply B2. exists r. exact Er.
      - intros q r Q R ->. destruct (In_dec_prefix q (d ++ [k])) as [(r' & Er)|N].
        + destruct r' as [|x r']; [destruct B1; exists r; now rewrite Er, app_nil_r|]. rewrite (en_on _ _ _ _ E q (x :: r') Q ltac:(discriminate) Er).
          destruct (O2 q r Q R eq_refl) as [->| ->]; auto.
        + rewrite (en_out _ _ _ _ E); [now apply (O2 q r)|]. intros r' Er. apply N. eauto. }
    exists m'. split; auto. split; auto. constructor.
    + intros p' t' [[= <- <-]|I]; [|now apply F]. rewrite (fi_out _ _ _ F); [apply E|]. intros (p2 & t2 & I2 & B). destruct (A1 _ I2) as [X _]. exact (X B).
    + intros p' t' q r [[= <- <-]|I] Q R Ep; [|now apply (fi_on _ _ _ F p' t' q r)]. destruct (on_way_dec l q) as [(p2 & t2 & I2 & (r2 & ->))|N].
      * destruct r2 as [|y r2]; [destruct (A1 _ I2) as [_ B]; destruct B; exists r; cbn; now rewrite app_nil_r|].
        now apply (fi_on _ _ _ F _ t2 q (y :: r2) I2 Q).
      * rewrite (fi_out _ _ _ F) by exact N. rewrite (en_on _ _ _ _ E q r Q R Ep). destruct (O _ _ (or_introl eq_refl)) as [_ O2].
        destruct (O2 q r Q R Ep) as [->| ->]; reflexivity.
    + intros q N. rewrite (fi_out _ _ _ F). * apply E. intros r Er. apply N. exists (d ++ [k]), t. split; [now left | exists r; exact Er].
      * intros (p2 & t2 & I2 & B). apply N. exists p2, t2. split; [now right | exact B].
Qed.

(** What success tells. *)
Definition keeps (m m' : list (str * node)) : Prop := forall q k, kat m q = Some k -> kat m' q = Some k.
Lemma entered_keeps m p t m' : kat m p = None -> entered m p t m' -> keeps m m'.
Proof.
  intros N E q k K. destruct (In_dec_prefix q p) as [(r & ->)|Np].
  - destruct r as [|x r]; [rewrite app_nil_r in N; congruence|]. destruct q as [|y q]; [exact K|]. rewrite (en_on _ _ _ _ E (y :: q) (x :: r)) by (auto; discriminate). now rewrite K.
  - rewrite (en_out _ _ _ _ E); [exact K|]. intros r ->. apply Np. eexists; reflexivity.
Qed.
Definition not_val (o : option kind) : Prop := forall t, o <> Some (KVal t).
Lemma entries_inv l : forall m m', no_arrays m -> ppaths l -> put_entries l m = Some m' ->
  all_apart l /\ keeps m m' /\ no_arrays m' /\
  (forall p t, In (p, t) l -> kat m p = None /\ kat m' p = Some (KVal t) /\ forall q, begins q p -> not_val (kat m q)).
Proof.
  induction l as [|[p t] l IH]; intros m m' NA PP E.
  - injection E as <-. split; [constructor|]. split; [intros q k K; exact K|]. split; auto. intros p t [].
  - destruct (exists_last (PP p t ltac:(now left))) as (d & k & ->). cbn [put_entries] in E. rewrite removelast_last, last_last in E.
    destruct (put_entry d k t m) as [m1|] eqn:E1; [|discriminate E]. destruct (put_entry_kat d k t m NA) as [_ E2]. destruct (E2 m1 E1) as ((Pa & _ & Nn) & En).
    pose proof (entered_arrays _ _ _ _ NA En) as NA1. pose proof (entered_keeps _ _ _ _ Nn En) as K1.
    destruct (IH m1 m' NA1 ltac:(intros p' t' I; apply (PP p' t'); now right) E) as (AA & K2 & NA2 & F).
    assert (Bp : forall q, begins q (d ++ [k]) -> not_val (kat m q)).
    { intros q (r & Er) u. destruct r as [|x r]; [rewrite app_nil_r in Er; subst q; rewrite Nn; discriminate|].
      destruct (snoc_split _ _ _ _ Er ltac:(discriminate)) as (r' & -> & _). destruct q as [|y q]; [discriminate|].
      specialize (Pa (y :: q) r' ltac:(discriminate) eq_refl). destruct (kat m (y :: q)) as [[u'|i dd|]|]; try discriminate. destruct Pa. }
    split; [|split; [|split; [exact NA2|]]].
    + constructor; [|exact AA]. apply Forall_forall. intros [p' t'] I. cbn [fst]. destruct (F p' t' I) as (F1 & F2 & F3). split.
      * intros B. apply (F3 _ B t). apply En.
      * intros (r & Er). destruct r as [|x r].
        { rewrite app_nil_r in Er. subst p'. rewrite (en_at _ _ _ _ En) in F1. discriminate F1. }
        assert (p' <> []) by (apply (PP p' t'); now right). rewrite (en_on _ _ _ _ En p' (x :: r)) in F1; auto; discriminate.
    + intros q kk H. auto.
    + intros p' t' [[= <- <-]|I].
      * split; [exact Nn|]. split; [apply K2, En | exact Bp].
      * destruct (F p' t' I) as (F1 & F2 & F3). split; [|split; [exact F2|]].
        -- destruct (kat m p') as [kk|] eqn:K; [|reflexivity]. apply K1 in K. congruence.
        -- intros q B u Ku. apply (F3 q B u). now apply K1.
Qed.

(** ** One table with a header *)
Record opened (h : list str) (m m1 m' : list (str * node)) : Prop := {
  op_in : forall q, q <> [] -> kat m' (h ++ q) = kat m1 q;
  op_at : kat m' h = Some (KTab false false);
  op_on : forall q r, q <> [] -> r <> [] -> h = q ++ r -> kat m' q = Some (match kat m q with Some k => k | None => KTab true false end);
  op_out : forall q, ~ begins q h -> ~ begins h q -> kat m' q = kat m q
}.
Definition header_fits (m : list (str * node)) (h : list str) : Prop :=
  (forall q, begins q h -> not_val (kat m q)) /\ (kat m h = None \/ kat m h = Some (KTab true false)).
Lemma sub_snoc d k m : sub (d ++ [k]) m = match mget k (sub d m) with Some (NTab _ _ m') => m' | _ => [] end.
Proof. revert m. induction d as [|x d IH]; intros m; [reflexivity|]. cbn [app sub]. destruct (mget x m) as [[t|i b m'|l]|]; try reflexivity. apply IH. Qed.
Lemma put_section_kat h l m : h <> [] -> no_arrays m ->
  (forall m1, header_fits m h -> put_entries l (sub h m) = Some m1 -> exists m', put_section false h l m = Some m' /\ opened h m m1 m') /\
  (forall m', put_section false h l m = Some m' -> header_fits m h /\ exists m1, put_entries l (sub h m) = Some m1 /\ opened h m m1 m').
Proof.
  intros Hn NA. destruct (exists_last Hn) as (d & k & ->). clear Hn. unfold put_section. rewrite removelast_last, last_last.
  set (g := fun o => match o with
        | None => option_map (NTab false false) (put_entries l [])
        | Some (NTab true false m0) => option_map (NTab false false) (put_entries l m0)
        | Some _ => None
        end).
  change (descend false d false _ m) with (descend false d false (fun (_ : bool) m => alter k g m) m).
  destruct (descend_kat false (fun _ m => alter k g m) d false m NA) as [D1 D2]. cbv beta in D1, D2.
  assert (Sk : kat m (d ++ [k]) = match mget k (sub d m) with Some n => Some (kind_of n) | None => None end).
  { rewrite <- (sub_kat d m [k]) by discriminate. rewrite kat_cons. now destruct (mget k (sub d m)). }
  assert (Ap : all_passable false d m <-> forall q, begins q d -> not_val (kat m q)).
  { split.
    - intros P q (r & ->) t. destruct q as [|x q]; [discriminate|]. specialize (P (x :: q) r ltac:(discriminate) eq_refl). destruct (kat m (x :: q)) as [[u|i b|]|]; try discriminate. destruct P.
    - intros P q r Q ->. specialize (P q (ex_intro _ r eq_refl)). specialize (NA q). destruct (kat m q) as [[u|i b|]|]; cbn; [destruct (P u); reflexivity | discriminate | congruence | exact I]. }
  assert (Bh : header_fits m (d ++ [k]) <-> all_passable false d m /\ (kat m (d ++ [k]) = None \/ kat m (d ++ [k]) = Some (KTab true false))).
  { unfold header_fits. rewrite Ap. split; intros [P Q]; (split; [|exact Q]).
    - intros q (r & ->). apply P. exists (r ++ [k]). now rewrite app_assoc.
    - intros q (r & Er). destruct r as [|x r].
      + rewrite app_nil_r in Er. subst q. destruct Q as [->| ->]; discriminate.
      + destruct (snoc_split _ _ _ _ Er ltac:(discriminate)) as (r' & -> & _). apply P. eexists; reflexivity. }
  assert (Al : forall m2, alter k g (sub d m) = Some m2 <-> (kat m (d ++ [k]) = None \/ kat m (d ++ [k]) = Some (KTab true false)) /\ alter k g (sub d m) = Some m2 /\
     exists m1, put_entries l (sub (d ++ [k]) m) = Some m1 /\ mget k m2 = Some (NTab false false m1) /\ forall k', k' <> k -> mget k' m2 = mget k' (sub d m)).
  { intros m2. split; [|tauto]. intros E. pose proof (alter_mget k g (sub d m)) as A. rewrite E in A. destruct A as [(n & A1 & A2) A3]. rewrite Sk, sub_snoc.
    destruct (mget k (sub d m)) as [[t|[|] [|] m0|ll]|]; cbn [g] in A1; try discriminate A1.
    - destruct (put_entries l m0) as [m1|]; [|discriminate A1]. injection A1 as <-. split; [now right|]. eauto 6.
    - destruct (put_entries l []) as [m1|]; [|discriminate A1]. injection A1 as <-. split; [now left|]. eauto 6. }
  assert (As : forall m1, (kat m (d ++ [k]) = None \/ kat m (d ++ [k]) = Some (KTab true false)) -> put_entries l (sub (d ++ [k]) m) = Some m1 -> exists m2, alter k g (sub d m) = Some m2).
  { intros m1 O E. pose proof (alter_mget k g (sub d m)) as A. destruct (alter k g (sub d m)) as [m2|]; [eauto|]. exfalso. rewrite Sk in O. rewrite sub_snoc in E.
    destruct (mget k (sub d m)) as [[t|i b m0|ll]|]; cbn [kind_of] in O; destruct O as [O|O]; try discriminate O.
    - injection O as -> ->. cbn [g] in A. now rewrite E in A.
    - cbn [g] in A. now rewrite E in A. }
  assert (Gr : forall m1 m2 m', put_entries l (sub (d ++ [k]) m) = Some m1 -> mget k m2 = Some (NTab false false m1) -> (forall k', k' <> k -> mget k' m2 = mget k' (sub d m)) ->
     grafted false d m m2 m' -> opened (d ++ [k]) m m1 m').
  { intros m1 m2 m' E M1 M2 G. constructor.
    - intros q Q. rewrite <- app_assoc. cbn [app]. rewrite (gr_in _ _ _ _ _ G) by discriminate. rewrite kat_cons, M1. destruct q; [congruence | reflexivity].
    - rewrite (gr_in _ _ _ _ _ G) by discriminate. now rewrite kat_cons, M1.
    - intros q r Q R Er. destruct (snoc_split _ _ _ _ Er R) as (r' & Ed & _). now apply (gr_on _ _ _ _ _ G q r').
    - intros q N1 N2. destruct (In_dec_prefix d q) as [(r & ->)|Nd].
      + destruct r as [|x r]; [destruct N1; exists [k]; now rewrite app_nil_r|]. rewrite (gr_in _ _ _ _ _ G) by discriminate. rewrite <- (sub_kat d m (x :: r)) by discriminate.
        rewrite !kat_cons. destruct (list_eq_dec Z.eq_dec x k) as [->|Nx]; [destruct N2; exists r; now rewrite <- app_assoc|]. now rewrite M2.
      + apply (gr_out _ _ _ _ _ G); [|intros r ->; apply Nd; eexists; reflexivity]. intros r ->. apply N1. exists (r ++ [k]). now rewrite app_assoc. }
  split.
  - intros m1 H E. apply Bh in H as [P O]. destruct (As m1 O E) as (m2 & E2). destruct (D1 m2 P E2) as (m' & Em & G). exists m'. split; [exact Em|].
    apply Al in E2 as (_ & _ & m1' & E1 & M1 & M2). assert (m1' = m1) by congruence. subst m1'. eauto.
  - intros m' Em. destruct (D2 m' Em) as (P & m2 & E2 & G). apply Al in E2 as (O & _ & m1 & E1 & M1 & M2). split; [apply Bh; auto|]. eauto.
Qed.
Lemma sub_arrays h m : no_arrays m -> no_arrays (sub h m).
Proof. intros NA q. destruct q as [|x q]; [discriminate|]. rewrite sub_kat by discriminate. apply NA. Qed.
Lemma opened_arrays h m m1 m' : no_arrays m -> no_arrays m1 -> opened h m m1 m' -> no_arrays m'.
Proof.
  intros NA NA1 O q. destruct (In_dec_prefix q h) as [(r & ->)|N1].
  - destruct r as [|x r]; [rewrite app_nil_r in O; rewrite (op_at _ _ _ _ O); discriminate|]. destruct q as [|y q]; [discriminate|].
    rewrite (op_on _ _ _ _ O (y :: q) (x :: r)) by (auto; discriminate). specialize (NA (y :: q)). destruct (kat m (y :: q)); congruence.
  - destruct (In_dec_prefix h q) as [(r & ->)|N2].
    + destruct r as [|x r]; [destruct N1; exists []; now rewrite !app_nil_r|]. rewrite (op_in _ _ _ _ O) by discriminate. apply NA1.
    + rewrite (op_out _ _ _ _ O); auto.
Qed.
