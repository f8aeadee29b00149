(** Documents of tables (C130, C131). *)
From Coq Require Import ZArith Bool String Lia.
From Coq Require Import List.
Import ListNotations.
From Verif.Model Require Import Text Num Flt Value Toml TomlText.
From Verif.Spec Require Import Spec TomlTextSpec TomlGrammar.
From Verif.Proofs Require Import Basics TomlValues TomlDoc TomlFrame TomlKinds.

Definition tdoc := list (list str * list (list str * toml_value)).
Fixpoint run_tables (ts : tdoc) (m : list (str * node)) : option (list (str * node)) :=
  match ts with
  | [] => Some m
  | (h, l) :: ts' => match put_section false h l m with Some m' => run_tables ts' m' | None => None end
  end.
Definition doc_paths (D : tdoc) : list (list str) := flat_map (fun t => map (fun e => fst t ++ fst e) (snd t)) D.
Record tclear (D : tdoc) : Prop := {
  tc_apart : ForallOrdPairs apart (doc_paths D);
  tc_heads : NoDup (map fst D);
  tc_leaf : forall p es x t h hs, In (p, es) D -> In (x, t) es -> In (h, hs) D -> h <> [] -> ~ begins (p ++ x) h;
  tc_dots : forall p es d r t h hs, In (p, es) D -> In (d ++ r, t) es -> d <> [] -> r <> [] -> In (h, hs) D -> h <> [] -> ~ begins (p ++ d) h;
  tc_some : forall p es x t, In (p, es) D -> In (x, t) es -> x <> []
}.
Record tinv (P : tdoc) (m : list (str * node)) : Prop := {
  ti_leaf : forall p es x t, In (p, es) P -> In (x, t) es -> kat m (p ++ x) = Some (KVal t);
  ti_head : forall p es, In (p, es) P -> kat m p = Some (KTab false false);
  ti_dots : forall p es d r t, In (p, es) P -> In (d ++ r, t) es -> d <> [] -> r <> [] -> kat m (p ++ d) = Some (KTab true true);
  ti_way : forall p es q, In (p, es) P -> begins q p -> (forall qs, ~ In (q, qs) P) -> kat m q = Some (KTab true false);
  ti_only : forall q k, kat m q = Some k -> exists p es, In (p, es) P /\ (begins q p \/ exists x t, In (x, t) es /\ begins q (p ++ x));
  ti_arr : no_arrays m
}.
Lemma pairs_app {A} (R : A -> A -> Prop) (l1 l2 : list A) : ForallOrdPairs R (l1 ++ l2) -> ForallOrdPairs R l1 /\ ForallOrdPairs R l2 /\ forall x y, In x l1 -> In y l2 -> R x y.
Proof.
  induction l1 as [|a l1 IH]; intros H; [split; [constructor|]; split; [exact H | intros x y []]|]. inversion H as [|? ? H1 H2]; subst. rewrite Forall_app in H1. destruct H1 as [H1 H3].
  destruct (IH H2) as (A1 & A2 & A3). rewrite Forall_forall in H3. split; [now constructor|]. split; auto. intros x y [<-|I] J; auto.
Qed.
Lemma pairs_map {A B} (f : A -> B) (R : B -> B -> Prop) (l : list A) : ForallOrdPairs R (map f l) <-> ForallOrdPairs (fun a b => R (f a) (f b)) l.
Proof.
  induction l as [|a l IH]; cbn [map]; split; intros H; try constructor; inversion H as [|? ? H1 H2]; subst; try (now apply IH).
  - rewrite Forall_forall in *. intros x I. apply H1. now apply in_map.
  - rewrite Forall_forall in *. intros x I. apply in_map_iff in I as (y & <- & I). auto.
Qed.
Lemma pairs_impl {A} (R S : A -> A -> Prop) l : (forall a b, R a b -> S a b) -> ForallOrdPairs R l -> ForallOrdPairs S l.
Proof. intros H F. induction F as [|a l F1 F2 IH]; constructor; auto. rewrite Forall_forall in *. auto. Qed.
Lemma begins_refl {A} (p : list A) : begins p p.
Proof. exists []. now rewrite app_nil_r. Qed.
Lemma begins_app {A} (p q : list A) : begins p (p ++ q).
Proof. eexists; reflexivity. Qed.
Lemma begins_trans {A} (p q r : list A) : begins p q -> begins q r -> begins p r.
Proof. intros (a & ->) (b & ->). exists (a ++ b). now rewrite app_assoc. Qed.
(** Two paths that begin the same path. *)
Lemma begins_split {A} (p q x y : list A) : p ++ x = q ++ y -> (exists e, q = p ++ e /\ x = e ++ y) \/ (exists e, p = q ++ e /\ y = e ++ x).
Proof.
  revert q. induction p as [|a p IH]; intros q E; [left; exists q; auto|]. destruct q as [|b q]; [right; exists (a :: p); auto|].
  injection E as <- E. destruct (IH q E) as [(e & -> & ->)|(e & -> & ->)]; [left | right]; exists e; auto.
Qed.
Lemma begins_into {A} (q p x : list A) : begins q (p ++ x) -> begins q p \/ exists d r, d <> [] /\ q = p ++ d /\ x = d ++ r.
Proof.
  intros (r & E). destruct (begins_split _ _ _ _ E) as [(e & -> & ->)|(e & -> & ->)].
  - destruct e as [|a e]; [left; rewrite app_nil_r; apply begins_refl|]. right. exists (a :: e), r. repeat split. discriminate.
  - left. apply begins_app.
Qed.
Lemma apart_under h a b : apart (h ++ a) (h ++ b) -> apart a b.
Proof. intros [H1 H2]. split; intros (r & ->); [apply H1 | apply H2]; exists r; now rewrite app_assoc. Qed.
Lemma doc_paths_app a b : doc_paths (a ++ b) = doc_paths a ++ doc_paths b.
Proof. apply flat_map_app. Qed.
Lemma in_doc_paths D p es x t : In (p, es) D -> In (x, t) es -> In (p ++ x) (doc_paths D).
Proof. intros I J. unfold doc_paths. apply in_flat_map. exists (p, es). split; auto. apply in_map_iff. exists (x, t). auto. Qed.

Lemma table_ok P h es ts m : h <> [] -> tclear (P ++ (h, es) :: ts) -> tinv P m ->
  exists m', put_section false h es m = Some m' /\ tinv (P ++ [(h, es)]) m'.
Proof.
  intros Hn C I. set (D := P ++ (h, es) :: ts) in *.
  assert (InP : forall p l, In (p, l) P -> In (p, l) D) by (intros; apply in_or_app; now left).
  assert (InH : In (h, es) D) by (apply in_or_app; right; now left).
  assert (HnP : forall l, ~ In (h, l) P).
  { intros l J. pose proof (tc_heads _ C) as N. unfold D in N. rewrite map_app in N. cbn [map fst] in N. apply NoDup_remove_2 in N. apply N. apply in_or_app. left. apply in_map_iff. exists (h, l). auto. }
  assert (Cross : forall p l x t y u, In (p, l) P -> In (x, t) l -> In (y, u) es -> apart (p ++ x) (h ++ y)).
  { intros p l x t y u J1 J2 J3. pose proof (tc_apart _ C) as A. unfold D in A. rewrite doc_paths_app in A. apply pairs_app in A as (_ & _ & A). apply A; [eapply in_doc_paths; eauto|].
    eapply in_doc_paths; [now left | exact J3]. }
  assert (Own : all_apart es).
  { pose proof (tc_apart _ C) as A. unfold D in A. rewrite doc_paths_app in A. apply pairs_app in A as (_ & A & _). cbn [doc_paths flat_map] in A. apply pairs_app in A as (A & _). cbn [fst snd] in A.
    rewrite pairs_map in A. revert A. apply pairs_impl. intros a b. apply apart_under. }
  (* what stands on the way to h *)
  assert (Way : forall q k, begins q h -> kat m q = Some k -> exists p l, In (p, l) P /\ begins q p).
  { intros q k B K. destruct (ti_only _ _ I q k K) as (p & l & J & [B'|(x & t & Jx & B')]); [eauto|].
    destruct (begins_into _ _ _ B') as [B2|(d & r & Nd & -> & ->)]; [eauto|]. exfalso. destruct r as [|a r].
    - rewrite app_nil_r in Jx. exact (tc_leaf _ C _ _ _ _ _ _ (InP _ _ J) Jx InH Hn B).
    - exact (tc_dots _ C _ _ d (a :: r) t _ _ (InP _ _ J) Jx Nd ltac:(discriminate) InH Hn B). }
  assert (Way2 : forall q k, begins q h -> kat m q = Some k -> (exists l, In (q, l) P) \/ k = KTab true false).
  { intros q k B K. destruct (Way q k B K) as (p & l & J & B'). destruct (In_dec (list_eq_dec (list_eq_dec Z.eq_dec)) q (map fst P)) as [Iq|Nq].
    - left. apply in_map_iff in Iq as ([q' l'] & <- & Iq). cbn. eauto.
    - right. rewrite (ti_way _ _ I p l q J B') in K; [congruence|]. intros qs Jq. apply Nq. apply in_map_iff. exists (q, qs). auto. }
  (* nothing stands below h where the new entries go *)
  assert (Fresh : forall y d r u, In (y, u) es -> y = d ++ r -> d <> [] -> kat m (h ++ d) = None).
  { intros y d r u Jy -> Nd. destruct (kat m (h ++ d)) as [k|] eqn:K; [|reflexivity]. exfalso. destruct (ti_only _ _ I _ _ K) as (p & l & J & [B|(x & t & Jx & B)]).
    - assert (p <> []) by (destruct B as (z & ->); destruct h; [congruence | discriminate]). destruct r as [|a r].
      + rewrite app_nil_r in Jy. exact (tc_leaf _ C _ _ _ _ _ _ InH Jy (InP _ _ J) H B).
      + exact (tc_dots _ C _ _ d (a :: r) u _ _ InH Jy Nd ltac:(discriminate) (InP _ _ J) H B).
    - destruct r as [|a r].
      + rewrite app_nil_r in Jy. destruct (Cross _ _ _ _ _ _ J Jx Jy) as [_ X]. exact (X B).
      + destruct (begins_into _ _ _ B) as [B2|(d' & r' & Nd' & E & ->)].
        * assert (p <> []) by (destruct B2 as (z & ->); destruct h; [congruence | discriminate]). exact (tc_dots _ C _ _ d (a :: r) u _ _ InH Jy Nd ltac:(discriminate) (InP _ _ J) H B2).
        * destruct (begins_split _ _ _ _ E) as [(e & -> & ->)|(e & Eh & ->)].
          -- destruct e as [|b e]; [rewrite app_nil_r in J; exact (HnP _ J)|]. rewrite <- app_assoc in Jy.
             refine (tc_dots _ C _ _ (b :: e) (d' ++ a :: r) u _ _ InH Jy ltac:(discriminate) _ (InP _ _ J) _ (begins_refl _)); [destruct d'; discriminate | destruct h; discriminate].
          -- destruct e as [|b e]; [rewrite app_nil_r in Eh; subst p; exact (HnP _ J)|]. rewrite <- app_assoc in Jx.
             refine (tc_dots _ C _ _ (b :: e) (d ++ r') t _ _ (InP _ _ J) Jx ltac:(discriminate) _ InH Hn _); [destruct d; [congruence | discriminate] | rewrite Eh; apply begins_refl]. }
  assert (HF : header_fits m h).
  { split.
    - intros q B t K. destruct (Way2 q _ B K) as [(l & J)|J]; [|discriminate J]. rewrite (ti_head _ _ I _ _ J) in K. discriminate K.
    - destruct (kat m h) as [k|] eqn:K; [right | now left]. destruct (Way2 h k (begins_refl h) K) as [(l & J)| ->]; [destruct (HnP _ J) | reflexivity]. }
  destruct (entries_ok es (sub h m) (sub_arrays h m (ti_arr _ _ I))) as (m1 & E1 & F & NA1); auto.
  { intros p t J. eapply (tc_some _ C); eauto. }
  { intros p t J. assert (Np : p <> []) by (eapply (tc_some _ C); eauto). split.
    - rewrite sub_kat by exact Np. apply (Fresh p p [] t J); [now rewrite app_nil_r | exact Np].
    - intros q r Q R ->. left. rewrite sub_kat by exact Q. now apply (Fresh (q ++ r) q r t). }
  destruct (proj1 (put_section_kat h es m Hn (ti_arr _ _ I)) m1 HF E1) as (m' & Em & O). exists m'. split; [exact Em|].
  (* what is unchanged *)
  assert (Same : forall q k, kat m q = Some k -> ~ (exists y u, In (y, u) es /\ begins q (h ++ y) /\ ~ begins q h) -> q <> h -> kat m' q = Some k).
  { intros q k K N Nh. destruct (In_dec_prefix q h) as [(r & ->)|N1].
    - destruct r as [|a r]; [rewrite app_nil_r in Nh; congruence|]. destruct q as [|b q]; [exact K|]. rewrite (op_on _ _ _ _ O (b :: q) (a :: r)) by (auto; discriminate). now rewrite K.
    - destruct (In_dec_prefix h q) as [(r & ->)|N2]; [|rewrite (op_out _ _ _ _ O); auto].
      destruct r as [|a r]; [rewrite app_nil_r in Nh; congruence|]. rewrite (op_in _ _ _ _ O) by discriminate. rewrite (fi_out _ _ _ F); [now rewrite sub_kat by discriminate|].
      intros (y & u & Jy & (z & ->)). apply N. exists ((a :: r) ++ z), u. split; [exact Jy|]. split; [rewrite app_assoc; apply begins_app | exact N1]. }
  assert (NoWay : forall p l q, In (p, l) P -> begins q p -> ~ exists y u, In (y, u) es /\ begins q (h ++ y) /\ ~ begins q h).
  { intros p l q J B (y & u & Jy & B2 & Nq). destruct (begins_into _ _ _ B2) as [B3|(d & r & Nd & -> & ->)]; [auto|].
    assert (p <> []) by (destruct B as (z & ->); destruct h; [congruence | discriminate]). destruct r as [|a r].
    - rewrite app_nil_r in Jy. exact (tc_leaf _ C _ _ _ _ _ _ InH Jy (InP _ _ J) H B).
    - exact (tc_dots _ C _ _ d (a :: r) u _ _ InH Jy Nd ltac:(discriminate) (InP _ _ J) H B). }
  constructor.
  - intros p l x t J Jx. apply in_app_or in J as [J|[[= <- <-]|[]]].
    + apply (Same _ _ (ti_leaf _ _ I _ _ _ _ J Jx)).
      * intros (y & u & Jy & B & _). destruct (Cross _ _ _ _ _ _ J Jx Jy) as [X _]. exact (X B).
      * intros E. apply (tc_leaf _ C _ _ _ _ _ _ (InP _ _ J) Jx InH Hn). rewrite E. apply begins_refl.
    + rewrite (op_in _ _ _ _ O) by (eapply (tc_some _ C); eauto). now apply F.
  - intros p l J. apply in_app_or in J as [J|[[= <- <-]|[]]]; [|apply O].
    apply (Same _ _ (ti_head _ _ I _ _ J)); [apply (NoWay _ _ _ J (begins_refl p)) | intros ->; exact (HnP _ J)].
  - intros p l d r t J Jd Nd Nr. apply in_app_or in J as [J|[[= <- <-]|[]]].
    + assert (Hd : p ++ d <> h). { intros E. apply (tc_dots _ C _ _ d r t _ _ (InP _ _ J) Jd Nd Nr InH Hn). rewrite E. apply begins_refl. }
      destruct (In_dec_prefix h (p ++ d)) as [(z & E)|N].
      * destruct z as [|a z]; [rewrite app_nil_r in E; congruence|]. rewrite E. rewrite (op_in _ _ _ _ O) by discriminate. destruct (on_way_dec es (a :: z)) as [(y & u & Jy & (w & ->))|Nw].
        -- destruct w as [|b w]; [|now apply (fi_on _ _ _ F _ u (a :: z) (b :: w) Jy)]. exfalso. rewrite app_nil_r in Jy.
           destruct (Cross _ _ _ _ _ _ J Jd Jy) as [_ X]. apply X. rewrite <- E, app_assoc. apply begins_app.
        -- rewrite (fi_out _ _ _ F) by exact Nw. rewrite sub_kat by discriminate. rewrite <- E. exact (ti_dots _ _ I _ _ _ _ _ J Jd Nd Nr).
      * apply (Same _ _ (ti_dots _ _ I _ _ _ _ _ J Jd Nd Nr)); [|exact Hd]. intros (y & u & Jy & B & Nb). destruct (begins_into _ _ _ B) as [B2|(e & w & _ & E & _)]; [auto|]. apply N. exists e. exact E.
    + rewrite (op_in _ _ _ _ O) by exact Nd. now apply (fi_on _ _ _ F _ t d r Jd).
  - intros p l q J B N. assert (NP : forall qs, ~ In (q, qs) P) by (intros qs Jq; apply (N qs), in_or_app; now left).
    assert (Nh : q <> h) by (intros ->; apply (N es), in_or_app; right; now left).
    apply in_app_or in J as [J|[[= <- <-]|[]]].
    + apply (Same _ _ (ti_way _ _ I p l q J B NP)); [apply (NoWay _ _ _ J B) | exact Nh].
    + destruct B as (r & Er). destruct r as [|a r]; [rewrite app_nil_r in Er; congruence|]. destruct (kat m q) as [k|] eqn:K.
      * destruct (Way2 q k (ex_intro _ (a :: r) Er) K) as [(qs & Jq)| ->]; [destruct (NP _ Jq)|]. apply (Same _ _ K); [|exact Nh].
        intros (y & u & Jy & _ & Nb). apply Nb. eexists; exact Er.
      * destruct q as [|b q]; [discriminate K|]. rewrite (op_on _ _ _ _ O (b :: q) (a :: r)) by (auto; discriminate). now rewrite K.
  - intros q k K. assert (Old : kat m q = Some k -> exists p l, In (p, l) (P ++ [(h, es)]) /\ (begins q p \/ exists x t, In (x, t) l /\ begins q (p ++ x))).
    { intros K0. destruct (ti_only _ _ I q k K0) as (p & l & J & B). exists p, l. split; [apply in_or_app; now left | exact B]. }
    assert (New : In (h, es) (P ++ [(h, es)])) by (apply in_or_app; right; now left).
    destruct (In_dec_prefix q h) as [B|N1]; [exists h, es; auto|]. destruct (In_dec_prefix h q) as [(r & ->)|N2].
    + destruct r as [|a r]; [destruct N1; rewrite app_nil_r; apply begins_refl|]. rewrite (op_in _ _ _ _ O) in K by discriminate. destruct (on_way_dec es (a :: r)) as [(y & u & Jy & (z & ->))|Nw].
      * exists h, es. split; auto. right. exists ((a :: r) ++ z), u. split; auto. rewrite app_assoc. apply begins_app.
      * rewrite (fi_out _ _ _ F) in K by exact Nw. rewrite sub_kat in K by discriminate. auto.
    + rewrite (op_out _ _ _ _ O) in K; auto.
  - exact (opened_arrays _ _ _ _ (ti_arr _ _ I) NA1 O).
Qed.
Lemma tables_ok ts : forall P m, tclear (P ++ ts) -> (forall h es, In (h, es) ts -> h <> []) -> tinv P m -> exists m', run_tables ts m = Some m' /\ tinv (P ++ ts) m'.
Proof.
  induction ts as [|[h es] ts IH]; intros P m C N I; [exists m; rewrite app_nil_r; auto|]. cbn [run_tables].
  destruct (table_ok P h es ts m (N h es ltac:(now left)) C I) as (m1 & -> & I1). destruct (IH (P ++ [(h, es)]) m1) as (m' & E & I2); auto.
  - now rewrite <- app_assoc.
  - intros h' es' J. apply (N h' es'). now right.
  - exists m'. split; auto. now rewrite <- app_assoc in I2.
Qed.
Lemma document_ok l ts : tclear (([], l) :: ts) -> (forall h es, In (h, es) ts -> h <> []) ->
  exists m0 m, put_entries l [] = Some m0 /\ run_tables ts m0 = Some m /\ tinv (([], l) :: ts) m.
Proof.
  intros C N. assert (NA : no_arrays []) by (intros [|x q]; [discriminate | rewrite kat_nil; discriminate]).
  assert (AA : all_apart l).
  { pose proof (tc_apart _ C) as A. cbn [doc_paths flat_map] in A. apply pairs_app in A as (A & _). rewrite pairs_map in A. exact A. }
  destruct (entries_ok l [] NA) as (m0 & E0 & F & NA0); auto.
  { intros p t J. apply (tc_some _ C [] l p t); [now left | exact J]. }
  { intros p t J. assert (p <> []) by (apply (tc_some _ C [] l p t); [now left | exact J]). split; [destruct p; [congruence | reflexivity]|]. intros q r Q R _. left. destruct q; [congruence | reflexivity]. }
  exists m0. destruct (tables_ok ts [([], l)] m0 C N) as (m & E & I).
  - constructor.
    + intros p es x t [[= <- <-]|[]] J. now apply F.
    + intros p es [[= <- <-]|[]]. reflexivity.
    + intros p es d r t [[= <- <-]|[]] J Nd Nr. cbn [app]. now apply (fi_on _ _ _ F (d ++ r) t d r).
    + intros p es q [[= <- <-]|[]] (r & E) Nq. destruct q; [destruct (Nq l); now left | discriminate E].
    + intros q k K. exists [], l. split; [now left|]. destruct (on_way_dec l q) as [(p & t & J & B)|Nw]; [right; eauto|].
      rewrite (fi_out _ _ _ F) in K by exact Nw. destruct q as [|x q]; [left; apply begins_refl | rewrite kat_nil in K; discriminate K].
    + exact NA0.
  - exists m. auto.
Qed.

(** What success tells. *)
Record thist (P : tdoc) (m : list (str * node)) : Prop := {
  th_leaf : forall p es x t, In (p, es) P -> In (x, t) es -> kat m (p ++ x) = Some (KVal t);
  th_head : forall p es, In (p, es) P -> kat m p = Some (KTab false false);
  th_arr : no_arrays m;
  th_apart : ForallOrdPairs apart (doc_paths P);
  th_heads : NoDup (map fst P);
  th_before : forall p es x t h hs, In (p, es) P -> In (x, t) es -> In (h, hs) P -> h <> [] -> ~ begins (p ++ x) h;
  th_only : forall q k, kat m q = Some k -> exists p es, In (p, es) P /\ (begins q p \/ exists x t, In (x, t) es /\ begins q (p ++ x))
}.
Lemma entries_only l : forall m m', no_arrays m -> ppaths l -> put_entries l m = Some m' -> forall q k, kat m' q = Some k -> kat m q = Some k \/ on_way l q.
Proof.
  induction l as [|[p t] l IH]; intros m m' NA PP E q k K; [injection E as <-; now left|].
  destruct (exists_last (PP p t ltac:(now left))) as (d & x & ->). cbn [put_entries] in E. rewrite removelast_last, last_last in E.
  destruct (put_entry d x t m) as [m1|] eqn:E1; [|discriminate E]. destruct (put_entry_kat d x t m NA) as [_ E2]. destruct (E2 m1 E1) as (_ & En).
  pose proof (entered_arrays _ _ _ _ NA En) as NA1. destruct (IH m1 m' NA1 ltac:(intros p' t' J; apply (PP p' t'); now right) E q k K) as [K1|(p' & t' & J & B)].
  - destruct (In_dec_prefix q (d ++ [x])) as [B|N]; [right; exists (d ++ [x]), t; split; [now left | exact B]|]. left. rewrite (en_out _ _ _ _ En) in K1; [exact K1|]. intros r Er. apply N. eauto.
  - right. exists p', t'. split; [now right | exact B].
Qed.
Lemma NoDup_app_iff_local {A} (l : list A) x : NoDup l -> ~ In x l -> NoDup (l ++ [x]).
Proof. intros N H. apply NoDup_rev in N. rewrite <- (rev_involutive (l ++ [x])). apply NoDup_rev. rewrite rev_app_distr. cbn. constructor; auto. now rewrite <- in_rev. Qed.
Lemma pairs_join {A} (R : A -> A -> Prop) (l1 l2 : list A) : ForallOrdPairs R l1 -> ForallOrdPairs R l2 -> (forall x y, In x l1 -> In y l2 -> R x y) -> ForallOrdPairs R (l1 ++ l2).
Proof.
  intros H1 H2 H. induction H1 as [|a l1 F H1 IH]; [exact H2|]. cbn [app]. constructor; [|apply IH; intros; apply H; auto; now right].
  apply Forall_app. split; [exact F|]. apply Forall_forall. intros y J. apply H; [now left | exact J].
Qed.
Lemma table_inv P h es m m' : h <> [] -> ppaths es -> thist P m -> put_section false h es m = Some m' -> thist (P ++ [(h, es)]) m'.
Proof.
  intros Hn Pp I Em. destruct (proj2 (put_section_kat h es m Hn (th_arr _ _ I)) m' Em) as ((HF1 & HF2) & m1 & E1 & O).
  destruct (entries_inv es (sub h m) m1 (sub_arrays h m (th_arr _ _ I)) Pp E1) as (AA & Kp & NA1 & F).
  assert (HnP : forall l, ~ In (h, l) P) by (intros l J; rewrite (th_head _ _ I _ _ J) in HF2; destruct HF2; discriminate).
  assert (Fr : forall y u, In (y, u) es -> kat m (h ++ y) = None).
  { intros y u J. destruct (F y u J) as (F1 & _). now rewrite sub_kat in F1 by (eapply Pp; eauto). }
  assert (Keep : forall q k, kat m q = Some k -> q <> h -> kat m' q = Some k).
  { intros q k K Nh. destruct (In_dec_prefix q h) as [(r & ->)|N1].
    - destruct r as [|a r]; [rewrite app_nil_r in Nh; congruence|]. destruct q as [|b q]; [exact K|]. rewrite (op_on _ _ _ _ O (b :: q) (a :: r)) by (auto; discriminate). now rewrite K.
    - destruct (In_dec_prefix h q) as [(r & ->)|N2]; [|rewrite (op_out _ _ _ _ O); auto].
      destruct r as [|a r]; [rewrite app_nil_r in Nh; congruence|]. rewrite (op_in _ _ _ _ O) by discriminate. apply Kp. now rewrite sub_kat by discriminate. }
  assert (NB : forall p l x t, In (p, l) P -> In (x, t) l -> ~ begins (p ++ x) h) by (intros p l x t J Jx B; exact (HF1 _ B t (th_leaf _ _ I _ _ _ _ J Jx))).
  constructor.
  - intros p l x t J Jx. apply in_app_or in J as [J|[[= <- <-]|[]]].
    + apply Keep; [eapply th_leaf; eauto|]. intros E. apply (NB _ _ _ _ J Jx). rewrite E. apply begins_refl.
    + rewrite (op_in _ _ _ _ O) by (eapply Pp; eauto). apply (F x t Jx).
  - intros p l J. apply in_app_or in J as [J|[[= <- <-]|[]]]; [|apply O]. apply Keep; [eapply th_head; eauto|]. intros ->. exact (HnP _ J).
  - exact (opened_arrays _ _ _ _ (th_arr _ _ I) NA1 O).
  - rewrite doc_paths_app. apply pairs_join; [exact (th_apart _ _ I) | |].
    + cbn [doc_paths flat_map]. rewrite app_nil_r. cbn [fst snd]. rewrite pairs_map. revert AA. apply pairs_impl. intros [a u] [b w] [A1 A2]. cbn [fst] in *.
      split; intros (r & E); rewrite <- app_assoc in E; apply app_inv_head in E; [apply A1 | apply A2]; exists r; exact E.
    + intros x y Jx Jy. unfold doc_paths in Jx. apply in_flat_map in Jx as ([p l] & J & Jx). apply in_map_iff in Jx as ([x0 t] & <- & Jx).
      cbn [doc_paths flat_map] in Jy. rewrite app_nil_r in Jy. cbn [fst snd] in Jy. apply in_map_iff in Jy as ([y0 u] & <- & Jy). cbn [fst snd] in *. pose proof (th_leaf _ _ I _ _ _ _ J Jx) as K. split; intros B.
      * destruct (begins_into _ _ _ B) as [B2|(d & r & Nd & E & ->)]; [exact (NB _ _ _ _ J Jx B2)|]. destruct (F _ u Jy) as (_ & _ & F3). apply (F3 d (begins_app d r) t). rewrite sub_kat by exact Nd. now rewrite <- E.
      * destruct B as (r & E). rewrite E in K. rewrite kat_app_none in K by (eapply Fr; eauto). discriminate K.
  - rewrite map_app. cbn [map fst]. apply NoDup_app_iff_local; [exact (th_heads _ _ I)|]. intros J. apply in_map_iff in J as ([p l] & <- & J). exact (HnP _ J).
  - intros p l x t p2 l2 J Jx J2 N2 B. apply in_app_or in J as [J|[[= <- <-]|[]]]; apply in_app_or in J2 as [J2|[[= <- <-]|[]]].
    + exact (th_before _ _ I _ _ _ _ _ _ J Jx J2 N2 B).
    + exact (NB _ _ _ _ J Jx B).
    + destruct B as (r & ->). pose proof (th_head _ _ I _ _ J2) as K. rewrite kat_app_none in K by (eapply Fr; eauto). discriminate K.
    + destruct B as (r & E). rewrite <- app_assoc in E. rewrite <- (app_nil_r h) in E at 1. apply app_inv_head in E. destruct x; [exact (Pp _ _ Jx eq_refl) | discriminate E].
  - intros q k K. assert (Old : kat m q = Some k -> exists p l, In (p, l) (P ++ [(h, es)]) /\ (begins q p \/ exists x t, In (x, t) l /\ begins q (p ++ x))).
    { intros K0. destruct (th_only _ _ I q k K0) as (p & l & J & B). exists p, l. split; [apply in_or_app; now left | exact B]. }
    assert (New : In (h, es) (P ++ [(h, es)])) by (apply in_or_app; right; now left).
    destruct (In_dec_prefix q h) as [B|N1]; [exists h, es; auto|]. destruct (In_dec_prefix h q) as [(r & ->)|N2].
    + destruct r as [|a r]; [destruct N1; rewrite app_nil_r; apply begins_refl|]. rewrite (op_in _ _ _ _ O) in K by discriminate.
      destruct (entries_only es _ _ (sub_arrays h m (th_arr _ _ I)) Pp E1 _ _ K) as [K0|(y & u & Jy & (z & ->))].
      * rewrite sub_kat in K0 by discriminate. auto.
      * exists h, es. split; auto. right. exists ((a :: r) ++ z), u. split; auto. rewrite app_assoc. apply begins_app.
    + rewrite (op_out _ _ _ _ O) in K; auto.
Qed.
Lemma tables_inv ts : forall P m m', (forall h es, In (h, es) ts -> h <> [] /\ ppaths es) -> thist P m -> run_tables ts m = Some m' -> thist (P ++ ts) m'.
Proof.
  induction ts as [|[h es] ts IH]; intros P m m' N I E; [injection E as <-; now rewrite app_nil_r|]. cbn [run_tables] in E.
  destruct (put_section false h es m) as [m1|] eqn:E1; [|discriminate E]. destruct (N h es ltac:(now left)) as [N1 N2].
  change ((h, es) :: ts) with ([(h, es)] ++ ts). rewrite app_assoc. apply (IH _ m1); auto; [intros; apply N; now right|]. eapply table_inv; eauto.
Qed.
Lemma document_inv l ts m0 m : ppaths l -> (forall h es, In (h, es) ts -> h <> [] /\ ppaths es) -> put_entries l [] = Some m0 -> run_tables ts m0 = Some m -> thist (([], l) :: ts) m.
Proof.
  intros Pl N E0 E. apply (tables_inv ts [([], l)] m0 m N); auto.
  assert (NA : no_arrays []) by (intros [|x q]; [discriminate | rewrite kat_nil; discriminate]).
  destruct (entries_inv l [] m0 NA Pl E0) as (AA & _ & NA0 & F). constructor.
  - intros p es x t [[= <- <-]|[]] J. apply (F x t J).
  - intros p es [[= <- <-]|[]]. reflexivity.
  - exact NA0.
  - cbn [doc_paths flat_map]. rewrite app_nil_r. cbn [fst snd app]. rewrite pairs_map. exact AA.
  - constructor; [intros []|constructor].
  - intros p es x t h hs [[= <- <-]|[]] J [[= <- <-]|[]] Hn. congruence.
  - intros q k K. exists [], l. split; [now left|]. destruct (entries_only l [] m0 NA Pl E0 q k K) as [K0|(p & t & J & B)]; [|right; eauto].
    destruct q as [|x q]; [left; apply begins_refl | rewrite kat_nil in K0; discriminate K0].
Qed.
