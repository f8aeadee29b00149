(** Proofs about the environment layer (C32-C34). *)
From Coq Require Import ZArith Bool String Lia List Permutation.
Import ListNotations.
From Verif.Model Require Import Text Num Flt Value Merge Paths Finder World Layers Config.
From Verif.Spec Require Import Spec MergeSpec ConfigSpec EnvSpec.
From Verif.Proofs Require Import Basics Merge MergeMore ConfigBuild Utf8.

(** ** trim *)
Lemma drop_while_spec {A} (f : A -> bool) l : exists a, l = a ++ drop_while f l
  /\ Forall (fun x => f x = true) a /\ (forall c r, drop_while f l = c :: r -> f c = false).
Proof.
  induction l as [|x l (a & E & F & H)]; cbn; [exists []; repeat split; auto; discriminate|].
  destruct (f x) eqn:X.
  - exists (x :: a). repeat split; auto. cbn. now rewrite E at 1.
  - exists []. repeat split; auto. intros c r Eq; injection Eq as <- _. exact X.
Qed.
Lemma drop_while_app {A} (f : A -> bool) a l : Forall (fun x => f x = true) a ->
  (forall c r, l = c :: r -> f c = false) -> drop_while f (a ++ l) = l.
Proof.
  induction 1 as [|x a X F IH]; intros H; cbn.
  - destruct l as [|c l]; auto. cbn. now rewrite (H c l eq_refl).
  - rewrite X. auto.
Qed.
Lemma Forall_rev' {A} (P : A -> Prop) l : Forall P l -> Forall P (rev l).
Proof. rewrite !Forall_forall. intros H x Hx. apply H. now apply in_rev. Qed.

Lemma white_iff c : white c <-> is_whitespace c = true.
Proof. unfold white, white_space, is_whitespace. cbn [In]. lia. Qed.
Lemma white_all l : Forall (fun c => is_whitespace c = true) l <-> Forall white l.
Proof. rewrite !Forall_forall. split; intros H x Hx; apply white_iff, H, Hx. Qed.
Lemma trim_trimmed s : trimmed s (trim s).
Proof.
  unfold trim, trim_end, trim_start.
  destruct (drop_while_spec is_whitespace s) as (a & E & F & H).
  set (u := drop_while is_whitespace s) in *.
  destruct (drop_while_spec is_whitespace (rev u)) as (b & E' & F' & H').
  set (v := drop_while is_whitespace (rev u)) in *.
  assert (Eu : u = rev v ++ rev b) by (rewrite <- rev_app_distr, <- E'; now rewrite rev_involutive).
  exists a, (rev b). split; [now rewrite <- Eu|]. split; [now apply white_all|]. split; [apply white_all; now apply Forall_rev'|]. split.
  - intros c r Ec. rewrite white_iff. rewrite Ec in Eu. cbn in Eu. rewrite (H _ _ Eu). discriminate.
  - intros c i Ei. rewrite white_iff. apply (f_equal (@rev _)) in Ei. rewrite rev_involutive, rev_app_distr in Ei. cbn in Ei.
    rewrite (H' _ _ Ei). discriminate.
Qed.
Lemma trimmed_trim s t : trimmed s t -> trim s = t.
Proof.
  intros (a & b & -> & Fa & Fb & Hs & He). apply white_all in Fa, Fb. unfold trim, trim_start, trim_end.
  assert (NW : forall c, ~ white c -> is_whitespace c = false) by (intros c; rewrite white_iff; destruct (is_whitespace c); congruence).
  destruct t as [|c t].
  - cbn [app]. assert (Z : drop_while is_whitespace (a ++ b) = []).
    { rewrite <- (app_nil_r (a ++ b)). apply drop_while_app; [now apply Forall_app | discriminate]. }
    rewrite Z. reflexivity.
  - rewrite (drop_while_app is_whitespace a) by (auto; intros c' r E; cbn in E; injection E as <- _; eapply NW, Hs; eauto).
    rewrite rev_app_distr. rewrite drop_while_app; [apply rev_involutive | now apply Forall_rev' |].
    intros c' r E. apply NW. apply (He c' (rev r)).
    apply (f_equal (@rev _)) in E. rewrite rev_involutive in E. exact E.
Qed.
Lemma trimmed_iff s t : trimmed s t <-> trim s = t.
Proof. split; [apply trimmed_trim | intros <-; apply trim_trimmed]. Qed.

(** ** prefix stripping *)
Lemma starts_with_iff p s : starts_with p s = true <-> begins_with p s.
Proof.
  unfold begins_with. revert s; induction p as [|x p IH]; intros s; cbn [starts_with].
  - split; [intros _; exists s; reflexivity | auto].
  - destruct s as [|y s].
    + split; [discriminate | intros [r E]; discriminate].
    + rewrite andb_true_iff, Z.eqb_eq, IH. split.
      * intros [-> [r ->]]. exists r; reflexivity.
      * intros [r E]. cbn [app] in E. injection E as -> ->. eauto.
Qed.
Lemma begins_with_dec p s : begins_with p s \/ ~ begins_with p s.
Proof. rewrite <- starts_with_iff. destruct (starts_with p s); [left | right]; congruence. Qed.
Lemma skipn_app_len {A} (p r : list A) : skipn (List.length p) (p ++ r) = r.
Proof. induction p; cbn; auto. Qed.
Lemma strip_fuel p : p <> [] -> forall fuel s, (List.length s <= fuel)%nat ->
  exists n, s = concat (repeat p n) ++ trim_start_matches_fuel fuel p s
    /\ ~ begins_with p (trim_start_matches_fuel fuel p s).
Proof.
  intros Np. induction fuel as [|f IH]; intros s L; cbn [trim_start_matches_fuel].
  - destruct s; [|cbn in L; lia]. exists 0%nat. split; auto. intros [r E]. destruct p; [contradiction | discriminate].
  - destruct (starts_with p s) eqn:E.
    + apply starts_with_iff in E as [r ->]. rewrite skipn_app_len.
      destruct (IH r) as (n & En & Hn).
      { rewrite app_length in L. destruct p; [contradiction | cbn in L; lia]. }
      exists (S n). split; auto. cbn [repeat concat]. rewrite <- app_assoc. now rewrite <- En.
    + exists 0%nat. split; auto. rewrite <- starts_with_iff. congruence.
Qed.
Lemma strip_all p s : p <> [] -> exists n, s = concat (repeat p n) ++ trim_start_matches p s
    /\ ~ begins_with p (trim_start_matches p s).
Proof.
  intros Np. unfold trim_start_matches. destruct p; [contradiction|]. apply strip_fuel; auto.
Qed.
Lemma copies_fun p n : forall n' k k', ~ begins_with p k -> ~ begins_with p k' ->
  concat (repeat p n) ++ k = concat (repeat p n') ++ k' -> k = k'.
Proof.
  induction n as [|n IH]; intros [|n'] k k' N N' E; cbn [repeat concat app] in E; auto.
  - subst. exfalso; apply N. rewrite <- app_assoc. eexists; reflexivity.
  - subst. exfalso; apply N'. rewrite <- app_assoc. eexists; reflexivity.
  - rewrite <- !app_assoc in E. apply app_inv_head in E. eapply IH; eauto.
Qed.
Lemma strips_iff p s k : p <> [] -> (strips p s k <-> begins_with p s /\ trim_start_matches p s = k).
Proof.
  intros Np. destruct (strip_all p s Np) as (n & E & N). split.
  - intros (n' & E' & N'). split.
    + rewrite E'. cbn [repeat concat]. rewrite <- app_assoc. eexists; reflexivity.
    + apply (copies_fun p n (S n') _ _ N N'). etransitivity; [symmetry; exact E | exact E'].
  - intros [B <-]. destruct n as [|n]; [|exists n; auto]. cbn in E. rewrite <- E in N. contradiction.
Qed.

(** ** one variable *)
Definition expose (p : str) (kv : list byte * list byte) : option (str * str) :=
  match utf8_decode (fst kv), utf8_decode (snd kv) with
  | Some name, Some s =>
    if starts_with p (trim name) then Some (trim_start_matches p (trim name), s) else None
  | _, _ => None
  end.
Lemma expose_spec p kv k s : p <> [] -> (expose p kv = Some (k, s) <-> exposes p kv k s).
Proof.
  intros Np. unfold expose, exposes. split.
  - destruct (utf8_decode (fst kv)) as [name|] eqn:E; [|discriminate].
    destruct (utf8_decode (snd kv)) as [s'|] eqn:E'; [|discriminate].
    destruct (starts_with p (trim name)) eqn:S; [|discriminate]. intros X; injection X as <- <-.
    exists name, (trim name). rewrite <- !utf8_decode_spec. repeat split; auto; [apply trim_trimmed|].
    apply strips_iff; auto. split; auto. now apply starts_with_iff.
  - intros (name & t & U & T & S & V). apply utf8_decode_spec in U, V. rewrite U, V.
    apply trimmed_iff in T; subst t. apply strips_iff in S as [B E]; auto.
    apply starts_with_iff in B. now rewrite B, E.
Qed.
Lemma env_step_expose p m kv : env_step p m kv =
  match expose p kv with Some (k, s) => minsert k (VStr s) m | None => m end.
Proof.
  unfold env_step, expose. destruct (utf8_decode (fst kv)) as [name|]; auto.
  destruct (starts_with p (trim name)); cbn [negb]; [|destruct (utf8_decode (snd kv)); auto].
  destruct (utf8_decode (snd kv)); auto.
Qed.
Lemma exposes_dec p kv k : p <> [] -> (exists s, exposes p kv k s) \/ (forall s, ~ exposes p kv k s).
Proof.
  intros Np. destruct (expose p kv) as [[k' s]|] eqn:E.
  - destruct (str_eq_dec k k') as [->|N].
    + left; exists s. now apply expose_spec.
    + right. intros s' X. apply expose_spec in X; auto. congruence.
  - right. intros s' X. apply expose_spec in X; auto. congruence.
Qed.
Lemma exposes_fun p kv k s k' s' : p <> [] -> exposes p kv k s -> exposes p kv k' s' -> k = k' /\ s = s'.
Proof. intros Np A B. apply expose_spec in A, B; auto. split; congruence. Qed.

(** ** the whole environment *)
Lemma last_exposed_snoc p env kv k s : p <> [] ->
  (last_exposed p (env ++ [kv]) k s <->
     exposes p kv k s \/ ((forall s', ~ exposes p kv k s') /\ last_exposed p env k s)).
Proof.
  intros Np. split.
  - intros (b & kv' & a & E & X & N). destruct a as [|y a _] using rev_ind.
    + apply app_inj_tail in E as [-> ->]. auto.
    + change (b ++ kv' :: a ++ [y]) with (b ++ (kv' :: a) ++ [y]) in E. rewrite app_assoc in E.
      apply app_inj_tail in E as [-> ->]. right. split; [intros s'; apply N, in_or_app; cbn; auto|].
      exists b, kv', a. repeat split; auto. intros; apply N, in_or_app; auto.
  - intros [X|[N (b & kv' & a & -> & X & N')]].
    + exists env, kv, []. repeat split; auto.
    + exists b, kv', (a ++ [kv]). repeat split; auto; [now rewrite <- app_assoc|].
      intros kv'' Hin. apply in_app_iff in Hin as [Hin|[<-|[]]]; auto.
Qed.
Lemma env_fold p env : p <> [] -> let m := fold_left (env_step p) env [] in
  NoDup (map fst m) /\ forall k x, In (k, x) m <-> exists s, last_exposed p env k s /\ x = VStr s.
Proof.
  intros Np. induction env as [|kv env [D IH]] using rev_ind; cbv zeta in *.
  - split; [constructor|]. cbn. intros k x. split; [tauto|]. intros (s & (b & kv & a & E & _) & _). destruct b; discriminate.
  - rewrite fold_left_app. cbn [fold_left]. set (m := fold_left (env_step p) env []) in *.
    rewrite env_step_expose. destruct (expose p kv) as [[k0 s0]|] eqn:E.
    + assert (X : exposes p kv k0 s0) by now apply expose_spec.
      assert (D' := minsert_nodup k0 (VStr s0) m D). split; auto.
      intros k x. rewrite <- mget_iff by auto. rewrite mget_minsert.
      destruct (str_eqb_spec k k0) as [->|N].
      * split.
        -- intros Eq; injection Eq as <-. exists s0. split; auto. apply last_exposed_snoc; auto.
        -- intros (s & L & ->). apply last_exposed_snoc in L as [Y|[Y _]]; auto.
           ++ now destruct (exposes_fun _ _ _ _ _ _ Np X Y) as [_ ->].
           ++ now apply Y in X.
      * rewrite mget_iff by auto. rewrite IH. split; intros (s & L & ->); exists s; split; auto.
        -- apply last_exposed_snoc; auto. right. split; auto. intros s' Y.
           apply N. now destruct (exposes_fun _ _ _ _ _ _ Np X Y).
        -- apply last_exposed_snoc in L as [Y|[_ Y]]; auto. exfalso; apply N.
           now destruct (exposes_fun _ _ _ _ _ _ Np X Y).
    + split; auto. intros k x. rewrite IH.
      assert (NX : forall k s, ~ exposes p kv k s) by (intros k' s' Y; apply expose_spec in Y; auto; congruence).
      split; intros (s & L & ->); exists s; split; auto.
      * apply last_exposed_snoc; auto.
      * apply last_exposed_snoc in L as [Y|[_ Y]]; auto. now apply NX in Y.
Qed.
Lemma last_exposed_fun p env k s s' : p <> [] -> last_exposed p env k s -> last_exposed p env k s' -> s = s'.
Proof.
  intros Np A B. destruct (env_fold p env Np) as [D H].
  assert (X := proj2 (H k (VStr s)) (ex_intro _ s (conj A eq_refl))).
  assert (Y := proj2 (H k (VStr s')) (ex_intro _ s' (conj B eq_refl))).
  apply (In_mget _ _ _ D) in X, Y. congruence.
Qed.

Lemma is_text_app a b : is_text (a ++ b) = is_text a && is_text b.
Proof. apply forallb_app. Qed.
Lemma exposes_text p kv k s : exposes p kv k s -> is_text k = true /\ is_text s = true.
Proof.
  intros (name & t & Un & (a & b & -> & _) & (n & -> & _) & Us). apply utf8_iff in Un as [Tn _], Us as [Ts _]. split; auto.
  rewrite !is_text_app in Tn. apply andb_true_iff in Tn as [_ Tn]. apply andb_true_iff in Tn as [Tn _].
  now apply andb_true_iff in Tn as [_ Tn].
Qed.

Lemma env_layer_read w prefix p : trimmed prefix p -> p <> [] ->
  exists v, layer_read w (env_layer_new prefix) = Ok v /\ mapv v /\ wf v
    /\ forall k x, holds v k x <-> exists s, last_exposed p (w_env w) k s /\ x = VStr s.
Proof.
  intros T Np. apply trimmed_iff in T. unfold env_layer_new. rewrite T. cbn [layer_read]. unfold env_read.
  destruct (env_fold p (w_env w) Np) as [D H]. set (m := fold_left (env_step p) (w_env w) []) in *.
  exists (VMap m). split; [destruct p; [contradiction | reflexivity]|].
  split; [eexists; reflexivity|]. split.
  - apply wf_map. split; auto. intros k x Hin. apply H in Hin as (s & (b & kv & a & _ & X & _) & ->).
    apply exposes_text in X as [Tk Ts]. auto.
  - intros k x. rewrite holds_map. apply H.
Qed.
Lemma env_layer_blank w prefix v : trimmed prefix [] ->
  layer_read w (env_layer_new prefix) = Err (BLayer (LErrorReadingValue (lit "Environment prefix cannot be empty")))
  /\ layer_write w (env_layer_new prefix) v = (w, Err (BLayer LWriteNotSupported)).
Proof. intros T. apply trimmed_iff in T. unfold env_layer_new. rewrite T. split; reflexivity. Qed.
Lemma env_layer_write w prefix v :
  layer_write w (env_layer_new prefix) v = (w, Err (BLayer LWriteNotSupported)).
Proof. reflexivity. Qed.

(** ** C34 *)
Lemma trimmed_self_iff t : trimmed t t <-> (forall c r, t = c :: r -> ~ white c) /\ (forall c i, t = i ++ [c] -> ~ white c).
Proof.
  split.
  - intros (a & b & E & Fa & Fb & H1 & H2). auto.
  - intros [H1 H2]. exists [], []. repeat split; auto. now rewrite app_nil_r.
Qed.
Lemma prefix_once p k s : p <> [] -> trimmed (p ++ k) (p ++ k) -> is_text (p ++ k) = true -> is_text s = true ->
  forall k' s', exposes p (utf8_encode (p ++ k), utf8_encode s) k' s' <->
    s' = s /\ exists n, k = concat (repeat p n) ++ k' /\ ~ begins_with p k'.
Proof.
  intros Np T Tk Ts k' s'. split.
  - intros (name & t & U & Tt & (n & E & N) & V). cbn [fst snd] in *.
    assert (name = p ++ k) by (eapply utf8_fun; [exact U | now apply utf8_of_text]). subst name.
    apply trimmed_iff in T, Tt. rewrite T in Tt. subst t.
    split; [eapply utf8_fun; [exact V | now apply utf8_of_text]|].
    cbn [repeat concat] in E. rewrite <- app_assoc in E. apply app_inv_head in E. eauto.
  - intros (-> & n & -> & N). exists (p ++ concat (repeat p n) ++ k'), (p ++ concat (repeat p n) ++ k').
    split; [now apply utf8_of_text|]. split; [exact T|]. split; [|now apply utf8_of_text].
    exists n. split; auto. cbn [repeat concat]. now rewrite <- app_assoc.
Qed.
Lemma prefix_once_iff p k s : p <> [] -> trimmed (p ++ k) (p ++ k) -> is_text (p ++ k) = true -> is_text s = true ->
  (exposes p (utf8_encode (p ++ k), utf8_encode s) k s <-> ~ begins_with p k).
Proof.
  intros Np T Tk Ts. rewrite prefix_once by auto. split.
  - intros (_ & n & _ & N). exact N.
  - intros N. split; auto. exists 0%nat. auto.
Qed.

(** What a configuration builds is a map with unique keys. *)
Lemma build_list_uniq w skip ls : (forall l x, In l ls -> layer_read w l = Ok x -> wf x) ->
  forall acc v, uniq acc -> mapv acc -> build_list w skip acc ls = Ok v -> uniq v /\ mapv v.
Proof.
  induction ls as [|l ls IH]; intros Wl acc v Ua Ma; cbn; [intros E; injection E as <-; auto|].
  assert (Wl' : forall l' x, In l' ls -> layer_read w l' = Ok x -> wf x) by (intros; eapply Wl; eauto; right; auto).
  destruct (layer_read w l) as [x|e] eqn:E.
  - apply IH; auto; [|now apply v_merge_mapv]. apply v_merge_uniq; auto. apply wf_uniq. eapply Wl; eauto; left; auto.
  - destruct skip; [now apply IH | discriminate].
Qed.
Lemma build_uniq w c r skip v : registered c r ->
  (forall n l x, In (n, l) r -> layer_read w l = Ok x -> wf x) ->
  build_value w c skip = Ok v -> uniq v /\ mapv v.
Proof.
  intros R W B. rewrite (build_value_list w c r skip R) in B. eapply build_list_uniq; [| | |exact B].
  - intros l x Hl. apply in_map_iff in Hl as ([n' l'] & <- & Hin). eauto.
  - apply UMap; [constructor | intros ? ? []].
  - eexists; reflexivity.
Qed.

(** ** C32 *)
Lemma env_overrides w c c0 r n prefix p v v0 skip :
  registered c (r ++ [(n, env_layer_new prefix)]) -> registered c0 r ->
  (forall n' l x, In (n', l) r -> layer_read w l = Ok x -> wf x) ->
  trimmed prefix p -> p <> [] ->
  build_value w c skip = Ok v -> build_value w c0 skip = Ok v0 ->
  forall k,
    (forall s, last_exposed p (w_env w) k s -> holds v k (VStr s) /\ v_get v k = VStr s)
    /\ ((forall kv s, In kv (w_env w) -> ~ exposes p kv k s) ->
          (forall x, holds v k x <-> holds v0 k x) /\ v_get v k = v_get v0 k).
Proof.
  intros R R0 W T Np B B0 k.
  destruct (build_uniq w c0 r skip v0 R0 W B0) as [U0 M0].
  destruct (env_layer_read w prefix p T Np) as (e & Re & Me & We & H).
  rewrite (build_value_list w c _ skip R), map_app, build_list_app in B. cbn [map snd] in B.
  rewrite (build_value_list w c0 _ skip R0) in B0. rewrite B0 in B. cbn [build_list] in B. rewrite Re in B.
  injection B as <-.
  apply wf_uniq in We as Ue.
  assert (Uv : uniq (v_merge v0 e)) by now apply v_merge_uniq.
  split.
  - intros s L. assert (He : holds e k (VStr s)) by (apply H; eauto).
    assert (Hv : holds (v_merge v0 e) k (VStr s)).
    { apply merge_holds; auto. right; left. split; auto. intros y _ [_ [? E]]; discriminate. }
    split; auto. now apply v_get_holds.
  - intros N. assert (L : lacks e k).
    { intros x Hx. apply H in Hx as (s & (b & kv & a & E & X & _) & _). eapply N; [|exact X].
      rewrite E. apply in_or_app; cbn; auto. }
    assert (Q : forall x, holds (v_merge v0 e) k x <-> holds v0 k x).
    { intros x. rewrite merge_holds by auto. split; [|auto].
      intros [[_ X]|[[X _]|(y & z & _ & X & _)]]; auto; now apply L in X. }
    split; auto. destruct (holds_or_lacks v0 k) as [[x Hx]|Lx].
    + rewrite (v_get_holds _ _ _ U0 Hx). apply v_get_holds; auto. now apply Q.
    + rewrite (v_get_lacks _ _ Lx). apply v_get_lacks. intros x Hx. apply Q in Hx. now apply Lx in Hx.
Qed.
